(* Property C52: the normal vectors returned with the distances (normal=True). *)
From Coq Require Import Reals ZArith List Lra Psatz Bool.
From Verif Require Import ElementModel ElementProofs ElementLinesProofs ElementFrameProofs ElementProps
  ElementCylProofs ElementCylProps.
Import ListNotations.
Open Scope R_scope.

(* polygons: unit vector orthogonal to the edge that was hit, against the velocity *)
Theorem C52_edges q v es dmax : cap_ok dmax -> 0 < h_alpha (distance_lines q v es dmax) ->
  let h := distance_lines q v es dmax in
  exists e, In e es /\ seg e (at2 q v (h_alpha h)) /\ h_border h = e_label e /\
    dot2 (h_normal h) (e_v e) = 0 /\ norm2 (h_normal h) = 1 /\ dot2 (h_normal h) v < 0.
Proof.
  intros Hm P. cbv zeta. destruct (lines_spec q v es dmax Hm) as [(A & _)|(_ & L & (e & X1 & X2 & X3 & X4 & X5) & I)].
  - rewrite A in P. lra.
  - exists e. repeat split; auto; apply X5.
Qed.

Lemma unit2 gx gy s : s = 1 \/ s = -1 -> 0 < gx ^ 2 + gy ^ 2 ->
  let n := sqrt ((s * gx) ^ 2 + (s * gy) ^ 2) in
  0 < n /\ norm2 (P2 (s * gx / n) (s * gy / n)) = 1.
Proof.
  intros S G n.
  assert (E : (s * gx) ^ 2 + (s * gy) ^ 2 = gx ^ 2 + gy ^ 2) by (destruct S as [-> | ->]; ring).
  assert (P : 0 < n) by (apply sqrt_lt_R0; lra).
  assert (Q : n * n = gx ^ 2 + gy ^ 2) by (unfold n; rewrite sqrt_sqrt; lra).
  split; auto. unfold norm2, dot2; cbn [px py]. rewrite <- sqrt_1. f_equal.
  replace (s * gx / n * (s * gx / n) + s * gy / n * (s * gy / n)) with (((s * gx) ^ 2 + (s * gy) ^ 2) / (n * n)) by (field; lra).
  rewrite E, Q. field. lra.
Qed.
Lemma unit3 gx gy gz s : s = 1 \/ s = -1 -> 0 < gx ^ 2 + gy ^ 2 + gz ^ 2 ->
  let n := sqrt ((s * gx) ^ 2 + (s * gy) ^ 2 + (s * gz) ^ 2) in
  0 < n /\ norm3 (P3 (s * gx / n) (s * gy / n) (s * gz / n)) = 1.
Proof.
  intros S G n.
  assert (E : (s * gx) ^ 2 + (s * gy) ^ 2 + (s * gz) ^ 2 = gx ^ 2 + gy ^ 2 + gz ^ 2) by (destruct S as [-> | ->]; ring).
  assert (P : 0 < n) by (apply sqrt_lt_R0; lra).
  assert (Q : n * n = gx ^ 2 + gy ^ 2 + gz ^ 2) by (unfold n; rewrite sqrt_sqrt; lra).
  split; auto. unfold norm3, dot3; cbn [qx qy qz]. rewrite <- sqrt_1. f_equal.
  replace (s * gx / n * (s * gx / n) + s * gy / n * (s * gy / n) + s * gz / n * (s * gz / n))
    with (((s * gx) ^ 2 + (s * gy) ^ 2 + (s * gz) ^ 2) / (n * n)) by (field; lra).
  rewrite E, Q. field. lra.
Qed.
Lemma sense_dot n s g : s = (if Rltb 0 g then -1 else 1) -> 0 < n -> s * g / n <= 0.
Proof.
  intros -> P. assert (0 < / n) by now apply Rinv_0_lt_compat. cmp 0 g Rltb; unfold Rdiv; nra.
Qed.

(* the ellipse: a b are the parameters of the point that was hit, the tangent there is -b v1 + a v2 *)
Theorem C52_ellipse e q v dmax a b : indep2 (l_v1 e) (l_v2 e) ->
  let h := ellipse_distance e q v dmax in
  0 < h_alpha h -> a ^ 2 + b ^ 2 = 1 ->
  at2 q v (h_alpha h) = comb2 (l_center e) (l_v1 e) (l_v2 e) a b ->
  dot2 (h_normal h) (comb2 (P2 0 0) (l_v1 e) (l_v2 e) (- b) a) = 0 /\ norm2 (h_normal h) = 1 /\ dot2 (h_normal h) v <= 0.
Proof.
  intros H. cbv zeta. unfold ellipse_distance. set (c := l_center e). set (v1 := l_v1 e) in *. set (v2 := l_v2 e) in *.
  clearbody c v1 v2. unfold distance_ellipse. cbv zeta.
  set (al := first_root _ _ _ dmax). destruct (Rltb 0 al) eqn:E; cbn [h_alpha h_normal].
  2:{ apply Rltb_false in E. lra. }
  intros P AB AT. assert (AX := f_equal px AT). assert (AY := f_equal py AT). cbn [at2 comb2 px py] in AX, AY.
  assert (XE : px q - px c + al * px v = a * px v1 + b * px v2) by lra.
  assert (YE : py q - py c + al * py v = a * py v1 + b * py v2) by lra. rewrite XE, YE. clear AT AX AY XE YE.
  set (gx := 2 * _ * _ - _). set (gy := 2 * (a * py v1 + b * py v2) * _ - _).
  set (D := px v1 * py v2 - py v1 * px v2).
  assert (G : forall a' b', gx * (a' * px v1 + b' * px v2) + gy * (a' * py v1 + b' * py v2) = 2 * D ^ 2 * (a * a' + b * b'))
    by (intros; unfold gx, gy, D; ring).
  assert (DP : 0 < D ^ 2). { unfold indep2 in H. apply sq_pos. exact H. }
  assert (NZ : 0 < gx ^ 2 + gy ^ 2).
  { pose proof (G a b) as GG. replace (a * a + b * b) with 1 in GG by lra.
    pose proof (pow2_ge_0 gx). pose proof (pow2_ge_0 gy).
    destruct (Req_dec gx 0) as [Z1|Z1]; [|apply sq_pos in Z1; lra].
    destruct (Req_dec gy 0) as [Z2|Z2]; [|apply sq_pos in Z2; lra]. rewrite Z1, Z2 in GG. lra. }
  set (s := if Rltb 0 _ then -1 else 1).
  assert (S : s = 1 \/ s = -1) by (clear E; unfold s; destruct (Rltb _ _); auto).
  destruct (unit2 gx gy s S NZ) as [N1 N2]. set (n := sqrt _) in *. split; [|split; [exact N2|]].
  - unfold dot2; cbn [px py comb2].
    replace (s * gx / n * (0 + - b * px v1 + a * px v2) + s * gy / n * (0 + - b * py v1 + a * py v2))
      with (s / n * (gx * (- b * px v1 + a * px v2) + gy * (- b * py v1 + a * py v2))) by (field; lra).
    rewrite G. replace (a * - b + b * a) with 0 by ring. ring.
  - unfold dot2; cbn [px py]. pose proof (sense_dot n s _ eq_refl N1) as SD.
    replace (s * gx / n * px v + s * gy / n * py v) with (s * (gx * px v + gy * py v) / n) by (field; lra). exact SD.
Qed.
Theorem C52_ellipsoid e q v dmax a b d : indep3 (o_v1 e) (o_v2 e) (o_v3 e) ->
  let h := ellipsoid_distance e q v dmax in
  0 < h_alpha h -> a ^ 2 + b ^ 2 + d ^ 2 = 1 ->
  at3 q v (h_alpha h) = comb3 (o_center e) (o_v1 e) (o_v2 e) (o_v3 e) a b d ->
  (forall a' b' d', a * a' + b * b' + d * d' = 0 ->
     dot3 (h_normal h) (comb3 (P3 0 0 0) (o_v1 e) (o_v2 e) (o_v3 e) a' b' d') = 0) /\
  norm3 (h_normal h) = 1 /\ dot3 (h_normal h) v <= 0.
Proof.
  intros H. cbv zeta. unfold ellipsoid_distance. set (c := o_center e). set (v1 := o_v1 e) in *. set (v2 := o_v2 e) in *.
  set (v3 := o_v3 e) in *. clearbody c v1 v2 v3. unfold distance_ellipsoid. cbv zeta.
  set (al := first_root _ _ _ dmax). destruct (Rltb 0 al) eqn:E; cbn [h_alpha h_normal].
  2:{ apply Rltb_false in E. lra. }
  intros P AB AT. assert (AX := f_equal qx AT). assert (AY := f_equal qy AT). assert (AZ := f_equal qz AT).
  cbn [at3 comb3 qx qy qz] in AX, AY, AZ.
  assert (XE : qx q - qx c + al * qx v = a * qx v1 + b * qx v2 + d * qx v3) by lra.
  assert (YE : qy q - qy c + al * qy v = a * qy v1 + b * qy v2 + d * qy v3) by lra.
  assert (ZE : qz q - qz c + al * qz v = a * qz v1 + b * qz v2 + d * qz v3) by lra.
  rewrite XE, YE, ZE. clear AT AX AY AZ XE YE ZE.
  set (x := a * qx v1 + b * qx v2 + d * qx v3). set (y := a * qy v1 + b * qy v2 + d * qy v3).
  set (z := a * qz v1 + b * qz v2 + d * qz v3). set (k := ellipsoid_eq v1 v2 v3).
  set (gx := 2 * k_xx k * x + _ + _). set (gy := 2 * k_yy k * y + _ + _). set (gz := 2 * k_zz k * z + _ + _).
  set (D := det3 v1 v2 v3).
  assert (G : forall a' b' d',
    gx * (a' * qx v1 + b' * qx v2 + d' * qx v3) + gy * (a' * qy v1 + b' * qy v2 + d' * qy v3)
    + gz * (a' * qz v1 + b' * qz v2 + d' * qz v3) = 2 * D ^ 2 * (a * a' + b * b' + d * d')).
  { intros. unfold gx, gy, gz, D, x, y, z, k, ellipsoid_eq. cbn [k_xx k_yy k_zz k_xy k_yz k_zx]. unf3. ring. }
  assert (DP : 0 < D ^ 2). { unfold indep3 in H. apply sq_pos. exact H. }
  assert (NZ : 0 < gx ^ 2 + gy ^ 2 + gz ^ 2).
  { pose proof (G a b d) as GG. replace (a * a + b * b + d * d) with 1 in GG by lra.
    pose proof (pow2_ge_0 gx). pose proof (pow2_ge_0 gy). pose proof (pow2_ge_0 gz).
    destruct (Req_dec gx 0) as [Z1|Z1]; [|apply sq_pos in Z1; lra].
    destruct (Req_dec gy 0) as [Z2|Z2]; [|apply sq_pos in Z2; lra].
    destruct (Req_dec gz 0) as [Z3|Z3]; [|apply sq_pos in Z3; lra]. rewrite Z1, Z2, Z3 in GG. lra. }
  clearbody gx gy gz. set (s := if Rltb 0 _ then -1 else 1).
  assert (S : s = 1 \/ s = -1) by (clear E; unfold s; destruct (Rltb _ _); auto).
  destruct (unit3 gx gy gz s S NZ) as [N1 N2]. set (n := sqrt _) in *. split; [|split; [exact N2|]].
  - intros a' b' d' O. unfold dot3; cbn [qx qy qz comb3].
    match goal with |- ?L = 0 => replace L with (s / n * (gx * (a' * qx v1 + b' * qx v2 + d' * qx v3) +
      gy * (a' * qy v1 + b' * qy v2 + d' * qy v3) + gz * (a' * qz v1 + b' * qz v2 + d' * qz v3))) by (field; lra) end.
    rewrite G, O. ring.
  - unfold dot3; cbn [qx qy qz]. pose proof (sense_dot n s _ eq_refl N1) as SD.
    match goal with |- ?L <= 0 => replace L with (s * (gx * qx v + gy * qy v + gz * qz v) / n) by (field; lra) end. exact SD.
Qed.

(* The circle and the sphere: the normal is the radius. *)
Theorem C52_circle c q v dmax : 0 < c_radius c ->
  let h := circle_distance c q v dmax in
  0 < h_alpha h -> norm2 (sub2 (at2 q v (h_alpha h)) (c_center c)) = c_radius c ->
  norm2 (h_normal h) = 1 /\ dot2 (h_normal h) v <= 0 /\
  exists k, h_normal h = scale2 k (sub2 (at2 q v (h_alpha h)) (c_center c)).
Proof.
  intros H. cbv zeta. set (e := mkEllipse (c_center c) (P2 (c_radius c * 1) (c_radius c * 0)) (P2 (c_radius c * 0) (c_radius c * 1)) (c_label c)).
  change (circle_distance c q v dmax) with (ellipse_distance e q v dmax). intros P R.
  apply (circle_rim c _ H) in R. destruct R as (a & b & AB & AT).
  destruct (C52_ellipse e q v dmax a b (circle_indep c H) P AB AT) as (T & U & V).
  split; [exact U|]. split; [exact V|]. set (n := h_normal (ellipse_distance e q v dmax)) in *. rewrite AT.
  unfold dot2 in T. cbn [comb2 px py e l_v1 l_v2] in T.
  exists ((a * px n + b * py n) / c_radius c). apply p2_eq; cbn [scale2 sub2 comb2 px py].
  - assert (E : px n = a * (a * px n + b * py n)).
    { assert (- b * px n + a * py n = 0). { apply (Rmult_eq_reg_l (c_radius c)); lra. }
      replace (a * (a * px n + b * py n)) with (a ^ 2 * px n + b * (a * py n)) by ring.
      replace (a * py n) with (b * px n) by lra. replace (a ^ 2 * px n + b * (b * px n)) with ((a ^ 2 + b ^ 2) * px n) by ring.
      rewrite AB. ring. }
    rewrite E at 1. field. lra.
  - assert (E : py n = b * (a * px n + b * py n)).
    { assert (- b * px n + a * py n = 0). { apply (Rmult_eq_reg_l (c_radius c)); lra. }
      replace (b * (a * px n + b * py n)) with (a * (b * px n) + b ^ 2 * py n) by ring.
      replace (b * px n) with (a * py n) by lra. replace (a * (a * py n) + b ^ 2 * py n) with ((a ^ 2 + b ^ 2) * py n) by ring.
      rewrite AB. ring. }
    rewrite E at 1. field. lra.
Qed.

(* The cylinder: the normal of the base is mapped by the matrix of the vectors, so it is in
   general neither a unit vector nor orthogonal to the surface. *)
Lemma cylinder_normal y q v m :
  let c := frame y q in let vc := to_frame y v in
  let s := side_time y c vc m in let t := end_time (y_base y) c vc m (1 - qz c) in
  let b := end_time (y_base y) c vc m (- (1 + qz c)) in
  let r := Rmin (Rmin s t) b in
  r <> b -> r = t -> h_normal (cylinder_distance y q v m) = y_w y.
Proof.
  cbv zeta. intros H1 H2. unfold side_time, end_time in *. cbv zeta in *.
  unfold cylinder_distance. cbv zeta. fold (frame y q). fold (flat (frame y q)). fold (flat (to_frame y v)).
  apply (Reqb_false _ _) in H1. apply Reqb_iff in H2. rewrite H1, H2. cbn [h_normal qx qy qz].
  apply p3_eq; cbn [qx qy qz]; ring.
Qed.
Theorem C52_cylinder_refuted : exists y q v,
  indep3 (y_v1 y) (y_v2 y) (y_w y) /\ dot3 (y_v1 y) (y_v2 y) = 0 /\
  h_alpha (cylinder_distance y q v 2) = 1 /\ surface y (at3 q v 1) /\ qz (frame y (at3 q v 1)) = 1 /\
  (* the end contains the directions v1 and v2 *)
  dot3 (h_normal (cylinder_distance y q v 2)) (y_v1 y) <> 0 /\
  norm3 (h_normal (cylinder_distance y q v 2)) <> 1.
Proof.
  set (y := mkCyl (P3 0 0 0) (P3 1 0 0) (P3 0 1 0) (P3 1 0 1) BCircle (fun _ => 0%Z) 1 2).
  assert (I : indep3 (y_v1 y) (y_v2 y) (y_w y)) by (unfold indep3; cbn [y y_v1 y_v2 y_w]; unf3; lra).
  set (q := P3 (3/2) 0 2). set (v := P3 0 0 (-1)). assert (TG : 2 < tgv) by (unfold tgv; simpl; lra).
  assert (FR : forall x, frame y x = P3 (qx x - qz x) (qy x) (qz x)).
  { intros x. rewrite <- (comb_frame y (qx x - qz x) (qy x) (qz x) I). f_equal. apply p3_eq; cbn; field. }
  assert (FV : to_frame y v = P3 1 0 (-1)).
  { transitivity (frame y v); [unfold frame; f_equal; apply p3_eq; cbn; field|]. rewrite FR. apply p3_eq; cbn; ring. }
  assert (FQ : frame y q = P3 (-1/2) 0 2). { rewrite FR. apply p3_eq; cbn; field. }
  assert (OFF : ~ surface y q).
  { rewrite surface_frame by auto. rewrite FQ. intros [[_ Z]|[_ Z]]; cbn [qz] in Z; lra. }
  assert (AP : apart (qz (frame y q)) (qz (to_frame y v)) 2) by (left; rewrite FV; cbn; lra).
  assert (AT : at3 q v 1 = P3 (3/2) 0 1) by (apply p3_eq; cbn; field).
  assert (F1 : frame y (at3 q v 1) = P3 (1/2) 0 1). { rewrite AT, FR. apply p3_eq; cbn; field. }
  assert (T : end_time (y_base y) (frame y q) (to_frame y v) 2 (1 - qz (frame y q)) = 1).
  { apply (end_hit y q v 2 (conj (Rlt_0_2 : 0 < 2) TG) AP 1 _ 1); auto; try lra.
    - rewrite <- frame_at by auto. rewrite F1. unfold Shape, flat; cbn. lra.
    - rewrite <- frame_at by auto. rewrite F1. reflexivity. }
  assert (B : end_time (y_base y) (frame y q) (to_frame y v) 2 (- (1 + qz (frame y q))) = tgv).
  { destruct (end_some y q v 2 I OFF AP (- (1 + qz (frame y q))) (-1) (or_intror (conj eq_refl eq_refl))) as [B|(B1 & B2 & B3)]; auto.
    exfalso. set (t := end_time _ _ _ _ (- _)) in *. rewrite FQ, FV in B3. cbn [at3 qz] in B3. lra. }
  assert (S : 1 < side_time y (frame y q) (to_frame y v) 2).
  { destruct (side_some y q v 2 (conj (Rlt_0_2 : 0 < 2) TG)) as [S|(S1 & S2 & S3)]; [rewrite S; lra|].
    set (s := side_time _ _ _ _) in *. rewrite FQ, FV in S2. unfold Outline, flat in S2.
    cbn [y y_base outline at3 qx qy px py] in S2. nra. }
  assert (R : Rmin (Rmin (side_time y (frame y q) (to_frame y v) 2) 1) tgv = 1) by (rewrite (Rmin_right _ 1) by lra; apply Rmin_left; lra).
  assert (A : h_alpha (cylinder_distance y q v 2) = 1).
  { rewrite cylinder_alpha. cbv zeta. rewrite T, B, R. now rewrite (proj2 (Reqb_false 1 tgv)) by lra. }
  assert (N : h_normal (cylinder_distance y q v 2) = P3 1 0 1).
  { change (P3 1 0 1) with (y_w y). apply cylinder_normal; rewrite T, B, R; lra. }
  exists y, q, v. split; [auto|]. split; [cbn [y y_v1 y_v2]; unf3; ring|]. split; [exact A|].
  split; [|split; [now rewrite F1|split]].
  - apply surface_frame; auto. rewrite F1. right. split; [unfold Shape, flat; cbn; lra|]. left. reflexivity.
  - rewrite N. cbn [y y_v1]. unf3. lra.
  - rewrite N. intros C. pose proof (norm3_sq (P3 1 0 1)) as E. rewrite C in E. unf3. lra.
Qed.
Example C52_ex :
  h_normal (circle_distance (mkCircle (P2 0 0) 1 7) (P2 2 0) (P2 (-4) 0) (Some 1)) = P2 1 0.
Proof.
  destruct C41_ex as [A _]. set (c := mkCircle (P2 0 0) 1 7) in *. set (h := circle_distance _ _ _ _) in *.
  assert (N1 : norm2 (P2 1 0) = 1).
  { unfold norm2, dot2; cbn [px py]. match goal with |- sqrt ?x = 1 => replace x with 1 by ring end. apply sqrt_1. }
  assert (AT : sub2 (at2 (P2 2 0) (P2 (-4) 0) (h_alpha h)) (c_center c) = P2 1 0).
  { rewrite A. apply p2_eq; cbn; field. }
  destruct (C52_circle c (P2 2 0) (P2 (-4) 0) (Some 1)) as (U & V & k & K); fold h.
  - cbn; lra.
  - rewrite A; lra.
  - rewrite AT. exact N1.
  - fold h in U, V, K. rewrite AT in K. rewrite K in *. unfold dot2 in V. cbn [scale2 px py] in V.
    assert (S : sqrt (k ^ 2) = 1).
    { rewrite <- U. unfold norm2, dot2. cbn [scale2 px py]. f_equal. ring. }
    assert (k = 1). { rewrite <- (Rabs_right k), <- sqrt_Rsqr_abs by lra. rewrite <- S. f_equal. unfold Rsqr. ring. } subst k. apply p2_eq; cbn; ring.
Qed.
Example C53_ex :
  let y := unit_cyl BCircle in
  0 < h_alpha (cylinder_distance y (P3 0 0 8) (P3 0 0 (-1)) 5) <= 5.
Proof.
  cbv zeta. pose proof (unit_cyl_indep BCircle) as I.
  assert (FR : forall x, frame (unit_cyl BCircle) x = P3 (qx x) (qy x) (qz x / 4)).
  { intros x. rewrite <- (comb_frame (unit_cyl BCircle) (qx x) (qy x) (qz x / 4) I). f_equal. apply p3_eq; cbn; field. }
  apply C53_enter; auto.
  - split; [lra|]. unfold tgv; simpl; lra.
  - left. unfold to_frame. cbn [unit_cyl y_v1 y_v2 y_w qz]. unf3. intros C. field_simplify in C. lra.
  - unfold cylinder_inside. fold (frame (unit_cyl BCircle) (P3 0 0 8)). rewrite FR. cbn [qx qy qz].
    rewrite (proj2 (Rleb_false (Rabs (8 / 4)) 1)); [apply andb_false_r|]. rewrite Rabs_right; lra.
  - apply C40_inside; auto. exists 0, 0, (3/4). split; [apply p3_eq; cbn; field|]. cbn. lra.
Qed.
(* The face of the unit cube seen from the right carries the label 2. *)
Example C53_face_ex :
  let y := mkCyl (P3 0 0 0) (P3 1 0 0) (P3 0 1 0) (P3 0 0 1) BParallelogram Z.of_nat 10 11 in
  let h := cylinder_distance y (P3 2 (1/2) 0) (P3 (-2) 0 0) 1 in
  h_alpha h = 1/2 /\ h_border h = 2%Z.
Proof.
  intros y h. set (q := P3 2 (1/2) 0) in *. set (v := P3 (-2) 0 0) in *.
  assert (I : indep3 (y_v1 y) (y_v2 y) (y_w y)) by (unfold indep3; cbn [y y_v1 y_v2 y_w]; unf3; lra).
  assert (FR : forall x, frame y x = x).
  { intros x. assert (E := comb_frame y (qx x) (qy x) (qz x) I).
    assert (X : comb3 (y_center y) (y_v1 y) (y_v2 y) (y_w y) (qx x) (qy x) (qz x) = x) by (apply p3_eq; cbn; ring).
    rewrite X in E. rewrite E. now apply p3_eq. }
  assert (M : 0 < 1 < tgv) by (split; [lra|unfold tgv; simpl; lra]).
  assert (AP : apart (qz (frame y q)) (qz (to_frame y v)) 1).
  { right. rewrite FR. cbn [q qz]. rewrite Rminus_0_r, Rplus_0_r, Rabs_R1. simpl. lra. }
  assert (SF : forall x, surface y x <-> surf BParallelogram x).
  { intros x. rewrite surface_frame by auto. now rewrite FR. }
  assert (OFF : ~ surface y q).
  { rewrite SF. unfold surf, Outline, Shape, flat. cbn. lra. }
  assert (P : 0 < h_alpha h <= 1).
  { apply C53_enter; auto.
    - destruct (cylinder_inside y q) eqn:E; auto. exfalso. apply C40_inside in E; auto.
      destruct E as (a & b & d & E & S & _). cbn in S. assert (qx q = a) by (rewrite E; cbn; ring). cbn in *. lra.
    - apply C40_inside; auto. exists 0, (1/2), 0. split; [apply p3_eq; cbn; field|]. cbn. lra. }
  destruct (C53_distance_partial y q v 1 I M OFF AP) as [(A & _)|(_ & S & F)]; [fold h in A; lra|]. fold h in S, F.
  assert (T : h_alpha h = 1/2).
  { apply SF in S. unfold surf, Outline, Shape, flat in S. cbn in S.
    destruct (Rlt_dec (1/2) (h_alpha h)) as [L|L]; [|lra].
    exfalso. apply (F (1/2)); [lra|auto|]. apply SF. unfold surf, Outline, Shape, flat. cbn. lra. }
  split; auto.
  destruct (C53_face y q v 1 I M OFF AP (proj1 P)) as [(_ & Z & _)|[(_ & Z & _)|(i & L & G)]]; rewrite FR in *; [fold h in Z|fold h in Z|fold h in L, G].
  - cbn in Z. lra.
  - cbn in Z. lra.
  - rewrite L. rewrite T in G. cbn [y y_label]. destruct i as [|[|[|[|i]]]]; cbn in G; try lra; try contradiction; reflexivity.
Qed.

Print Assumptions C40_inside. Print Assumptions C40_refuted. Print Assumptions C40_parallelepiped_refuted.
Print Assumptions C40_partial. Print Assumptions C40_full_axis. Print Assumptions C40_oblique_circle_refuted.
Print Assumptions C53_distance_partial. Print Assumptions C53_enter. Print Assumptions C53_label.
Print Assumptions C40_parallelepiped_inside. Print Assumptions C53_face. Print Assumptions C53_colours_refuted.
Print Assumptions C53_flat_refuted. Print Assumptions C53_label_refuted.
Print Assumptions C52_edges. Print Assumptions C52_ellipse. Print Assumptions C52_ellipsoid. Print Assumptions C52_circle.
Print Assumptions C52_cylinder_refuted.
