(* Properties C37, C38, C39, C41 and C52: the elements of the geometry. *)
From Coq Require Import Reals ZArith List Lra Psatz Bool.
From Verif Require Import ElementModel ElementProofs ElementLinesProofs ElementFrameProofs.
Import ListNotations.
Open Scope R_scope.

Definition in_box2 (b : p2 * p2) (q : p2) : Prop :=
  px (fst b) <= px q <= px (snd b) /\ py (fst b) <= py q <= py (snd b).
Definition in_box3 (b : p3 * p3) (q : p3) : Prop :=
  qx (fst b) <= qx q <= qx (snd b) /\ qy (fst b) <= qy q <= qy (snd b) /\ qz (fst b) <= qz q <= qz (snd b).
(* b is the smallest box around S *)
Definition smallest2 (S : p2 -> Prop) (b : p2 * p2) : Prop :=
  (forall q, S q -> in_box2 b q) /\
  forall b', (forall q, S q -> in_box2 b' q) -> in_box2 b' (fst b) /\ in_box2 b' (snd b).
Definition smallest3 (S : p3 -> Prop) (b : p3 * p3) : Prop :=
  (forall q, S q -> in_box3 b q) /\
  forall b', (forall q, S q -> in_box3 b' q) -> in_box3 b' (fst b) /\ in_box3 b' (snd b).

Lemma abs_le x r : 0 <= r -> x ^ 2 <= r ^ 2 -> - r <= x <= r.
Proof. intros. split; nra. Qed.
Lemma sqrt_le_iff x r : 0 <= x -> 0 <= r -> (sqrt x <= r <-> x <= r ^ 2).
Proof.
  intros Hx Hr. pose proof (sqrt_pos x). pose proof (sqrt_sqrt x Hx). split; intros; [nra|].
  destruct (Rle_dec (sqrt x) r); auto. nra.
Qed.

Lemma sos2 x y : 0 <= x * x + y * y.
Proof. pose proof (Rle_0_sqr x). pose proof (Rle_0_sqr y). unfold Rsqr in *. lra. Qed.
Lemma sos3 x y z : 0 <= x * x + y * y + z * z.
Proof. pose proof (Rle_0_sqr x). pose proof (Rle_0_sqr y). pose proof (Rle_0_sqr z). unfold Rsqr in *. lra. Qed.

(* ---- C37 ---- *)
Theorem C37_circle_inside c q : 0 <= c_radius c ->
  (circle_inside c q = true <-> norm2 (sub2 q (c_center c)) <= c_radius c).
Proof.
  intros H. unfold circle_inside. rewrite Rleb_iff. unfold norm2, dot2, sub2; cbn [px py].
  rewrite sqrt_le_iff; [|apply sos2|auto]. split; intros; lra.
Qed.
Theorem C37_circle_box c : 0 <= c_radius c ->
  smallest2 (fun q => circle_inside c q = true) (circle_bounds c).
Proof.
  intros H. split.
  - intros q. unfold circle_inside, in_box2, circle_bounds; cbn. rewrite Rleb_iff. intros I.
    set (x := px q - px (c_center c)) in *. set (y := py q - py (c_center c)) in *.
    assert (- c_radius c <= x <= c_radius c) by (apply abs_le; auto; nra).
    assert (- c_radius c <= y <= c_radius c) by (apply abs_le; auto; nra). unfold x, y in *. lra.
  - intros b' I.
    assert (M : forall q, (px q - px (c_center c)) ^ 2 + (py q - py (c_center c)) ^ 2 <= c_radius c ^ 2 -> in_box2 b' q).
    { intros q L. apply I. unfold circle_inside. now apply Rleb_iff. }
    set (r := c_radius c) in *. set (cx := px (c_center c)) in *. set (cy := py (c_center c)) in *.
    destruct (M (P2 (cx - r) cy)) as [M1 _]; [cbn; nra|].
    destruct (M (P2 (cx + r) cy)) as [M2 _]; [cbn; nra|].
    destruct (M (P2 cx (cy - r))) as [_ M3]; [cbn; nra|].
    destruct (M (P2 cx (cy + r))) as [_ M4]; [cbn; nra|].
    unfold in_box2, circle_bounds. cbn in *. fold r cx cy. lra.
Qed.
Theorem C37_ellipse_inside e q : indep2 (l_v1 e) (l_v2 e) ->
  (ellipse_inside e q = true <-> disk2 (l_center e) (l_v1 e) (l_v2 e) q).
Proof. intros H. rewrite <- form2_disk by auto. unfold ellipse_inside. apply Rleb_iff. Qed.

Lemma max_norm2 (v1 v2 : p2) a b : dot2 v1 v2 = 0 -> a ^ 2 + b ^ 2 <= 1 ->
  let r := Rmax (norm2 v1) (norm2 v2) in
  (a * px v1 + b * px v2) ^ 2 + (a * py v1 + b * py v2) ^ 2 <= r ^ 2.
Proof.
  intros D L. cbv zeta. set (r := Rmax _ _).
  assert (N1 : norm2 v1 ^ 2 = dot2 v1 v1) by (unfold norm2; rewrite pow2_sqrt; auto; apply sos2).
  assert (N2 : norm2 v2 ^ 2 = dot2 v2 v2) by (unfold norm2; rewrite pow2_sqrt; auto; apply sos2).
  assert (G1 : dot2 v1 v1 <= r ^ 2).
  { rewrite <- N1. apply pow_incr. split; [apply sqrt_pos|apply Rmax_l]. }
  assert (G2 : dot2 v2 v2 <= r ^ 2).
  { rewrite <- N2. apply pow_incr. split; [apply sqrt_pos|apply Rmax_r]. }
  replace ((a * px v1 + b * px v2) ^ 2 + (a * py v1 + b * py v2) ^ 2)
    with (a ^ 2 * dot2 v1 v1 + b ^ 2 * dot2 v2 v2 + 2 * a * b * dot2 v1 v2) by (unfold dot2; ring).
  rewrite D. assert (0 <= a ^ 2) by apply pow2_ge_0. assert (0 <= b ^ 2) by apply pow2_ge_0.
  assert (0 <= r ^ 2) by apply pow2_ge_0. nra.
Qed.
Theorem C37_ellipse_box_partial e q :
  indep2 (l_v1 e) (l_v2 e) -> dot2 (l_v1 e) (l_v2 e) = 0 ->
  ellipse_inside e q = true -> in_box2 (ellipse_bounds e) q.
Proof.
  intros H D I. apply C37_ellipse_inside in I; auto. destruct I as (a & b & L & ->).
  pose proof (max_norm2 _ _ a b D L) as M. cbv zeta in M.
  unfold in_box2, ellipse_bounds; cbn. set (r := Rmax _ _) in *.
  assert (R0 : 0 <= r).
  { unfold r. pose proof (sqrt_pos (dot2 (l_v1 e) (l_v1 e))). pose proof (Rmax_l (norm2 (l_v1 e)) (norm2 (l_v2 e))).
    unfold norm2 in *. lra. }
  assert (X := abs_le (a * px (l_v1 e) + b * px (l_v2 e)) r R0).
  assert (Y := abs_le (a * py (l_v1 e) + b * py (l_v2 e)) r R0).
  assert (X' : - r <= a * px (l_v1 e) + b * px (l_v2 e) <= r)
    by (apply X; pose proof (pow2_ge_0 (a * py (l_v1 e) + b * py (l_v2 e))); lra).
  assert (Y' : - r <= a * py (l_v1 e) + b * py (l_v2 e) <= r)
    by (apply Y; pose proof (pow2_ge_0 (a * px (l_v1 e) + b * px (l_v2 e))); lra).
  lra.
Qed.
(* The constructor tests the orthogonality with an absolute tolerance: small ellipses
   with oblique vectors are accepted, and the box is then too small. *)
Theorem C37_ellipse_box_refuted : exists e q,
  ellipse_accepts (l_v1 e) (l_v2 e) = true /\ indep2 (l_v1 e) (l_v2 e) /\
  disk2 (l_center e) (l_v1 e) (l_v2 e) q /\ ellipse_inside e q = true /\ ~ in_box2 (ellipse_bounds e) q.
Proof.
  set (k := / 10 ^ 7). assert (K : k * k = / 10 ^ 14) by (unfold k; field).
  assert (KP : 0 < k) by (unfold k; apply Rinv_0_lt_compat; lra).
  set (e := mkEllipse (P2 0 0) (P2 k 0) (P2 (3/5 * k) (4/5 * k)) 0).
  set (q := P2 (27/25 * k) (16/25 * k)).
  assert (I : indep2 (l_v1 e) (l_v2 e)) by (unfold indep2; cbn; nra).
  assert (D : disk2 (l_center e) (l_v1 e) (l_v2 e) q).
  { exists (3/5), (4/5). split; [lra|]. apply p2_eq; cbn; lra. }
  exists e, q. split; [|split; [auto|split; [auto|split]]].
  - unfold ellipse_accepts. cbn [px py l_v1 l_v2 e]. rewrite <- K.
    assert (E : Rltb (k * k) (Rabs (k * (3 / 5 * k) + 0 * (4 / 5 * k))) = false).
    { apply Rltb_false. rewrite Rabs_right; nra. }
    now rewrite E.
  - now apply C37_ellipse_inside.
  - unfold in_box2, ellipse_bounds. cbn [fst snd px py l_center e].
    assert (N1 : norm2 (l_v1 e) = k).
    { unfold norm2, dot2. cbn [px py l_v1 e]. replace (k * k + 0 * 0) with (k * k) by ring. apply sqrt_square. lra. }
    assert (N2 : norm2 (l_v2 e) = k).
    { unfold norm2, dot2. cbn [px py l_v2 e].
      replace (3 / 5 * k * (3 / 5 * k) + 4 / 5 * k * (4 / 5 * k)) with (k * k) by field. apply sqrt_square. lra. }
    rewrite N1, N2, Rmax_left by lra. cbn. lra.
Qed.
Theorem C37_sphere_inside s q : 0 <= s_radius s ->
  (sphere_inside s q = true <-> norm3 (sub3 q (s_center s)) <= s_radius s).
Proof.
  intros H. unfold sphere_inside. rewrite Rleb_iff. unfold norm3, dot3, sub3; cbn [qx qy qz].
  rewrite sqrt_le_iff; [|apply sos3|auto]. split; intros; lra.
Qed.
Theorem C37_sphere_box s : 0 <= s_radius s ->
  smallest3 (fun q => sphere_inside s q = true) (sphere_bounds s).
Proof.
  intros H. split.
  - intros q. unfold sphere_inside, in_box3, sphere_bounds; cbn [box3 fst snd qx qy qz]. rewrite Rleb_iff. intros I.
    set (x := qx q - qx (s_center s)) in *. set (y := qy q - qy (s_center s)) in *. set (z := qz q - qz (s_center s)) in *.
    pose proof (pow2_ge_0 x). pose proof (pow2_ge_0 y). pose proof (pow2_ge_0 z).
    assert (- s_radius s <= x <= s_radius s) by (apply abs_le; auto; lra).
    assert (- s_radius s <= y <= s_radius s) by (apply abs_le; auto; lra).
    assert (- s_radius s <= z <= s_radius s) by (apply abs_le; auto; lra). unfold x, y, z in *. lra.
  - intros b' I.
    assert (M : forall q, (qx q - qx (s_center s)) ^ 2 + (qy q - qy (s_center s)) ^ 2
                          + (qz q - qz (s_center s)) ^ 2 <= s_radius s ^ 2 -> in_box3 b' q).
    { intros q L. apply I. unfold sphere_inside. now apply Rleb_iff. }
    unfold sphere_bounds, box3.
    set (r := s_radius s) in *. set (cx := qx (s_center s)) in *. set (cy := qy (s_center s)) in *.
    set (cz := qz (s_center s)) in *.
    destruct (M (P3 (cx - r) cy cz)) as (M1 & _ & _); [cbn; nra|].
    destruct (M (P3 (cx + r) cy cz)) as (M2 & _ & _); [cbn; nra|].
    destruct (M (P3 cx (cy - r) cz)) as (_ & M3 & _); [cbn; nra|].
    destruct (M (P3 cx (cy + r) cz)) as (_ & M4 & _); [cbn; nra|].
    destruct (M (P3 cx cy (cz - r))) as (_ & _ & M5); [cbn; nra|].
    destruct (M (P3 cx cy (cz + r))) as (_ & _ & M6); [cbn; nra|].
    unfold in_box3. cbn [fst snd qx qy qz] in *. lra.
Qed.
Theorem C37_ellipsoid_inside e q : indep3 (o_v1 e) (o_v2 e) (o_v3 e) ->
  (ellipsoid_inside e q = true <-> ball3 (o_center e) (o_v1 e) (o_v2 e) (o_v3 e) q).
Proof. intros H. rewrite <- form3_ball by auto. unfold ellipsoid_inside. apply Rleb_iff. Qed.
Lemma norm3_sq v : norm3 v ^ 2 = dot3 v v.
Proof. unfold norm3. rewrite pow2_sqrt; auto. apply sos3. Qed.
Theorem C37_ellipsoid_box_partial e q :
  indep3 (o_v1 e) (o_v2 e) (o_v3 e) ->
  dot3 (o_v1 e) (o_v2 e) = 0 -> dot3 (o_v2 e) (o_v3 e) = 0 -> dot3 (o_v3 e) (o_v1 e) = 0 ->
  ellipsoid_inside e q = true -> in_box3 (ellipsoid_bounds e) q.
Proof.
  intros H D1 D2 D3 I. apply C37_ellipsoid_inside in I; auto. destruct I as (a & b & d & L & ->).
  unfold in_box3, ellipsoid_bounds, box3; cbn [fst snd qx qy qz comb3]. set (r := Rmax _ _).
  set (v1 := o_v1 e) in *. set (v2 := o_v2 e) in *. set (v3 := o_v3 e) in *.
  assert (B1 : norm3 v1 <= r) by (unfold r; eapply Rle_trans; [apply Rmax_l|apply Rmax_l]).
  assert (B2 : norm3 v2 <= r) by (unfold r; eapply Rle_trans; [apply Rmax_r|apply Rmax_l]).
  assert (B3 : norm3 v3 <= r) by (unfold r; apply Rmax_r).
  assert (P1 : 0 <= norm3 v1) by apply sqrt_pos. assert (P2 : 0 <= norm3 v2) by apply sqrt_pos.
  assert (P3 : 0 <= norm3 v3) by apply sqrt_pos.
  assert (G1 : dot3 v1 v1 <= r ^ 2) by (rewrite <- norm3_sq; apply pow_incr; lra).
  assert (G2 : dot3 v2 v2 <= r ^ 2) by (rewrite <- norm3_sq; apply pow_incr; lra).
  assert (G3 : dot3 v3 v3 <= r ^ 2) by (rewrite <- norm3_sq; apply pow_incr; lra).
  set (x := a * qx v1 + b * qx v2 + d * qx v3). set (y := a * qy v1 + b * qy v2 + d * qy v3).
  set (z := a * qz v1 + b * qz v2 + d * qz v3).
  assert (T : x ^ 2 + y ^ 2 + z ^ 2 <= r ^ 2).
  { replace (x ^ 2 + y ^ 2 + z ^ 2) with
      (a ^ 2 * dot3 v1 v1 + b ^ 2 * dot3 v2 v2 + d ^ 2 * dot3 v3 v3
       + 2 * a * b * dot3 v1 v2 + 2 * b * d * dot3 v2 v3 + 2 * d * a * dot3 v3 v1)
      by (unfold x, y, z, dot3; ring).
    rewrite D1, D2, D3. pose proof (pow2_ge_0 a). pose proof (pow2_ge_0 b). pose proof (pow2_ge_0 d).
    pose proof (pow2_ge_0 r). nra. }
  pose proof (pow2_ge_0 x). pose proof (pow2_ge_0 y). pose proof (pow2_ge_0 z).
  assert (- r <= x <= r) by (apply abs_le; lra). assert (- r <= y <= r) by (apply abs_le; lra).
  assert (- r <= z <= r) by (apply abs_le; lra). unfold x, y, z in *. lra.
Qed.

(* ---- C38 ---- *)
Lemma bary_co g q : indep2 (g_v1 g) (g_v2 g) ->
  bary g q = (co1 (g_point g) (g_v1 g) (g_v2 g) q, co2 (g_point g) (g_v1 g) (g_v2 g) q).
Proof. intros H. unfold indep2 in H. unfold bary, co1, co2, sub2; cbn. f_equal; field; auto. Qed.
Definition gram_set (R2 : R -> R -> Prop) (g : gram) (q : p2) : Prop :=
  exists a b, R2 a b /\ q = comb2 (g_point g) (g_v1 g) (g_v2 g) a b.
Lemma gram_set_co R2 g q : indep2 (g_v1 g) (g_v2 g) ->
  (gram_set R2 g q <-> R2 (co1 (g_point g) (g_v1 g) (g_v2 g) q) (co2 (g_point g) (g_v1 g) (g_v2 g) q)).
Proof.
  intros H. split.
  - intros (a & b & L & ->). destruct (comb_co (g_point g) _ _ a b H) as [-> ->]. auto.
  - intros L. do 2 eexists. split; [exact L|]. now apply co_comb.
Qed.
Theorem C38_parallelogram_inside g q : indep2 (g_v1 g) (g_v2 g) ->
  (parallelogram_inside g q = true <->
   exists a b, (0 <= a <= 1 /\ 0 <= b <= 1) /\ q = comb2 (g_point g) (g_v1 g) (g_v2 g) a b).
Proof.
  intros H. change (parallelogram_inside g q = true <-> gram_set sq_in g q).
  rewrite gram_set_co by auto. unfold parallelogram_inside. rewrite bary_co by auto.
  rewrite !andb_true_iff, !Rleb_iff. unfold sq_in. tauto.
Qed.
Theorem C38_triangle_inside g q : indep2 (g_v1 g) (g_v2 g) ->
  (triangle_inside g q = true <->
   exists a b, (0 <= a /\ 0 <= b /\ a + b <= 1) /\ q = comb2 (g_point g) (g_v1 g) (g_v2 g) a b).
Proof.
  intros H. change (triangle_inside g q = true <-> gram_set tr_in g q).
  rewrite gram_set_co by auto. unfold triangle_inside. rewrite bary_co by auto.
  rewrite !andb_true_iff, !Rleb_iff. unfold tr_in. tauto.
Qed.
Lemma min4_le a b c d : min4 a b c d <= a /\ min4 a b c d <= b /\ min4 a b c d <= c /\ min4 a b c d <= d.
Proof.
  unfold min4. pose proof (Rmin_l a b). pose proof (Rmin_r a b).
  pose proof (Rmin_l (Rmin a b) c). pose proof (Rmin_r (Rmin a b) c).
  pose proof (Rmin_l (Rmin (Rmin a b) c) d). pose proof (Rmin_r (Rmin (Rmin a b) c) d). lra.
Qed.
Lemma max4_ge a b c d : a <= max4 a b c d /\ b <= max4 a b c d /\ c <= max4 a b c d /\ d <= max4 a b c d.
Proof.
  unfold max4. pose proof (Rmax_l a b). pose proof (Rmax_r a b).
  pose proof (Rmax_l (Rmax a b) c). pose proof (Rmax_r (Rmax a b) c).
  pose proof (Rmax_l (Rmax (Rmax a b) c) d). pose proof (Rmax_r (Rmax (Rmax a b) c) d). lra.
Qed.
Lemma min4_glb l a b c d : l <= a -> l <= b -> l <= c -> l <= d -> l <= min4 a b c d.
Proof. intros. unfold min4. repeat apply Rmin_glb; auto. Qed.
Lemma max4_lub l a b c d : a <= l -> b <= l -> c <= l -> d <= l -> max4 a b c d <= l.
Proof. intros. unfold max4. repeat apply Rmax_lub; auto. Qed.
(* a combination with coefficients in [0,1] lies between the four corners *)
Lemma corners (p x y a b lo hi : R) : 0 <= a <= 1 -> 0 <= b <= 1 ->
  lo <= p /\ lo <= p + x /\ lo <= p + x + y /\ lo <= p + y ->
  p <= hi /\ p + x <= hi /\ p + x + y <= hi /\ p + y <= hi -> lo <= p + a * x + b * y <= hi.
Proof.
  intros Ha Hb L H.
  assert (E : p + a * x + b * y =
    (1 - a) * (1 - b) * p + a * (1 - b) * (p + x) + a * b * (p + x + y) + (1 - a) * b * (p + y)) by ring.
  assert (W1 : 0 <= (1 - a) * (1 - b)) by nra. assert (W2 : 0 <= a * (1 - b)) by nra.
  assert (W3 : 0 <= a * b) by nra. assert (W4 : 0 <= (1 - a) * b) by nra.
  assert (S : (1 - a) * (1 - b) + a * (1 - b) + a * b + (1 - a) * b = 1) by ring.
  rewrite E. revert W1 W2 W3 W4 S.
  generalize ((1 - a) * (1 - b)) (a * (1 - b)) (a * b) ((1 - a) * b). intros w1 w2 w3 w4 W1 W2 W3 W4 S.
  clear E. split; nra.
Qed.
Lemma gram_box_in g a b : sq_in a b -> in_box2 (gram_bounds g) (comb2 (g_point g) (g_v1 g) (g_v2 g) a b).
Proof.
  intros [Ha Hb]. unfold in_box2, gram_bounds; cbn [fst snd px py comb2 add2].
  split; (apply corners; [auto|auto|apply min4_le|apply max4_ge]).
Qed.
Theorem C38_parallelogram_box g : indep2 (g_v1 g) (g_v2 g) ->
  smallest2 (fun q => parallelogram_inside g q = true) (gram_bounds g).
Proof.
  intros H. split.
  - intros q I. apply C38_parallelogram_inside in I as (a & b & S & ->); auto. now apply gram_box_in.
  - intros b' I.
    assert (M : forall a b, sq_in a b -> in_box2 b' (comb2 (g_point g) (g_v1 g) (g_v2 g) a b)).
    { intros a b S. apply I. apply C38_parallelogram_inside; auto. eauto. }
    assert (M1 := M 0 0). assert (M2 := M 1 0). assert (M3 := M 1 1). assert (M4 := M 0 1).
    unfold sq_in, in_box2 in *. cbn [px py comb2 fst snd gram_bounds add2] in *.
    destruct M1 as [M1x M1y]; [lra|]. destruct M2 as [M2x M2y]; [lra|].
    destruct M3 as [M3x M3y]; [lra|]. destruct M4 as [M4x M4y]; [lra|].
    pose proof (min4_le (px (g_point g)) (px (g_point g) + px (g_v1 g)) (px (g_point g) + px (g_v1 g) + px (g_v2 g)) (px (g_point g) + px (g_v2 g))).
    pose proof (min4_le (py (g_point g)) (py (g_point g) + py (g_v1 g)) (py (g_point g) + py (g_v1 g) + py (g_v2 g)) (py (g_point g) + py (g_v2 g))).
    pose proof (max4_ge (px (g_point g)) (px (g_point g) + px (g_v1 g)) (px (g_point g) + px (g_v1 g) + px (g_v2 g)) (px (g_point g) + px (g_v2 g))).
    pose proof (max4_ge (py (g_point g)) (py (g_point g) + py (g_v1 g)) (py (g_point g) + py (g_v1 g) + py (g_v2 g)) (py (g_point g) + py (g_v2 g))).
    repeat split; try (apply min4_glb; lra); try (apply max4_lub; lra); lra.
Qed.
Theorem C38_triangle_box g q : indep2 (g_v1 g) (g_v2 g) ->
  triangle_inside g q = true -> in_box2 (gram_bounds g) q.
Proof.
  intros H I. apply C38_triangle_inside in I as (a & b & S & ->); auto. apply gram_box_in. unfold sq_in. lra.
Qed.
(* get_bounds of the triangle takes the corners of the parallelogram. *)
Theorem C38_triangle_smallest_refuted : exists g, indep2 (g_v1 g) (g_v2 g) /\
  ~ smallest2 (fun q => triangle_inside g q = true) (gram_bounds g).
Proof.
  set (g := mkGram (P2 0 0) (P2 1 0) (P2 1 1) (fun _ => 0%Z)).
  assert (I : indep2 (g_v1 g) (g_v2 g)) by (unfold indep2; cbn; lra).
  exists g. split; auto. intros [_ S]. specialize (S (P2 0 0, P2 1 1)). destruct S as [_ [S _]].
  - intros q Q. apply C38_triangle_inside in Q as (a & b & R & ->); auto. unfold in_box2. cbn. lra.
  - unfold gram_bounds in S. cbn in S. destruct S as [_ S].
    pose proof (max4_ge 0 (0 + 1) (0 + 1 + 1) (0 + 1)). lra.
Qed.
Example C38_ex :
  let g := mkGram (P2 0 0) (P2 1 0) (P2 1 1) (fun _ => 0%Z) in
  triangle_inside g (P2 1 (1/2)) = true /\ triangle_inside g (P2 (3/2) (3/4)) = false /\
  parallelogram_inside g (P2 (3/2) (3/4)) = true /\ parallelogram_inside g (P2 (1/4) (1/2)) = false.
Proof.
  cbv zeta. set (g := mkGram _ _ _ _). assert (I : indep2 (g_v1 g) (g_v2 g)) by (unfold indep2; cbn; lra).
  repeat split.
  - apply C38_triangle_inside; auto. exists (1/2), (1/2). split; [lra|]. apply p2_eq; cbn; lra.
  - apply not_true_is_false. intros C. apply C38_triangle_inside in C as (a & b & R & E); auto.
    assert (E1 := f_equal px E). assert (E2 := f_equal py E). cbn in E1, E2. lra.
  - apply C38_parallelogram_inside; auto. exists (3/4), (3/4). split; [lra|]. apply p2_eq; cbn; lra.
  - apply not_true_is_false. intros C. apply C38_parallelogram_inside in C as (a & b & R & E); auto.
    assert (E1 := f_equal px E). assert (E2 := f_equal py E). cbn in E1, E2. lra.
Qed.
Example C37_ex :
  circle_inside (mkCircle (P2 1 1) 2 0) (P2 2 2) = true /\ circle_inside (mkCircle (P2 1 1) 2 0) (P2 3 2) = false /\
  ellipse_inside (mkEllipse (P2 1 1) (P2 3 0) (P2 0 1) 0) (P2 3 1) = true /\
  ellipsoid_inside (mkEllipsoid (P3 0 0 0) (P3 3 0 0) (P3 0 1 0) (P3 0 0 2) 0) (P3 1 0 1) = true.
Proof.
  repeat split.
  - apply Rleb_iff. cbn. lra.
  - apply Rleb_false. cbn. lra.
  - apply Rleb_iff. cbn. lra.
  - apply Rleb_iff. unfold ellipsoid_eq.
    cbn [k_xx k_yy k_zz k_xy k_yz k_zx k_d o_v1 o_v2 o_v3 o_center qx qy qz cross3 dot3]. unf3. lra.
Qed.

(* ---- C39 ---- *)
Theorem C39_parallel q v p w :
  intersection_two_lines q v p w = None <-> exists a b, (a <> 0 \/ b <> 0) /\ scale2 a v = scale2 b w.
Proof. apply intersection_none. Qed.
Theorem C39_two_lines q v p w t s : intersection_two_lines q v p w = Some (t, s) ->
  at2 q v t = at2 p w s /\ forall t' s', at2 q v t' = at2 p w s' -> t' = t /\ s' = s.
Proof. intros H. apply (intersection_some _ _ _ _ _ _ H). Qed.
(* Among the edges which are not parallel to the velocity *)
Theorem C39_edges q v es dmax : cap_ok dmax ->
  let h := distance_lines q v es dmax in
  (h_alpha h = -1 /\ h_border h = (-1)%Z /\
   forall e t, In e es -> crosses v e -> 0 < t -> capped dmax t -> ~ seg e (at2 q v t)) \/
  (0 < h_alpha h /\ capped dmax (h_alpha h) /\
   (exists e, In e es /\ seg e (at2 q v (h_alpha h)) /\ h_border h = e_label e) /\
   forall e t, In e es -> crosses v e -> 0 < t -> t < h_alpha h -> ~ seg e (at2 q v t)).
Proof.
  intros Hm. cbv zeta. destruct (lines_spec q v es dmax Hm) as [(A & B & _ & I)|(P & L & (e & X1 & X2 & X3 & X4 & X5) & I)].
  - left; auto.
  - right; repeat split; auto. exists e; auto.
Qed.
(* An edge along the velocity is not seen. *)
Theorem C39_collinear_refuted : exists q v es,
  distance_lines q v es (Some 1) = mkHit (-1) (-1)%Z (P2 0 0) /\
  exists e t, In e es /\ 0 < t <= 1 /\ seg e (at2 q v t).
Proof.
  exists (P2 0 0), (P2 2 0), [mkEdge (P2 1 0) (P2 1 0) 5%Z]. split.
  - destruct (lines_spec (P2 0 0) (P2 2 0) [mkEdge (P2 1 0) (P2 1 0) 5%Z] (Some 1)) as [(A & B & C & _)|(_ & _ & (e & [<-|[]] & N & _) & _)].
    + apply tgv_pos.
    + destruct (distance_lines _ _ _ _). cbn in *. now subst.
    + exfalso. apply N. apply parallel_det. cbn. lra.
  - exists (mkEdge (P2 1 0) (P2 1 0) 5%Z), (1/2). split; [now left|]. split; [lra|].
    exists 0. split; [lra|]. apply p2_eq; cbn; lra.
Qed.

(* The closed contour of an element: no restriction on the velocity. *)
Lemma at2_sub q v p t : at2 (sub2 q p) v t = sub2 (at2 q v t) p.
Proof. apply p2_eq; cbn; ring. Qed.
Lemma co_sub c v1 v2 x : co1 O2 v1 v2 (sub2 x c) = co1 c v1 v2 x /\ co2 O2 v1 v2 (sub2 x c) = co2 c v1 v2 x.
Proof. unfold co1, co2, O2, sub2; cbn. rewrite !Rminus_0_r. auto. Qed.
Lemma gram_sq_edges g : sq_edges (g_v1 g) (g_v2 g) (parallelogram_edges g).
Proof. intros k. cbn. unfold O2. intuition auto. Qed.
Lemma gram_tr_edges g : tr_edges (g_v1 g) (g_v2 g) (triangle_edges g).
Proof. intros k. cbn. unfold O2. intuition auto. Qed.

Definition first_hit2 (Bd : p2 -> Prop) (labels : Z -> Prop) (q v : p2) (dmax : option R) (h : hit p2) : Prop :=
  (h_alpha h = -1 /\ h_border h = (-1)%Z /\ forall t, 0 < t -> capped dmax t -> ~ Bd (at2 q v t)) \/
  (0 < h_alpha h /\ capped dmax (h_alpha h) /\ labels (h_border h) /\ Bd (at2 q v (h_alpha h)) /\
   forall t, 0 < t -> t < h_alpha h -> ~ Bd (at2 q v t)).

Theorem C39_parallelogram g q v dmax : indep2 (g_v1 g) (g_v2 g) -> cap_ok dmax ->
  ~ gram_set sq_bd g q ->
  first_hit2 (gram_set sq_bd g) (fun l => exists i, (i < 4)%nat /\ l = g_label g i) q v dmax
    (parallelogram_distance g q v dmax).
Proof.
  intros H Hm N. unfold parallelogram_distance.
  assert (BD : forall x, sq_Bd (g_v1 g) (g_v2 g) (sub2 x (g_point g)) <-> gram_set sq_bd g x).
  { intros x. rewrite gram_set_co by auto. unfold sq_Bd. destruct (co_sub (g_point g) (g_v1 g) (g_v2 g) x) as [-> ->]. tauto. }
  destruct (poly_spec (sq_Bd (g_v1 g) (g_v2 g)) (sub2 q (g_point g)) v (parallelogram_edges g) dmax Hm
             (sq_edges_bd _ _ H _ (gram_sq_edges g)) (sq_H3 _ _ H _ _ _ (gram_sq_edges g)))
    as [(A & B & I)|(P & L & X & (e & E1 & _ & _ & E4 & _) & I)].
  - left. repeat split; auto. intros t Pt Ct T. apply N. apply BD. apply (I t Pt Ct). rewrite at2_sub. now apply BD.
  - right. repeat split; auto.
    + rewrite E4. destruct E1 as [<-|[<-|[<-|[<-|[]]]]]; [exists 0%nat|exists 1%nat|exists 2%nat|exists 3%nat]; auto with arith.
    + rewrite at2_sub in X. now apply BD in X.
    + intros t Pt Lt T. apply N. apply BD. apply (I t Pt Lt). rewrite at2_sub. now apply BD.
Qed.
Theorem C39_triangle g q v dmax : indep2 (g_v1 g) (g_v2 g) -> cap_ok dmax ->
  ~ gram_set tr_bd g q ->
  first_hit2 (gram_set tr_bd g) (fun l => exists i, (i < 3)%nat /\ l = g_label g i) q v dmax
    (triangle_distance g q v dmax).
Proof.
  intros H Hm N. unfold triangle_distance.
  assert (BD : forall x, tr_Bd (g_v1 g) (g_v2 g) (sub2 x (g_point g)) <-> gram_set tr_bd g x).
  { intros x. rewrite gram_set_co by auto. unfold tr_Bd. destruct (co_sub (g_point g) (g_v1 g) (g_v2 g) x) as [-> ->]. tauto. }
  destruct (poly_spec (tr_Bd (g_v1 g) (g_v2 g)) (sub2 q (g_point g)) v (triangle_edges g) dmax Hm
             (tr_edges_bd _ _ H _ (gram_tr_edges g)) (tr_H3 _ _ H _ _ _ (gram_tr_edges g)))
    as [(A & B & I)|(P & L & X & (e & E1 & _ & _ & E4 & _) & I)].
  - left. repeat split; auto. intros t Pt Ct T. apply N. apply BD. apply (I t Pt Ct). rewrite at2_sub. now apply BD.
  - right. repeat split; auto.
    + rewrite E4. destruct E1 as [<-|[<-|[<-|[]]]]; [exists 0%nat|exists 1%nat|exists 2%nat]; auto with arith.
    + rewrite at2_sub in X. now apply BD in X.
    + intros t Pt Lt T. apply N. apply BD. apply (I t Pt Lt). rewrite at2_sub. now apply BD.
Qed.
Lemma co_at_c c v1 v2 q v t : indep2 v1 v2 ->
  co1 c v1 v2 (at2 q v t) = co1 c v1 v2 q + t * co1 O2 v1 v2 v /\
  co2 c v1 v2 (at2 q v t) = co2 c v1 v2 q + t * co2 O2 v1 v2 v.
Proof. intros H. unfold indep2 in H. unfold co1, co2, O2; cbn. split; field; auto. Qed.
(* A link from an outer point to a point of the element is always found. *)
Theorem C39_parallelogram_enter g q v m : indep2 (g_v1 g) (g_v2 g) -> 0 < m < tgv ->
  parallelogram_inside g q = false -> parallelogram_inside g (at2 q v m) = true ->
  0 < h_alpha (parallelogram_distance g q v (Some m)) <= m.
Proof.
  intros H Hm Q I.
  assert (OUT : ~ gram_set sq_in g q).
  { intros C. apply not_true_iff_false in Q. apply Q. apply C38_parallelogram_inside; auto. }
  assert (N : ~ gram_set sq_bd g q) by (intros (a & b & [C _] & E); apply OUT; exists a, b; auto).
  apply C38_parallelogram_inside in I; auto. change (gram_set sq_in g (at2 q v m)) in I.
  rewrite gram_set_co in I, OUT by auto.
  destruct (co_at_c (g_point g) _ _ q v m H) as [E1 E2]. rewrite E1, E2 in I.
  destruct (sq_enter _ _ _ _ m (proj1 Hm) I) as [C|(t & Pt & Lt & T)]; [contradiction|].
  destruct (C39_parallelogram g q v (Some m) H) as [(_ & _ & F)|(P & L & _)]; auto; [exact (proj2 Hm)|].
  exfalso. apply (F t Pt); [cbn; lra|]. rewrite gram_set_co by auto.
  destruct (co_at_c (g_point g) _ _ q v t H) as [F1 F2]. now rewrite F1, F2.
Qed.
Theorem C39_triangle_enter g q v m : indep2 (g_v1 g) (g_v2 g) -> 0 < m < tgv ->
  triangle_inside g q = false -> triangle_inside g (at2 q v m) = true ->
  0 < h_alpha (triangle_distance g q v (Some m)) <= m.
Proof.
  intros H Hm Q I.
  assert (OUT : ~ gram_set tr_in g q).
  { intros C. apply not_true_iff_false in Q. apply Q. apply C38_triangle_inside; auto. }
  assert (N : ~ gram_set tr_bd g q) by (intros (a & b & [C _] & E); apply OUT; exists a, b; auto).
  apply C38_triangle_inside in I; auto. change (gram_set tr_in g (at2 q v m)) in I.
  rewrite gram_set_co in I, OUT by auto.
  destruct (co_at_c (g_point g) _ _ q v m H) as [E1 E2]. rewrite E1, E2 in I.
  destruct (tr_enter _ _ _ _ m (proj1 Hm) I) as [C|(t & Pt & Lt & T)]; [contradiction|].
  destruct (C39_triangle g q v (Some m) H) as [(_ & _ & F)|(P & L & _)]; auto; [exact (proj2 Hm)|].
  exfalso. apply (F t Pt); [cbn; lra|]. rewrite gram_set_co by auto.
  destruct (co_at_c (g_point g) _ _ q v t H) as [F1 F2]. now rewrite F1, F2.
Qed.
(* the unit square seen from (-1, 1/2) with velocity (4, 0): the left edge, at 1/4 *)
Example C39_ex :
  let g := mkGram (P2 0 0) (P2 1 0) (P2 0 1) (fun i => Z.of_nat i) in
  h_alpha (parallelogram_distance g (P2 (-1) (1/2)) (P2 4 0) (Some 1)) = 1 / 4.
Proof.
  cbv zeta. set (g := mkGram _ _ _ _). assert (I : indep2 (g_v1 g) (g_v2 g)) by (unfold indep2; cbn; lra).
  assert (T : 1 < tgv) by apply tgv_pos.
  assert (MEET : gram_set sq_bd g (at2 (P2 (-1) (1/2)) (P2 4 0) (1/4))).
  { exists 0, (1/2). split; [unfold sq_bd, sq_in; lra|]. apply p2_eq; cbn; lra. }
  destruct (C39_parallelogram g (P2 (-1) (1/2)) (P2 4 0) (Some 1) I T) as [(_ & _ & F)|(P & L & _ & X & F)].
  - intros (a & b & [S _] & E). assert (E1 := f_equal px E). unfold sq_in in S. cbn in E1. lra.
  - exfalso. apply (F (1/4)); auto; cbn; lra.
  - destruct (Rtotal_order (h_alpha (parallelogram_distance g (P2 (-1) (1/2)) (P2 4 0) (Some 1))) (1/4)) as [C|[C|C]]; auto.
    + exfalso. destruct X as (a & b & [S _] & E). assert (E1 := f_equal px E). unfold sq_in in S. cbn in E1. lra.
    + exfalso. apply (F (1/4)); auto. lra.
Qed.

(* ---- C41 ---- *)
Lemma ellipse_first q v c v1 v2 dmax l : indep2 v1 v2 -> nonzero2 v -> ~ rim2 c v1 v2 q -> cap_ok dmax ->
  let h := distance_ellipse q v c v1 v2 dmax l in
  (h_alpha h = -1 /\ h_border h = (-1)%Z /\ forall t, 0 < t -> capped dmax t -> ~ rim2 c v1 v2 (at2 q v t)) \/
  (0 < h_alpha h /\ below dmax (h_alpha h) = true /\ h_border h = l /\ rim2 c v1 v2 (at2 q v (h_alpha h)) /\
   forall t, 0 < t -> t < h_alpha h -> ~ rim2 c v1 v2 (at2 q v t)).
Proof.
  intros H N Q Hm. cbv zeta. rewrite distance_ellipse_border.
  destruct (ellipse_spec q v c v1 v2 dmax l H N Q Hm) as [[E F]|(P & B & R & F)].
  - left. rewrite E. rewrite (proj2 (Rltb_false 0 (-1))) by lra. auto.
  - right. rewrite (proj2 (Rltb_iff 0 _) P). auto.
Qed.
(* From a point which is not on the curve (inside or outside) *)
Theorem C41_ellipse e q v dmax : indep2 (l_v1 e) (l_v2 e) -> nonzero2 v -> cap_ok dmax ->
  ~ rim2 (l_center e) (l_v1 e) (l_v2 e) q ->
  let h := ellipse_distance e q v dmax in
  (h_alpha h = -1 /\ h_border h = (-1)%Z /\
   forall t, 0 < t -> capped dmax t -> ~ rim2 (l_center e) (l_v1 e) (l_v2 e) (at2 q v t)) \/
  (0 < h_alpha h /\ below dmax (h_alpha h) = true /\ h_border h = l_label e /\
   rim2 (l_center e) (l_v1 e) (l_v2 e) (at2 q v (h_alpha h)) /\
   forall t, 0 < t -> t < h_alpha h -> ~ rim2 (l_center e) (l_v1 e) (l_v2 e) (at2 q v t)).
Proof. intros H N Hm Q. exact (ellipse_first q v _ _ _ dmax _ H N Q Hm). Qed.
Lemma circle_indep c : 0 < c_radius c ->
  indep2 (P2 (c_radius c * 1) (c_radius c * 0)) (P2 (c_radius c * 0) (c_radius c * 1)).
Proof. intros. unfold indep2. cbn. nra. Qed.
Lemma circle_rim c x : 0 < c_radius c ->
  (rim2 (c_center c) (P2 (c_radius c * 1) (c_radius c * 0)) (P2 (c_radius c * 0) (c_radius c * 1)) x <->
   norm2 (sub2 x (c_center c)) = c_radius c).
Proof.
  intros H. rewrite <- form2_rim by now apply circle_indep.
  unfold form2, norm2, dot2, sub2. cbn [px py].
  set (X := px x - px (c_center c)). set (Y := py x - py (c_center c)). set (r := c_radius c) in *.
  replace (X ^ 2 * ((r * 0) ^ 2 + (r * 1) ^ 2) + Y ^ 2 * ((r * 1) ^ 2 + (r * 0) ^ 2) -
    X * Y * (2 * (r * 1 * (r * 0) + r * 0 * (r * 1))) - (r * 1 * (r * 1) - r * 0 * (r * 0)) ^ 2)
    with (r * r * (X * X + Y * Y - r * r)) by ring.
  assert (0 <= X * X + Y * Y) by apply sos2. split.
  - intros E. apply Rmult_integral in E. destruct E as [E|E]; [nra|].
    assert (E' : X * X + Y * Y = r * r) by lra. rewrite E'. apply sqrt_square. lra.
  - intros E. assert (S := sqrt_sqrt _ H0). rewrite E in S. rewrite <- S. ring.
Qed.
Theorem C41_circle c q v dmax : 0 < c_radius c -> nonzero2 v -> cap_ok dmax ->
  norm2 (sub2 q (c_center c)) <> c_radius c ->
  let h := circle_distance c q v dmax in
  (h_alpha h = -1 /\ h_border h = (-1)%Z /\
   forall t, 0 < t -> capped dmax t -> norm2 (sub2 (at2 q v t) (c_center c)) <> c_radius c) \/
  (0 < h_alpha h /\ below dmax (h_alpha h) = true /\ h_border h = c_label c /\
   norm2 (sub2 (at2 q v (h_alpha h)) (c_center c)) = c_radius c /\
   forall t, 0 < t -> t < h_alpha h -> norm2 (sub2 (at2 q v t) (c_center c)) <> c_radius c).
Proof.
  intros H N Hm Q. cbv zeta. unfold circle_distance.
  destruct (ellipse_first q v (c_center c) _ _ dmax (c_label c) (circle_indep c H) N) as [(A & B & F)|(A & B & C & D & F)]; auto.
  - rewrite circle_rim by auto. auto.
  - left. repeat split; auto. intros t Pt Ct T. apply (F t Pt Ct). now apply circle_rim.
  - right. repeat split; auto; [now apply circle_rim in D|]. intros t Pt Lt T. apply (F t Pt Lt). now apply circle_rim.
Qed.
Lemma ellipsoid_first q v c v1 v2 v3 dmax l :
  indep3 v1 v2 v3 -> nonzero3 v -> ~ shell3 c v1 v2 v3 q -> cap_ok dmax ->
  let h := distance_ellipsoid q v c v1 v2 v3 dmax l in
  (h_alpha h = -1 /\ h_border h = (-1)%Z /\ forall t, 0 < t -> capped dmax t -> ~ shell3 c v1 v2 v3 (at3 q v t)) \/
  (0 < h_alpha h /\ below dmax (h_alpha h) = true /\ h_border h = l /\ shell3 c v1 v2 v3 (at3 q v (h_alpha h)) /\
   forall t, 0 < t -> t < h_alpha h -> ~ shell3 c v1 v2 v3 (at3 q v t)).
Proof.
  intros H N Q Hm. cbv zeta. rewrite distance_ellipsoid_border.
  destruct (ellipsoid_spec q v c v1 v2 v3 dmax l H N Q Hm) as [[E F]|(P & B & R & F)].
  - left. rewrite E. rewrite (proj2 (Rltb_false 0 (-1))) by lra. auto.
  - right. rewrite (proj2 (Rltb_iff 0 _) P). auto.
Qed.
Theorem C41_ellipsoid e q v dmax : indep3 (o_v1 e) (o_v2 e) (o_v3 e) -> nonzero3 v -> cap_ok dmax ->
  ~ shell3 (o_center e) (o_v1 e) (o_v2 e) (o_v3 e) q ->
  let h := ellipsoid_distance e q v dmax in
  (h_alpha h = -1 /\ h_border h = (-1)%Z /\
   forall t, 0 < t -> capped dmax t -> ~ shell3 (o_center e) (o_v1 e) (o_v2 e) (o_v3 e) (at3 q v t)) \/
  (0 < h_alpha h /\ below dmax (h_alpha h) = true /\ h_border h = o_label e /\
   shell3 (o_center e) (o_v1 e) (o_v2 e) (o_v3 e) (at3 q v (h_alpha h)) /\
   forall t, 0 < t -> t < h_alpha h -> ~ shell3 (o_center e) (o_v1 e) (o_v2 e) (o_v3 e) (at3 q v t)).
Proof. intros H N Hm Q. exact (ellipsoid_first q v _ _ _ _ dmax _ H N Q Hm). Qed.
Lemma sphere_indep r : 0 < r -> indep3 (P3 (r * 1) (r * 0) (r * 0)) (P3 (r * 0) (r * 1) (r * 0)) (P3 (r * 0) (r * 0) (r * 1)).
Proof. intros. unfold indep3. unf3. assert (0 < r * r * r) by (repeat apply Rmult_lt_0_compat; auto). lra. Qed.
Lemma sphere_shell c r x : 0 < r ->
  (shell3 c (P3 (r * 1) (r * 0) (r * 0)) (P3 (r * 0) (r * 1) (r * 0)) (P3 (r * 0) (r * 0) (r * 1)) x <->
   norm3 (sub3 x c) = r).
Proof.
  intros H. rewrite <- form3_shell by now apply sphere_indep.
  unfold form3, ellipsoid_eq, norm3; cbn [k_xx k_yy k_zz k_xy k_yz k_zx k_d]. unf3.
  set (X := qx x - qx c). set (Y := qy x - qy c). set (Z := qz x - qz c).
  assert (R4 : 0 < r * r * r * r) by (repeat apply Rmult_lt_0_compat; auto).
  match goal with |- ?L = 0 <-> _ => replace L with (r * r * r * r * (X * X + Y * Y + Z * Z - r * r)) by ring end.
  assert (0 <= X * X + Y * Y + Z * Z) by apply sos3. split.
  - intros E. apply Rmult_integral in E. destruct E as [E|E]; [lra|].
    assert (E' : X * X + Y * Y + Z * Z = r * r) by lra. rewrite E'. apply sqrt_square. lra.
  - intros E. assert (S := sqrt_sqrt _ H0). rewrite E in S. rewrite <- S. ring.
Qed.
Theorem C41_sphere s q v dmax : 0 < s_radius s -> nonzero3 v -> cap_ok dmax ->
  norm3 (sub3 q (s_center s)) <> s_radius s ->
  let h := sphere_distance s q v dmax in
  (h_alpha h = -1 /\ h_border h = (-1)%Z /\
   forall t, 0 < t -> capped dmax t -> norm3 (sub3 (at3 q v t) (s_center s)) <> s_radius s) \/
  (0 < h_alpha h /\ below dmax (h_alpha h) = true /\ h_border h = s_label s /\
   norm3 (sub3 (at3 q v (h_alpha h)) (s_center s)) = s_radius s /\
   forall t, 0 < t -> t < h_alpha h -> norm3 (sub3 (at3 q v t) (s_center s)) <> s_radius s).
Proof.
  intros H N Hm Q. cbv zeta. unfold sphere_distance. cbv zeta.
  destruct (ellipsoid_first q v (s_center s) _ _ _ dmax (s_label s) (sphere_indep _ H) N) as [(A & B & F)|(A & B & C & D & F)]; auto.
  - rewrite sphere_shell by auto. auto.
  - left. repeat split; auto. intros t Pt Ct T. apply (F t Pt Ct). now apply sphere_shell.
  - right. repeat split; auto; [now apply sphere_shell in D|]. intros t Pt Lt T. apply (F t Pt Lt). now apply sphere_shell.
Qed.
(* A link from an outer point to a point of the element is always found. *)
Lemma root_enter a b c t : 0 < a -> 0 < c -> 0 < t -> a * t ^ 2 + b * t + c <= 0 ->
  exists x, 0 < x /\ x <= t /\ a * x ^ 2 + b * x + c = 0.
Proof.
  intros Ha Hc Pt L. destruct (root_cases a b c Ha) as [[N D]|[D F]].
  - exfalso. assert (0 <= (2 * a * t + b) ^ 2) by apply pow2_ge_0.
    assert (4 * a * (a * t ^ 2 + b * t + c) = (2 * a * t + b) ^ 2 - (b ^ 2 - 4 * a * c)) by ring. nra.
  - cbv zeta in F. revert F. set (x1 := (- b - sqrt _) / _). set (x2 := (- b + sqrt _) / _). clearbody x1 x2.
    intros [LE F]. exists x1. split; [|split].
    + pose proof (F 0). pose proof (F t). assert (0 < x1 * x2) by nra.
      assert (t <= x2) by (destruct (Rle_dec t x2); auto; exfalso; assert (0 < a * (t - x1) * (t - x2)) by
        (repeat apply Rmult_lt_0_compat; lra); lra). nra.
    + pose proof (F t). destruct (Rle_dec x1 t); auto. exfalso.
      assert (0 < a * (x1 - t) * (x2 - t)) by (repeat apply Rmult_lt_0_compat; lra). nra.
    + rewrite F. ring.
Qed.
Theorem C41_ellipse_enter e q v m : indep2 (l_v1 e) (l_v2 e) -> nonzero2 v -> 0 < m < tgv ->
  ellipse_inside e q = false -> ellipse_inside e (at2 q v m) = true ->
  0 < h_alpha (ellipse_distance e q v (Some m)) <= m.
Proof.
  intros H N Hm Q I. unfold ellipse_inside in Q. apply Rleb_false in Q.
  change ((px (l_v1 e) * py (l_v2 e) - py (l_v1 e) * px (l_v2 e)) ^ 2 < form2 (l_center e) (l_v1 e) (l_v2 e) q) in Q.
  unfold ellipse_inside in I. apply Rleb_iff in I.
  change (form2 (l_center e) (l_v1 e) (l_v2 e) (at2 q v m) <= (px (l_v1 e) * py (l_v2 e) - py (l_v1 e) * px (l_v2 e)) ^ 2) in I.
  rewrite form2_at in I.
  destruct (root_enter (quad_a v (l_v1 e) (l_v2 e)) (quad_b q v (l_center e) (l_v1 e) (l_v2 e))
    (form2 (l_center e) (l_v1 e) (l_v2 e) q - (px (l_v1 e) * py (l_v2 e) - py (l_v1 e) * px (l_v2 e)) ^ 2) m)
    as (x & Px & Lx & X); try lra; [now apply quad_a_pos|].
  destruct (C41_ellipse e q v (Some m) H N) as [(_ & _ & F)|(P & B & _)]; [exact (proj2 Hm)| | |].
  - rewrite <- form2_rim by auto. lra.
  - exfalso. apply (F x Px); [cbn; lra|]. apply form2_rim; auto. rewrite form2_at. lra.
  - split; auto. cbn in B. now apply Rleb_iff in B.
Qed.
Theorem C41_ellipsoid_enter e q v m : indep3 (o_v1 e) (o_v2 e) (o_v3 e) -> nonzero3 v -> 0 < m < tgv ->
  ellipsoid_inside e q = false -> ellipsoid_inside e (at3 q v m) = true ->
  0 < h_alpha (ellipsoid_distance e q v (Some m)) <= m.
Proof.
  intros H N Hm Q I. unfold ellipsoid_inside in Q. apply Rleb_false in Q.
  change (k_d (ellipsoid_eq (o_v1 e) (o_v2 e) (o_v3 e)) < form3 (o_center e) (o_v1 e) (o_v2 e) (o_v3 e) q) in Q.
  unfold ellipsoid_inside in I. apply Rleb_iff in I.
  change (form3 (o_center e) (o_v1 e) (o_v2 e) (o_v3 e) (at3 q v m) <= k_d (ellipsoid_eq (o_v1 e) (o_v2 e) (o_v3 e))) in I.
  rewrite form3_at in I.
  destruct (root_enter (quad_a3 v (o_v1 e) (o_v2 e) (o_v3 e)) (quad_b3 q v (o_center e) (o_v1 e) (o_v2 e) (o_v3 e))
    (form3 (o_center e) (o_v1 e) (o_v2 e) (o_v3 e) q - k_d (ellipsoid_eq (o_v1 e) (o_v2 e) (o_v3 e))) m)
    as (x & Px & Lx & X); try lra; [now apply quad_a3_pos|].
  destruct (C41_ellipsoid e q v (Some m) H N) as [(_ & _ & F)|(P & B & _)]; [exact (proj2 Hm)| | |].
  - rewrite <- form3_shell by auto. lra.
  - exfalso. apply (F x Px); [cbn; lra|]. apply form3_shell; auto. rewrite form3_at. lra.
  - split; auto. cbn in B. now apply Rleb_iff in B.
Qed.
(* From a point of the curve itself the second intersection is missed. *)
Theorem C41_on_curve_refuted : exists c q v,
  0 < c_radius c /\ h_alpha (circle_distance c q v (Some 1)) = -1 /\
  exists t, 0 < t <= 1 /\ norm2 (sub2 (at2 q v t) (c_center c)) = c_radius c.
Proof.
  exists (mkCircle (P2 0 0) 1 0), (P2 1 0), (P2 (-4) 0). split; [cbn; lra|]. split.
  - unfold circle_distance. rewrite distance_ellipse_alpha. unfold first_root, quad_a, quad_b, form2. cbn [px py c_center c_radius].
    set (D := (_ ^ 2 - 4 * _ * _)). assert (ED : D = 8 * 8) by (unfold D; ring).
    set (A := (-4) ^ 2 * _ + _ - _). assert (EA : A = 16) by (unfold A; ring).
    set (B := 2 * _ * _ * _ + _ - _). assert (EB : B = -8) by (unfold B; ring).
    rewrite ED, EA, EB. rewrite sqrt_square by lra.
    rewrite (proj2 (Rleb_iff 0 _)) by lra. rewrite (proj2 (Reqb_false 16 0)) by lra.
    replace ((- -8 - 8) / (2 * 16)) with 0 by field. replace ((- -8 + 8) / (2 * 16)) with (1/2) by field.
    rewrite !(proj2 (Rltb_false _ 0)) by lra. rewrite Rmin_left by lra.
    pose proof tgv_pos. rewrite (proj2 (Reqb_false 0 tgv)) by lra. rewrite (proj2 (Rltb_false 0 0)) by lra. reflexivity.
  - exists (1/2). split; [lra|]. unfold norm2, dot2, sub2, at2. cbn [px py c_center c_radius].
    match goal with |- sqrt ?x = 1 => replace x with 1 by field end. apply sqrt_1.
Qed.
Example C41_ex : h_alpha (circle_distance (mkCircle (P2 0 0) 1 7) (P2 2 0) (P2 (-4) 0) (Some 1)) = 1 / 4 /\
  h_border (circle_distance (mkCircle (P2 0 0) 1 7) (P2 2 0) (P2 (-4) 0) (Some 1)) = 7%Z.
Proof.
  assert (A : h_alpha (circle_distance (mkCircle (P2 0 0) 1 7) (P2 2 0) (P2 (-4) 0) (Some 1)) = 1 / 4).
  { unfold circle_distance. rewrite distance_ellipse_alpha. unfold first_root, quad_a, quad_b, form2. cbn [px py c_center c_radius].
    set (D := (_ ^ 2 - 4 * _ * _)). assert (ED : D = 8 * 8) by (unfold D; ring).
    set (A := (-4) ^ 2 * _ + _ - _). assert (EA : A = 16) by (unfold A; ring).
    set (B := 2 * _ * _ * _ + _ - _). assert (EB : B = -16) by (unfold B; ring).
    rewrite ED, EA, EB. rewrite sqrt_square by lra.
    rewrite (proj2 (Rleb_iff 0 _)) by lra. rewrite (proj2 (Reqb_false 16 0)) by lra.
    replace ((- -16 - 8) / (2 * 16)) with (1/4) by field. replace ((- -16 + 8) / (2 * 16)) with (3/4) by field.
    rewrite !(proj2 (Rltb_false _ 0)) by lra. rewrite Rmin_left by lra.
    pose proof tgv_pos. rewrite (proj2 (Reqb_false (1/4) tgv)) by lra. rewrite (proj2 (Rltb_iff 0 (1/4))) by lra.
    cbn [below]. rewrite (proj2 (Rleb_iff (1/4) 1)) by lra. reflexivity. }
  split; auto. unfold circle_distance in *. rewrite distance_ellipse_border. rewrite A.
  rewrite (proj2 (Rltb_iff 0 (1/4))) by lra. reflexivity.
Qed.

Print Assumptions C37_circle_inside.
Print Assumptions C37_circle_box.
Print Assumptions C37_ellipse_inside.
Print Assumptions C37_ellipse_box_partial.
Print Assumptions C37_ellipse_box_refuted.
Print Assumptions C37_sphere_inside.
Print Assumptions C37_sphere_box.
Print Assumptions C37_ellipsoid_inside.
Print Assumptions C37_ellipsoid_box_partial.
Print Assumptions C38_parallelogram_inside.
Print Assumptions C38_triangle_inside.
Print Assumptions C38_parallelogram_box.
Print Assumptions C38_triangle_box.
Print Assumptions C38_triangle_smallest_refuted.
Print Assumptions C39_parallel.
Print Assumptions C39_two_lines.
Print Assumptions C39_edges.
Print Assumptions C39_collinear_refuted.
Print Assumptions C39_parallelogram.
Print Assumptions C39_triangle.
Print Assumptions C39_parallelogram_enter.
Print Assumptions C39_triangle_enter.
Print Assumptions C41_ellipse.
Print Assumptions C41_circle.
Print Assumptions C41_ellipsoid.
Print Assumptions C41_sphere.
Print Assumptions C41_ellipse_enter.
Print Assumptions C41_ellipsoid_enter.
Print Assumptions C41_on_curve_refuted.
