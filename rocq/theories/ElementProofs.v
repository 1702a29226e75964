(* Geometric descriptions of the elements and lemmas on their model. *)
From Coq Require Import Reals ZArith List Lra Psatz Bool.
From Verif Require Import ElementModel.
Import ListNotations.
Open Scope R_scope.

Lemma Rltb_iff a b : Rltb a b = true <-> a < b.
Proof. unfold Rltb. destruct (Rlt_dec a b); split; intros; auto; discriminate || contradiction. Qed.
Lemma Rltb_false a b : Rltb a b = false <-> b <= a.
Proof. unfold Rltb. destruct (Rlt_dec a b); split; intros; auto; try discriminate; lra. Qed.
Lemma Rleb_iff a b : Rleb a b = true <-> a <= b.
Proof. unfold Rleb. destruct (Rle_dec a b); split; intros; auto; discriminate || contradiction. Qed.
Lemma Rleb_false a b : Rleb a b = false <-> b < a.
Proof. unfold Rleb. destruct (Rle_dec a b); split; intros; auto; try discriminate; lra. Qed.
Lemma Reqb_iff a b : Reqb a b = true <-> a = b.
Proof. unfold Reqb. destruct (Req_EM_T a b); split; intros; auto; discriminate || contradiction. Qed.
Lemma Reqb_false a b : Reqb a b = false <-> a <> b.
Proof. unfold Reqb. destruct (Req_EM_T a b); split; intros; auto; try discriminate; contradiction. Qed.

Ltac cmp a b f := let E := fresh "E" in destruct (f a b) eqn:E;
  [ (apply Rltb_iff in E || apply Rleb_iff in E || apply Reqb_iff in E)
  | (apply Rltb_false in E || apply Rleb_false in E || apply Reqb_false in E) ].

Lemma tgv_pos : 1 < tgv.
Proof. unfold tgv. simpl. lra. Qed.

(* Below the maximum.  Without a maximum the distances up to tgv are covered. *)
Definition capped (dmax : option R) (t : R) : Prop :=
  match dmax with None => t < tgv | Some m => t <= m end.
Definition cap_ok (dmax : option R) : Prop :=
  match dmax with None => True | Some m => m < tgv end.
Lemma capped_below dmax t : capped dmax t -> below dmax t = true.
Proof. destruct dmax; cbn; auto. intros. now apply Rleb_iff. Qed.
Lemma capped_tgv dmax t : cap_ok dmax -> capped dmax t -> t < tgv.
Proof. destruct dmax; cbn; intros; lra. Qed.
Lemma below_capped dmax t : below dmax t = true -> t < tgv -> capped dmax t.
Proof. destruct dmax; cbn; auto. intros. now apply Rleb_iff. Qed.
Lemma capped_le dmax s t : s <= t -> capped dmax t -> capped dmax s.
Proof. destruct dmax; cbn; intros; lra. Qed.

(* ---- the quadratic equation ---- *)
Lemma factor a b c : 0 < a -> 0 <= b ^ 2 - 4 * a * c ->
  let s := sqrt (b ^ 2 - 4 * a * c) in
  forall t, a * t ^ 2 + b * t + c = a * (t - (- b - s) / (2 * a)) * (t - (- b + s) / (2 * a)).
Proof.
  intros Ha Hd s t.
  assert (S : s * s = b ^ 2 - 4 * a * c) by (apply sqrt_sqrt; auto).
  assert (E : a * (t - (- b - s) / (2 * a)) * (t - (- b + s) / (2 * a))
              = a * t ^ 2 + b * t + (b ^ 2 - s * s) / (4 * a)) by (field; lra).
  rewrite E, S. field. lra.
Qed.
Lemma no_root a b c t : 0 < a -> b ^ 2 - 4 * a * c < 0 -> a * t ^ 2 + b * t + c <> 0.
Proof.
  intros Ha Hd E. assert (4 * a * (a * t ^ 2 + b * t + c) = (2 * a * t + b) ^ 2 - (b ^ 2 - 4 * a * c)) by ring.
  rewrite E in H. assert (0 <= (2 * a * t + b) ^ 2) by apply pow2_ge_0. lra.
Qed.
Lemma root_cases a b c : 0 < a ->
  (forall t, a * t ^ 2 + b * t + c <> 0) /\ b ^ 2 - 4 * a * c < 0 \/
  0 <= b ^ 2 - 4 * a * c /\
  let x1 := (- b - sqrt (b ^ 2 - 4 * a * c)) / (2 * a) in
  let x2 := (- b + sqrt (b ^ 2 - 4 * a * c)) / (2 * a) in
  x1 <= x2 /\ forall t, a * t ^ 2 + b * t + c = a * (t - x1) * (t - x2).
Proof.
  intros Ha. destruct (Rlt_dec (b ^ 2 - 4 * a * c) 0) as [D|D].
  - left. split; auto. intros t. now apply no_root.
  - right. split; [lra|]. cbv zeta. split.
    + pose proof (sqrt_pos (b ^ 2 - 4 * a * c)). unfold Rdiv. apply Rmult_le_compat_r; [|lra].
      left. apply Rinv_0_lt_compat. lra.
    + apply factor; lra.
Qed.

Lemma first_root_spec a b c dmax : 0 < a -> c <> 0 -> cap_ok dmax ->
  let r := first_root a b c dmax in
  (r = -1 /\ forall t, 0 < t -> capped dmax t -> a * t ^ 2 + b * t + c <> 0) \/
  (0 < r /\ below dmax r = true /\ a * r ^ 2 + b * r + c = 0 /\
   forall t, 0 < t -> t < r -> a * t ^ 2 + b * t + c <> 0).
Proof.
  intros Ha Hc Hm. pose proof tgv_pos as TG. cbv zeta. unfold first_root.
  destruct (root_cases a b c Ha) as [[N D]|[D F]].
  - assert (E : Rleb 0 (b ^ 2 - 4 * a * c) = false) by (apply Rleb_false; lra). rewrite E.
    assert (E1 : Reqb (-1) tgv = false) by (apply Reqb_false; lra). rewrite E1.
    assert (E2 : Rltb 0 (-1) = false) by (apply Rltb_false; lra). rewrite E2. cbn [andb].
    left. split; auto.
  - assert (E : Rleb 0 (b ^ 2 - 4 * a * c) = true) by (apply Rleb_iff; lra). rewrite E.
    assert (E1 : Reqb a 0 = false) by (apply Reqb_false; lra). rewrite E1.
    cbv zeta in F. revert F.
    set (x1 := (- b - sqrt (b ^ 2 - 4 * a * c)) / (2 * a)).
    set (x2 := (- b + sqrt (b ^ 2 - 4 * a * c)) / (2 * a)). clearbody x1 x2. intros [L F].
    assert (C : c = a * x1 * x2) by (pose proof (F 0) as F0; lra).
    assert (X1 : x1 <> 0) by (intros ->; apply Hc; rewrite C; ring).
    assert (X2 : x2 <> 0) by (intros ->; apply Hc; rewrite C; ring).
    assert (RT : forall t, a * t ^ 2 + b * t + c = 0 -> t = x1 \/ t = x2).
    { intros t T. rewrite F in T. apply Rmult_integral in T. destruct T as [T|T]; [|lra].
      apply Rmult_integral in T. lra. }
    assert (R1 : a * x1 ^ 2 + b * x1 + c = 0) by (rewrite F; ring).
    assert (R2 : a * x2 ^ 2 + b * x2 + c = 0) by (rewrite F; ring).
    assert (NEG : Rltb 0 (-1) = false) by (apply Rltb_false; lra).
    assert (DONE : forall x, 0 < x -> a * x ^ 2 + b * x + c = 0 ->
              (forall t, a * t ^ 2 + b * t + c = 0 -> 0 < t -> x <= t) ->
              let d := if Reqb x tgv then -1 else x in
              (let r := if Rltb 0 d && below dmax d then d else -1 in
               r = -1 /\ (forall t, 0 < t -> capped dmax t -> a * t ^ 2 + b * t + c <> 0) \/
               0 < r /\ below dmax r = true /\ a * r ^ 2 + b * r + c = 0 /\
               (forall t, 0 < t -> t < r -> a * t ^ 2 + b * t + c <> 0))).
    { intros x Px Rx Mx. cbv zeta. cmp x tgv Reqb.
      - rewrite NEG. cbn [andb]. left. split; auto. intros t Pt Ct T.
        pose proof (Mx t T Pt). pose proof (capped_tgv _ _ Hm Ct). lra.
      - destruct (Rltb 0 x) eqn:E3; [|apply Rltb_false in E3; lra]. cbn [andb].
        destruct (below dmax x) eqn:B.
        + right. repeat split; auto. intros t Pt Lt T. pose proof (Mx t T Pt). lra.
        + left. split; auto. intros t Pt Ct T. pose proof (Mx t T Pt).
          apply capped_below in Ct as B'. destruct dmax; cbn in *; [|discriminate].
          apply Rleb_false in B. lra. }
    cmp x1 0 Rltb; cmp x2 0 Rltb.
    + rewrite Rmin_left by lra. assert (Q : Reqb tgv tgv = true) by now apply Reqb_iff.
      rewrite Q, NEG. cbn [andb]. left. split; auto. intros t Pt _ T. apply RT in T. lra.
    + destruct (Rle_dec x2 tgv) as [LT|GT].
      * rewrite Rmin_right by lra. apply DONE; auto; [lra|]. intros t T Pt. apply RT in T. lra.
      * rewrite Rmin_left by lra. assert (Q : Reqb tgv tgv = true) by now apply Reqb_iff.
        rewrite Q, NEG. cbn [andb]. left. split; auto. intros t Pt Ct T. apply RT in T.
        pose proof (capped_tgv _ _ Hm Ct). lra.
    + lra.
    + rewrite Rmin_left by lra. apply DONE; auto; [lra|]. intros t T Pt. apply RT in T. lra.
Qed.

(* ---- the shapes ---- *)
(* the point c + a v1 + b v2 *)
Definition comb2 (c v1 v2 : p2) (a b : R) : p2 :=
  P2 (px c + a * px v1 + b * px v2) (py c + a * py v1 + b * py v2).
Definition comb3 (c v1 v2 v3 : p3) (a b d : R) : p3 :=
  P3 (qx c + a * qx v1 + b * qx v2 + d * qx v3) (qy c + a * qy v1 + b * qy v2 + d * qy v3)
     (qz c + a * qz v1 + b * qz v2 + d * qz v3).
(* the point at fraction t of the half line *)
Definition at2 (q v : p2) (t : R) : p2 := P2 (px q + t * px v) (py q + t * py v).
Definition at3 (q v : p3) (t : R) : p3 := P3 (qx q + t * qx v) (qy q + t * qy v) (qz q + t * qz v).
Definition indep2 (v1 v2 : p2) : Prop := px v1 * py v2 - py v1 * px v2 <> 0.
Definition indep3 (v1 v2 v3 : p3) : Prop := det3 v1 v2 v3 <> 0.
Definition nonzero2 (v : p2) : Prop := px v <> 0 \/ py v <> 0.
Definition nonzero3 (v : p3) : Prop := qx v <> 0 \/ qy v <> 0 \/ qz v <> 0.

Definition disk2 (c v1 v2 q : p2) : Prop := exists a b, a ^ 2 + b ^ 2 <= 1 /\ q = comb2 c v1 v2 a b.
Definition rim2 (c v1 v2 q : p2) : Prop := exists a b, a ^ 2 + b ^ 2 = 1 /\ q = comb2 c v1 v2 a b.
Definition ball3 (c v1 v2 v3 q : p3) : Prop :=
  exists a b d, a ^ 2 + b ^ 2 + d ^ 2 <= 1 /\ q = comb3 c v1 v2 v3 a b d.
Definition shell3 (c v1 v2 v3 q : p3) : Prop :=
  exists a b d, a ^ 2 + b ^ 2 + d ^ 2 = 1 /\ q = comb3 c v1 v2 v3 a b d.

Lemma p2_eq p q : px p = px q -> py p = py q -> p = q.
Proof. destruct p, q; cbn; intros -> ->; auto. Qed.
Lemma p3_eq p q : qx p = qx q -> qy p = qy q -> qz p = qz q -> p = q.
Proof. destruct p, q; cbn; intros -> -> ->; auto. Qed.

(* the coordinates of a point in the frame c, v1, v2 *)
Definition co1 (c v1 v2 q : p2) : R :=
  ((px q - px c) * py v2 - (py q - py c) * px v2) / (px v1 * py v2 - py v1 * px v2).
Definition co2 (c v1 v2 q : p2) : R :=
  ((py q - py c) * px v1 - (px q - px c) * py v1) / (px v1 * py v2 - py v1 * px v2).
Lemma co_comb c v1 v2 q : indep2 v1 v2 -> q = comb2 c v1 v2 (co1 c v1 v2 q) (co2 c v1 v2 q).
Proof. intros H. unfold indep2 in H. apply p2_eq; unfold co1, co2; cbn; field; auto. Qed.
Lemma comb_co c v1 v2 a b : indep2 v1 v2 ->
  co1 c v1 v2 (comb2 c v1 v2 a b) = a /\ co2 c v1 v2 (comb2 c v1 v2 a b) = b.
Proof. intros H. unfold indep2 in H. unfold co1, co2; cbn. split; field; auto. Qed.
Lemma disk2_co c v1 v2 q : indep2 v1 v2 ->
  (disk2 c v1 v2 q <-> co1 c v1 v2 q ^ 2 + co2 c v1 v2 q ^ 2 <= 1).
Proof.
  intros H. split.
  - intros (a & b & L & ->). destruct (comb_co c v1 v2 a b H) as [-> ->]. auto.
  - intros L. exists (co1 c v1 v2 q), (co2 c v1 v2 q). split; auto. now apply co_comb.
Qed.
Lemma rim2_co c v1 v2 q : indep2 v1 v2 ->
  (rim2 c v1 v2 q <-> co1 c v1 v2 q ^ 2 + co2 c v1 v2 q ^ 2 = 1).
Proof.
  intros H. split.
  - intros (a & b & L & ->). destruct (comb_co c v1 v2 a b H) as [-> ->]. auto.
  - intros L. exists (co1 c v1 v2 q), (co2 c v1 v2 q). split; auto. now apply co_comb.
Qed.

(* the left side of the equation of the ellipse *)
Definition form2 (c v1 v2 q : p2) : R :=
  let X := px q - px c in let Y := py q - py c in
  X ^ 2 * (py v1 ^ 2 + py v2 ^ 2) + Y ^ 2 * (px v1 ^ 2 + px v2 ^ 2)
  - X * Y * (2 * (px v1 * py v1 + px v2 * py v2)).
Lemma form2_co c v1 v2 q : indep2 v1 v2 ->
  form2 c v1 v2 q = (co1 c v1 v2 q ^ 2 + co2 c v1 v2 q ^ 2) * (px v1 * py v2 - py v1 * px v2) ^ 2.
Proof. intros H. unfold indep2 in H. unfold form2, co1, co2. field. auto. Qed.
Lemma sq_pos x : x <> 0 -> 0 < x ^ 2.
Proof. intros. assert (0 < x * x) by nra. nra. Qed.
Lemma form2_disk c v1 v2 q : indep2 v1 v2 ->
  (form2 c v1 v2 q <= (px v1 * py v2 - py v1 * px v2) ^ 2 <-> disk2 c v1 v2 q).
Proof.
  intros H. rewrite disk2_co by auto. rewrite form2_co by auto. apply sq_pos in H.
  set (d := (_ ^ 2)) in *. clearbody d. set (s := (_ + _)). clearbody s. split; intros; nra.
Qed.
Lemma form2_rim c v1 v2 q : indep2 v1 v2 ->
  (form2 c v1 v2 q - (px v1 * py v2 - py v1 * px v2) ^ 2 = 0 <-> rim2 c v1 v2 q).
Proof.
  intros H. rewrite rim2_co by auto. rewrite form2_co by auto. apply sq_pos in H.
  set (d := (_ - _) ^ 2) in *. clearbody d. set (s := (_ + _)). clearbody s. split; intros; [|nra].
  assert (d * (s - 1) = 0) by lra. apply Rmult_integral in H1. lra.
Qed.

Definition quad_a (v v1 v2 : p2) : R :=
  px v ^ 2 * (py v1 ^ 2 + py v2 ^ 2) + py v ^ 2 * (px v1 ^ 2 + px v2 ^ 2)
  - px v * py v * (2 * (px v1 * py v1 + px v2 * py v2)).
Definition quad_b (q v c v1 v2 : p2) : R :=
  let X := px q - px c in let Y := py q - py c in
  2 * X * px v * (py v1 ^ 2 + py v2 ^ 2) + 2 * Y * py v * (px v1 ^ 2 + px v2 ^ 2)
  - (X * py v + Y * px v) * (2 * (px v1 * py v1 + px v2 * py v2)).
Lemma form2_at q v c v1 v2 t :
  form2 c v1 v2 (at2 q v t) = quad_a v v1 v2 * t ^ 2 + quad_b q v c v1 v2 * t + form2 c v1 v2 q.
Proof. unfold form2, quad_a, quad_b, at2; cbn. ring. Qed.
Lemma quad_a_pos v v1 v2 : indep2 v1 v2 -> nonzero2 v -> 0 < quad_a v v1 v2.
Proof.
  intros H N. assert (E : quad_a v v1 v2 = (px v * py v1 - py v * px v1) ^ 2 + (px v * py v2 - py v * px v2) ^ 2)
    by (unfold quad_a; ring).
  rewrite E. set (A := px v * py v1 - py v * px v1). set (B := px v * py v2 - py v * px v2).
  assert (0 <= A ^ 2) by apply pow2_ge_0. assert (0 <= B ^ 2) by apply pow2_ge_0.
  destruct (Req_dec A 0) as [ZA|ZA]; [|apply sq_pos in ZA; lra].
  destruct (Req_dec B 0) as [ZB|ZB]; [|apply sq_pos in ZB; lra].
  exfalso. unfold indep2 in H.
  assert (E1 : px v * (px v1 * py v2 - py v1 * px v2) = px v1 * B - px v2 * A) by (unfold A, B; ring).
  assert (E2 : py v * (px v1 * py v2 - py v1 * px v2) = py v1 * B - py v2 * A) by (unfold A, B; ring).
  rewrite ZA, ZB in *. rewrite !Rmult_0_r, Rminus_0_r in *.
  apply Rmult_integral in E1. apply Rmult_integral in E2. destruct N; tauto.
Qed.

Lemma distance_ellipse_alpha q v c v1 v2 dmax l :
  h_alpha (distance_ellipse q v c v1 v2 dmax l) =
  first_root (quad_a v v1 v2) (quad_b q v c v1 v2)
    (form2 c v1 v2 q - (px v1 * py v2 - py v1 * px v2) ^ 2) dmax.
Proof.
  unfold distance_ellipse.
  match goal with |- context [Rltb 0 (first_root ?a ?b ?c ?d)] => destruct (Rltb 0 (first_root a b c d)) end;
  cbn [h_alpha]; reflexivity.
Qed.
Lemma distance_ellipse_border q v c v1 v2 dmax l :
  h_border (distance_ellipse q v c v1 v2 dmax l) =
  if Rltb 0 (h_alpha (distance_ellipse q v c v1 v2 dmax l)) then l else (-1)%Z.
Proof.
  rewrite distance_ellipse_alpha. unfold distance_ellipse.
  cbv zeta. match goal with |- context [if Rltb 0 ?x then mkHit _ _ _ else _] =>
    change x with (first_root (quad_a v v1 v2) (quad_b q v c v1 v2)
    (form2 c v1 v2 q - (px v1 * py v2 - py v1 * px v2) ^ 2) dmax) end.
  destruct (Rltb 0 _); reflexivity.
Qed.

Lemma ellipse_spec q v c v1 v2 dmax l : indep2 v1 v2 -> nonzero2 v -> ~ rim2 c v1 v2 q -> cap_ok dmax ->
  let r := h_alpha (distance_ellipse q v c v1 v2 dmax l) in
  (r = -1 /\ forall t, 0 < t -> capped dmax t -> ~ rim2 c v1 v2 (at2 q v t)) \/
  (0 < r /\ below dmax r = true /\ rim2 c v1 v2 (at2 q v r) /\
   forall t, 0 < t -> t < r -> ~ rim2 c v1 v2 (at2 q v t)).
Proof.
  intros H N Q Hm. cbv zeta. rewrite distance_ellipse_alpha.
  assert (EQ : forall t, rim2 c v1 v2 (at2 q v t) <->
    quad_a v v1 v2 * t ^ 2 + quad_b q v c v1 v2 * t + (form2 c v1 v2 q - (px v1 * py v2 - py v1 * px v2) ^ 2) = 0).
  { intros t. rewrite <- form2_rim by auto. rewrite form2_at. split; intros; lra. }
  assert (C : form2 c v1 v2 q - (px v1 * py v2 - py v1 * px v2) ^ 2 <> 0).
  { intros C. apply Q. apply form2_rim; auto. }
  destruct (first_root_spec (quad_a v v1 v2) (quad_b q v c v1 v2) _ dmax (quad_a_pos _ _ _ H N) C Hm)
    as [[E F]|(P & B & R & F)].
  - left. split; auto. intros t Pt Ct T. apply EQ in T. exact (F t Pt Ct T).
  - right. repeat split; auto. now apply EQ. intros t Pt Lt T. apply EQ in T. exact (F t Pt Lt T).
Qed.

(* ---- three dimensions ---- *)
Definition form3 (c v1 v2 v3 q : p3) : R :=
  let X := qx q - qx c in let Y := qy q - qy c in let Z := qz q - qz c in
  let k := ellipsoid_eq v1 v2 v3 in
  k_xx k * X ^ 2 + k_yy k * Y ^ 2 + k_zz k * Z ^ 2 + k_xy k * X * Y + k_yz k * Y * Z + k_zx k * Z * X.
Definition cd1 (c v1 v2 v3 q : p3) : R := det3 (sub3 q c) v2 v3 / det3 v1 v2 v3.
Definition cd2 (c v1 v2 v3 q : p3) : R := det3 v1 (sub3 q c) v3 / det3 v1 v2 v3.
Definition cd3 (c v1 v2 v3 q : p3) : R := det3 v1 v2 (sub3 q c) / det3 v1 v2 v3.
Ltac unf3 := unfold det3, dot3, cross3, sub3, add3, scale3, comb3, at3 in *; cbn [qx qy qz] in *.
Lemma cd_comb c v1 v2 v3 q : indep3 v1 v2 v3 ->
  q = comb3 c v1 v2 v3 (cd1 c v1 v2 v3 q) (cd2 c v1 v2 v3 q) (cd3 c v1 v2 v3 q).
Proof.
  intros H. unfold indep3 in H. unfold cd1, cd2, cd3. apply p3_eq; unf3; field; auto.
Qed.
Lemma comb_cd c v1 v2 v3 a b d : indep3 v1 v2 v3 ->
  cd1 c v1 v2 v3 (comb3 c v1 v2 v3 a b d) = a /\ cd2 c v1 v2 v3 (comb3 c v1 v2 v3 a b d) = b /\
  cd3 c v1 v2 v3 (comb3 c v1 v2 v3 a b d) = d.
Proof. intros H. unfold indep3 in H. unfold cd1, cd2, cd3. unf3. repeat split; field; auto. Qed.
Lemma form3_co c v1 v2 v3 q : indep3 v1 v2 v3 ->
  form3 c v1 v2 v3 q = (cd1 c v1 v2 v3 q ^ 2 + cd2 c v1 v2 v3 q ^ 2 + cd3 c v1 v2 v3 q ^ 2)
                       * k_d (ellipsoid_eq v1 v2 v3).
Proof.
  intros H. unfold indep3 in H. unfold form3, ellipsoid_eq, cd1, cd2, cd3; cbn [k_xx k_yy k_zz k_xy k_yz k_zx k_d].
  unf3. field. auto.
Qed.
Lemma kd_pos v1 v2 v3 : indep3 v1 v2 v3 -> 0 < k_d (ellipsoid_eq v1 v2 v3).
Proof. intros H. cbn. now apply sq_pos. Qed.
Lemma ball3_co c v1 v2 v3 q : indep3 v1 v2 v3 ->
  (ball3 c v1 v2 v3 q <-> cd1 c v1 v2 v3 q ^ 2 + cd2 c v1 v2 v3 q ^ 2 + cd3 c v1 v2 v3 q ^ 2 <= 1).
Proof.
  intros H. split.
  - intros (a & b & d & L & ->). destruct (comb_cd c v1 v2 v3 a b d H) as (-> & -> & ->). auto.
  - intros L. do 3 eexists. split; [exact L|]. now apply cd_comb.
Qed.
Lemma shell3_co c v1 v2 v3 q : indep3 v1 v2 v3 ->
  (shell3 c v1 v2 v3 q <-> cd1 c v1 v2 v3 q ^ 2 + cd2 c v1 v2 v3 q ^ 2 + cd3 c v1 v2 v3 q ^ 2 = 1).
Proof.
  intros H. split.
  - intros (a & b & d & L & ->). destruct (comb_cd c v1 v2 v3 a b d H) as (-> & -> & ->). auto.
  - intros L. do 3 eexists. split; [exact L|]. now apply cd_comb.
Qed.
Lemma form3_ball c v1 v2 v3 q : indep3 v1 v2 v3 ->
  (form3 c v1 v2 v3 q <= k_d (ellipsoid_eq v1 v2 v3) <-> ball3 c v1 v2 v3 q).
Proof.
  intros H. rewrite ball3_co, form3_co by auto. apply kd_pos in H. revert H.
  generalize (k_d (ellipsoid_eq v1 v2 v3)). intros d H. set (s := (_ + _)). clearbody s. split; intros; nra.
Qed.
Lemma form3_shell c v1 v2 v3 q : indep3 v1 v2 v3 ->
  (form3 c v1 v2 v3 q - k_d (ellipsoid_eq v1 v2 v3) = 0 <-> shell3 c v1 v2 v3 q).
Proof.
  intros H. rewrite shell3_co, form3_co by auto. apply kd_pos in H. revert H.
  generalize (k_d (ellipsoid_eq v1 v2 v3)). intros d H. set (s := (_ + _)). clearbody s. split; intros; [|nra].
  assert (d * (s - 1) = 0) by lra. apply Rmult_integral in H1. lra.
Qed.
Definition quad_a3 (v v1 v2 v3 : p3) : R :=
  let k := ellipsoid_eq v1 v2 v3 in
  k_xx k * qx v ^ 2 + k_yy k * qy v ^ 2 + k_zz k * qz v ^ 2
  + k_xy k * qx v * qy v + k_yz k * qy v * qz v + k_zx k * qz v * qx v.
Definition quad_b3 (q v c v1 v2 v3 : p3) : R :=
  let X := qx q - qx c in let Y := qy q - qy c in let Z := qz q - qz c in
  let k := ellipsoid_eq v1 v2 v3 in
  (2 * k_xx k * qx v + k_xy k * qy v + k_zx k * qz v) * X
  + (2 * k_yy k * qy v + k_yz k * qz v + k_xy k * qx v) * Y
  + (2 * k_zz k * qz v + k_zx k * qx v + k_yz k * qy v) * Z.
Lemma form3_at q v c v1 v2 v3 t :
  form3 c v1 v2 v3 (at3 q v t) =
  quad_a3 v v1 v2 v3 * t ^ 2 + quad_b3 q v c v1 v2 v3 * t + form3 c v1 v2 v3 q.
Proof.
  unfold form3, quad_a3, quad_b3, at3; cbn [qx qy qz]. generalize (ellipsoid_eq v1 v2 v3). intros k. ring.
Qed.
Lemma quad_a3_pos v v1 v2 v3 : indep3 v1 v2 v3 -> nonzero3 v -> 0 < quad_a3 v v1 v2 v3.
Proof.
  intros H N.
  assert (E : quad_a3 v v1 v2 v3 = dot3 v (cross3 v1 v2) ^ 2 + dot3 v (cross3 v2 v3) ^ 2 + dot3 v (cross3 v3 v1) ^ 2)
    by (unfold quad_a3, ellipsoid_eq; cbn [k_xx k_yy k_zz k_xy k_yz k_zx]; unfold dot3; ring).
  rewrite E. set (A := dot3 v (cross3 v1 v2)). set (B := dot3 v (cross3 v2 v3)). set (C := dot3 v (cross3 v3 v1)).
  assert (0 <= A ^ 2) by apply pow2_ge_0. assert (0 <= B ^ 2) by apply pow2_ge_0.
  assert (0 <= C ^ 2) by apply pow2_ge_0.
  destruct (Req_dec A 0) as [ZA|ZA]; [|apply sq_pos in ZA; lra].
  destruct (Req_dec B 0) as [ZB|ZB]; [|apply sq_pos in ZB; lra].
  destruct (Req_dec C 0) as [ZC|ZC]; [|apply sq_pos in ZC; lra].
  exfalso. unfold indep3 in H.
  assert (E1 : qx v * det3 v1 v2 v3 = B * qx v1 + C * qx v2 + A * qx v3) by (unfold A, B, C; unf3; ring).
  assert (E2 : qy v * det3 v1 v2 v3 = B * qy v1 + C * qy v2 + A * qy v3) by (unfold A, B, C; unf3; ring).
  assert (E3 : qz v * det3 v1 v2 v3 = B * qz v1 + C * qz v2 + A * qz v3) by (unfold A, B, C; unf3; ring).
  rewrite ZA, ZB, ZC in *. rewrite !Rmult_0_l, !Rplus_0_r in *.
  apply Rmult_integral in E1. apply Rmult_integral in E2. apply Rmult_integral in E3.
  destruct N as [N|[N|N]]; tauto.
Qed.
Lemma distance_ellipsoid_alpha q v c v1 v2 v3 dmax l :
  h_alpha (distance_ellipsoid q v c v1 v2 v3 dmax l) =
  first_root (quad_a3 v v1 v2 v3) (quad_b3 q v c v1 v2 v3)
    (form3 c v1 v2 v3 q - k_d (ellipsoid_eq v1 v2 v3)) dmax.
Proof.
  unfold distance_ellipsoid. cbv zeta.
  match goal with |- context [Rltb 0 (first_root ?a ?b ?c ?d)] => destruct (Rltb 0 (first_root a b c d)) end;
  cbn [h_alpha]; reflexivity.
Qed.
Lemma distance_ellipsoid_border q v c v1 v2 v3 dmax l :
  h_border (distance_ellipsoid q v c v1 v2 v3 dmax l) =
  if Rltb 0 (h_alpha (distance_ellipsoid q v c v1 v2 v3 dmax l)) then l else (-1)%Z.
Proof.
  rewrite distance_ellipsoid_alpha. unfold distance_ellipsoid. cbv zeta.
  match goal with |- context [if Rltb 0 ?x then mkHit _ _ _ else _] =>
    change x with (first_root (quad_a3 v v1 v2 v3) (quad_b3 q v c v1 v2 v3)
    (form3 c v1 v2 v3 q - k_d (ellipsoid_eq v1 v2 v3)) dmax) end.
  destruct (Rltb 0 _); reflexivity.
Qed.
Lemma ellipsoid_spec q v c v1 v2 v3 dmax l :
  indep3 v1 v2 v3 -> nonzero3 v -> ~ shell3 c v1 v2 v3 q -> cap_ok dmax ->
  let r := h_alpha (distance_ellipsoid q v c v1 v2 v3 dmax l) in
  (r = -1 /\ forall t, 0 < t -> capped dmax t -> ~ shell3 c v1 v2 v3 (at3 q v t)) \/
  (0 < r /\ below dmax r = true /\ shell3 c v1 v2 v3 (at3 q v r) /\
   forall t, 0 < t -> t < r -> ~ shell3 c v1 v2 v3 (at3 q v t)).
Proof.
  intros H N Q Hm. cbv zeta. rewrite distance_ellipsoid_alpha.
  assert (EQ : forall t, shell3 c v1 v2 v3 (at3 q v t) <->
    quad_a3 v v1 v2 v3 * t ^ 2 + quad_b3 q v c v1 v2 v3 * t
    + (form3 c v1 v2 v3 q - k_d (ellipsoid_eq v1 v2 v3)) = 0).
  { intros t. rewrite <- form3_shell by auto. rewrite form3_at. split; intros; lra. }
  assert (C : form3 c v1 v2 v3 q - k_d (ellipsoid_eq v1 v2 v3) <> 0).
  { intros C. apply Q. apply form3_shell; auto. }
  destruct (first_root_spec _ (quad_b3 q v c v1 v2 v3) _ dmax (quad_a3_pos _ _ _ _ H N) C Hm)
    as [[E F]|(P & B & R & F)].
  - left. split; auto. intros t Pt Ct T. apply EQ in T. exact (F t Pt Ct T).
  - right. repeat split; auto. now apply EQ. intros t Pt Lt T. apply EQ in T. exact (F t Pt Lt T).
Qed.
