(* Properties C40 and C53 (cylinders) and C52 (normal vectors). *)
From Coq Require Import Reals ZArith List Lra Psatz Bool.
From Verif Require Import ElementModel ElementProofs ElementLinesProofs ElementFrameProofs ElementProps
  ElementCylProofs.
Import ListNotations.
Open Scope R_scope.

(* ---- C40 ---- *)
Theorem C40_inside y q : indep3 (y_v1 y) (y_v2 y) (y_w y) ->
  (cylinder_inside y q = true <->
   exists a b d, q = comb3 (y_center y) (y_v1 y) (y_v2 y) (y_w y) a b d /\ shape (y_base y) a b /\ -1 <= d <= 1).
Proof.
  intros H. unfold cylinder_inside. fold (frame y q). rewrite andb_true_iff, base_inside_iff, Rleb_iff.
  assert (A : Rabs (qz (frame y q)) <= 1 <-> -1 <= qz (frame y q) <= 1).
  { unfold Rabs. destruct (Rcase_abs (qz (frame y q))); split; intros; lra. }
  rewrite A. split.
  - intros [S D]. exists (qx (frame y q)), (qy (frame y q)), (qz (frame y q)). split; [now apply frame_comb|auto].
  - intros (a & b & d & -> & S & D). rewrite comb_frame by auto. auto.
Qed.
(* The half height of the box is half of what it should be. *)
Definition unit_cyl (b : base) : cylinder :=
  mkCyl (P3 0 0 0) (P3 1 0 0) (P3 0 1 0) (P3 0 0 4) b (fun i => Z.of_nat i) 10 11.
Lemma unit_cyl_indep b : indep3 (y_v1 (unit_cyl b)) (y_v2 (unit_cyl b)) (y_w (unit_cyl b)).
Proof. unfold indep3. cbn [unit_cyl y_v1 y_v2 y_w]. unf3. lra. Qed.
Lemma norm_e : norm3 (P3 1 0 0) = 1 /\ norm3 (P3 0 1 0) = 1.
Proof.
  unfold norm3, dot3; cbn [qx qy qz]. split; match goal with |- sqrt ?x = 1 => replace x with 1 by ring end; apply sqrt_1.
Qed.
Theorem C40_refuted : forall b, exists y q, y_base y = b /\ indep3 (y_v1 y) (y_v2 y) (y_w y) /\
  dot3 (y_v1 y) (y_v2 y) = 0 /\ norm3 (y_v1 y) = norm3 (y_v2 y) /\
  cylinder_inside y q = true /\ ~ in_box3 (cylinder_bounds y) q.
Proof.
  intros b. exists (unit_cyl b), (P3 0 0 4). split; [auto|]. split; [apply unit_cyl_indep|].
  destruct norm_e as [N1 N2].
  split; [cbn; unfold dot3; cbn; ring|]. split; [cbn [unit_cyl y_v1 y_v2]; congruence|]. split.
  - apply C40_inside; [apply unit_cyl_indep|]. exists 0, 0, 1. split; [apply p3_eq; cbn; ring|].
    split; [|lra]. destruct b; cbn; lra.
  - unfold in_box3. intros (_ & _ & _ & C). revert C. unfold cylinder_bounds, base_bounds.
    cbn [unit_cyl y_base y_center y_v1 y_v2 y_w qz].
    rewrite (Rabs_right 4) by lra.
    destruct b; cbn [fst snd box3 add3 qx qy qz]; rewrite ?N1, ?N2.
    + lra.
    + rewrite Rmax_left by lra. lra.
    + intros C. assert (max4 0 (0 + 0) (0 + 0 + 0) (0 + 0) <= 0) by (apply max4_lub; lra). lra.
    + intros C. assert (max4 0 (0 + 0) (0 + 0 + 0) (0 + 0) <= 0) by (apply max4_lub; lra). lra.
Qed.
(* Every parallelepiped sticks out of its box. *)
Lemma max4_case a b c d : let m := max4 a b c d in m = a \/ m = b \/ m = c \/ m = d.
Proof.
  cbv zeta. unfold max4, Rmax. destruct (Rle_dec a b); [destruct (Rle_dec b c)|destruct (Rle_dec a c)];
  match goal with |- context [Rle_dec ?x ?y] => destruct (Rle_dec x y) end; auto.
Qed.
(* A parallelepiped is the point plus a part of each of its three vectors. *)
Theorem C40_parallelepiped_inside point v0 v1 v2 lab bot top q : indep3 v0 v1 v2 ->
  (cylinder_inside (parallelepiped point v0 v1 v2 lab bot top) q = true <->
   exists a b d, q = comb3 point v0 v1 v2 a b d /\ 0 <= a <= 1 /\ 0 <= b <= 1 /\ 0 <= d <= 1).
Proof.
  intros H. set (y := parallelepiped point v0 v1 v2 lab bot top).
  assert (I : indep3 (y_v1 y) (y_v2 y) (y_w y)).
  { unfold indep3 in *. cbn [y parallelepiped y_v1 y_v2 y_w]. intros E. apply H. revert E. unf3. intros E. lra. }
  rewrite (C40_inside y q I). split.
  - intros (a & b & d & -> & S & D). exists a, b, ((1 + d) / 2). cbn [y parallelepiped y_base shape] in S.
    split; [|lra]. apply p3_eq; cbn; field.
  - intros (a & b & d & -> & A & B & D). exists a, b, (2 * d - 1). split; [apply p3_eq; cbn; field|].
    cbn [y parallelepiped y_base shape]. lra.
Qed.
Theorem C40_parallelepiped_refuted point v0 v1 v2 lab bot top :
  let y := parallelepiped point v0 v1 v2 lab bot top in
  indep3 (y_v1 y) (y_v2 y) (y_w y) ->
  exists q, cylinder_inside y q = true /\ ~ in_box3 (cylinder_bounds y) q.
Proof.
  intros y H.
  assert (W : qx (y_w y) <> 0 \/ qy (y_w y) <> 0 \/ qz (y_w y) <> 0).
  { destruct (Req_dec (qx (y_w y)) 0) as [X|]; auto. destruct (Req_dec (qy (y_w y)) 0) as [Y|]; auto.
    destruct (Req_dec (qz (y_w y)) 0) as [Z|]; auto. exfalso. apply H. unf3. rewrite X, Y, Z. ring. }
  assert (B : y_base y = BParallelogram) by reflexivity. clearbody y.
  assert (IN : forall a b d, 0 <= a <= 1 -> 0 <= b <= 1 -> -1 <= d <= 1 ->
     cylinder_inside y (comb3 (y_center y) (y_v1 y) (y_v2 y) (y_w y) a b d) = true).
  { intros. apply C40_inside; auto. exists a, b, d. rewrite B. cbn. auto. }
  assert (GO : forall (f : p3 -> R),
     (forall a b d, f (comb3 (y_center y) (y_v1 y) (y_v2 y) (y_w y) a b d) =
                    f (y_center y) + a * f (y_v1 y) + b * f (y_v2 y) + d * f (y_w y)) ->
     f (y_w y) <> 0 ->
     exists a b d, 0 <= a <= 1 /\ 0 <= b <= 1 /\ -1 <= d <= 1 /\
       max4 (f (y_center y)) (f (y_center y) + f (y_v1 y)) (f (y_center y) + f (y_v1 y) + f (y_v2 y))
            (f (y_center y) + f (y_v2 y)) + 5 / 10 * Rabs (f (y_w y)) <
       f (comb3 (y_center y) (y_v1 y) (y_v2 y) (y_w y) a b d)).
  { intros f F NZ. set (c := f (y_center y)) in *. set (x1 := f (y_v1 y)) in *. set (x2 := f (y_v2 y)) in *.
    set (w := f (y_w y)) in *.
    assert (D : exists d, -1 <= d <= 1 /\ d * w = Rabs w).
    { unfold Rabs. destruct (Rcase_abs w); [exists (-1)|exists 1]; split; lra. }
    destruct D as (d & Hd & Ed). assert (PW : 0 < Rabs w) by now apply Rabs_pos_lt.
    destruct (max4_case c (c + x1) (c + x1 + x2) (c + x2)) as [E|[E|[E|E]]].
    - exists 0, 0, d. repeat split; try lra. rewrite F, E. lra.
    - exists 1, 0, d. repeat split; try lra. rewrite F, E. lra.
    - exists 1, 1, d. repeat split; try lra. rewrite F, E. lra.
    - exists 0, 1, d. repeat split; try lra. rewrite F, E. lra. }
  assert (OUT : forall q, in_box3 (cylinder_bounds y) q ->
     qx q <= max4 (qx (y_center y)) (qx (y_center y) + qx (y_v1 y)) (qx (y_center y) + qx (y_v1 y) + qx (y_v2 y))
            (qx (y_center y) + qx (y_v2 y)) + 5 / 10 * Rabs (qx (y_w y)) /\
     qy q <= max4 (qy (y_center y)) (qy (y_center y) + qy (y_v1 y)) (qy (y_center y) + qy (y_v1 y) + qy (y_v2 y))
            (qy (y_center y) + qy (y_v2 y)) + 5 / 10 * Rabs (qy (y_w y)) /\
     qz q <= max4 (qz (y_center y)) (qz (y_center y) + qz (y_v1 y)) (qz (y_center y) + qz (y_v1 y) + qz (y_v2 y))
            (qz (y_center y) + qz (y_v2 y)) + 5 / 10 * Rabs (qz (y_w y))).
  { intros q. unfold in_box3, cylinder_bounds, base_bounds. rewrite B. cbn [fst snd qx qy qz add3 sub3]. lra. }
  destruct W as [W|[W|W]].
  - destruct (GO qx (fun _ _ _ => eq_refl) W) as (a & b & d & A1 & A2 & A3 & A4).
    eexists. split; [apply (IN a b d); auto|]. intros C. apply OUT in C. lra.
  - destruct (GO qy (fun _ _ _ => eq_refl) W) as (a & b & d & A1 & A2 & A3 & A4).
    eexists. split; [apply (IN a b d); auto|]. intros C. apply OUT in C. lra.
  - destruct (GO qz (fun _ _ _ => eq_refl) W) as (a & b & d & A1 & A2 & A3 & A4).
    eexists. split; [apply (IN a b d); auto|]. intros C. apply OUT in C. lra.
Qed.
(* What holds: the box contains the part of the cylinder up to half the height, and with
   |w| in place of |w|/2 it contains the cylinder. *)
Definition base_ok (y : cylinder) : Prop :=
  match y_base y with
  | BCircle => dot3 (y_v1 y) (y_v2 y) = 0 /\ norm3 (y_v1 y) = norm3 (y_v2 y)
  | BEllipse => dot3 (y_v1 y) (y_v2 y) = 0
  | _ => True
  end.
Lemma base_box y a b : base_ok y -> shape (y_base y) a b ->
  in_box3 (base_bounds y) (comb3 (y_center y) (y_v1 y) (y_v2 y) (y_w y) a b 0).
Proof.
  intros OK S.
  assert (CORN : 0 <= a <= 1 -> 0 <= b <= 1 ->
    forall f : p3 -> R, let c := f (y_center y) in let x := f (y_v1 y) in let z := f (y_v2 y) in
    min4 c (c + x) (c + x + z) (c + z) <= c + a * x + b * z + 0 * f (y_w y) <= max4 c (c + x) (c + x + z) (c + z)).
  { intros A B f c x z. replace (c + a * x + b * z + 0 * f (y_w y)) with (c + a * x + b * z) by ring.
    apply corners; auto; [apply min4_le|apply max4_ge]. }
  assert (ROUND : forall r, dot3 (y_v1 y) (y_v2 y) = 0 -> norm3 (y_v1 y) <= r -> norm3 (y_v2 y) <= r -> a ^ 2 + b ^ 2 <= 1 ->
    in_box3 (box3 (y_center y) r) (comb3 (y_center y) (y_v1 y) (y_v2 y) (y_w y) a b 0)).
  { intros r D B1 B2 L. set (v1 := y_v1 y) in *. set (v2 := y_v2 y) in *.
    assert (P1 : 0 <= norm3 v1) by apply sqrt_pos. assert (P2 : 0 <= norm3 v2) by apply sqrt_pos.
    assert (G1 : dot3 v1 v1 <= r ^ 2) by (rewrite <- norm3_sq; apply pow_incr; lra).
    assert (G2 : dot3 v2 v2 <= r ^ 2) by (rewrite <- norm3_sq; apply pow_incr; lra).
    set (x := a * qx v1 + b * qx v2). set (yy := a * qy v1 + b * qy v2). set (z := a * qz v1 + b * qz v2).
    assert (T : x ^ 2 + yy ^ 2 + z ^ 2 <= r ^ 2).
    { replace (x ^ 2 + yy ^ 2 + z ^ 2) with (a ^ 2 * dot3 v1 v1 + b ^ 2 * dot3 v2 v2 + 2 * a * b * dot3 v1 v2)
        by (unfold x, yy, z, dot3; ring).
      rewrite D. pose proof (pow2_ge_0 a). pose proof (pow2_ge_0 b). pose proof (pow2_ge_0 r). nra. }
    pose proof (pow2_ge_0 x). pose proof (pow2_ge_0 yy). pose proof (pow2_ge_0 z).
    assert (- r <= x <= r) by (apply abs_le; lra). assert (- r <= yy <= r) by (apply abs_le; lra).
    assert (- r <= z <= r) by (apply abs_le; lra).
    unfold in_box3, box3; cbn [fst snd qx qy qz comb3]. unfold x, yy, z in *. lra. }
  unfold base_ok in OK. unfold base_bounds. destruct (y_base y); cbn [shape] in S.
  - destruct OK as [D E]. apply ROUND; auto; lra.
  - apply ROUND; auto; [apply Rmax_l|apply Rmax_r].
  - unfold in_box3; cbn [fst snd qx qy qz add3 comb3]. split; [|split].
    + apply (CORN ltac:(lra) ltac:(lra) qx). + apply (CORN ltac:(lra) ltac:(lra) qy).
    + apply (CORN ltac:(lra) ltac:(lra) qz).
  - unfold in_box3; cbn [fst snd qx qy qz add3 comb3]. split; [|split].
    + apply (CORN ltac:(lra) ltac:(lra) qx). + apply (CORN ltac:(lra) ltac:(lra) qy).
    + apply (CORN ltac:(lra) ltac:(lra) qz).
Qed.
Lemma axis_box (y : cylinder) a b d k : base_ok y -> shape (y_base y) a b -> - k <= d <= k ->
  let lw := P3 (k * Rabs (qx (y_w y))) (k * Rabs (qy (y_w y))) (k * Rabs (qz (y_w y))) in
  let (lo, hi) := base_bounds y in
  in_box3 (sub3 lo lw, add3 hi lw) (comb3 (y_center y) (y_v1 y) (y_v2 y) (y_w y) a b d).
Proof.
  intros OK S D. pose proof (base_box y a b OK S) as B. destruct (base_bounds y) as [lo hi].
  assert (M : forall w, - (k * Rabs w) <= d * w <= k * Rabs w).
  { intros w. pose proof (Rabs_pos w). unfold Rabs. destruct (Rcase_abs w); nra. }
  pose proof (M (qx (y_w y))). pose proof (M (qy (y_w y))). pose proof (M (qz (y_w y))).
  unfold in_box3 in *. cbn [fst snd qx qy qz add3 sub3 comb3] in *. lra.
Qed.
Theorem C40_partial y q : indep3 (y_v1 y) (y_v2 y) (y_w y) -> base_ok y ->
  (exists a b d, q = comb3 (y_center y) (y_v1 y) (y_v2 y) (y_w y) a b d /\ shape (y_base y) a b /\ - (1/2) <= d <= 1/2) ->
  in_box3 (cylinder_bounds y) q.
Proof.
  intros H OK (a & b & d & -> & S & D). pose proof (axis_box y a b d (5/10) OK S ltac:(lra)) as A.
  unfold cylinder_bounds. destruct (base_bounds y). exact A.
Qed.
Theorem C40_full_axis y q : indep3 (y_v1 y) (y_v2 y) (y_w y) -> base_ok y -> cylinder_inside y q = true ->
  let lw := P3 (Rabs (qx (y_w y))) (Rabs (qy (y_w y))) (Rabs (qz (y_w y))) in
  in_box3 (sub3 (fst (base_bounds y)) lw, add3 (snd (base_bounds y)) lw) q.
Proof.
  intros H OK I. apply C40_inside in I as (a & b & d & -> & S & D); auto.
  pose proof (axis_box y a b d 1 OK S ltac:(lra)) as A. cbv zeta in A. destruct (base_bounds y) as [lo hi].
  rewrite !Rmult_1_l in A. exact A.
Qed.
(* With oblique vectors of equal norm (only their norms are compared) the section of the
   "circular" cylinder is an ellipse which leaves the box of the base. *)
Theorem C40_oblique_circle_refuted : exists y q,
  y_base y = BCircle /\ indep3 (y_v1 y) (y_v2 y) (y_w y) /\ norm3 (y_v1 y) = norm3 (y_v2 y) /\
  cylinder_inside y q = true /\ ~ in_box3 (cylinder_bounds y) q /\ qz q = qz (y_center y).
Proof.
  set (y := mkCyl (P3 0 0 0) (P3 1 0 0) (P3 (3/5) (4/5) 0) (P3 0 0 1) BCircle (fun _ => 0%Z) 1 2).
  assert (I : indep3 (y_v1 y) (y_v2 y) (y_w y)) by (unfold indep3; cbn [y y_v1 y_v2 y_w]; unf3; lra).
  assert (N : norm3 (P3 (3/5) (4/5) 0) = 1).
  { unfold norm3, dot3; cbn [qx qy qz]. match goal with |- sqrt ?x = 1 => replace x with 1 by field end. apply sqrt_1. }
  exists y, (P3 (27/25) (16/25) 0). destruct norm_e as [N1 _].
  split; [auto|]. split; [auto|]. split; [cbn [y y_v1 y_v2]; congruence|]. split; [|split; [|reflexivity]].
  - apply C40_inside; auto. exists (3/5), (4/5), 0. split; [apply p3_eq; cbn; field|]. cbn. lra.
  - unfold in_box3, cylinder_bounds, base_bounds. cbn [y y_base y_center y_v1 y_w box3 fst snd qx qy qz add3 sub3].
    rewrite N1, Rabs_R0. lra.
Qed.

(* ---- C53 ---- *)
(* The exact statement needs the velocity to leave the planes of the ends, or the point to
   be farther from them than m * 1e-16: for a velocity parallel to the ends the code
   divides by 1e-16. *)
Definition apart (z vz m : R) : Prop := vz <> 0 \/ m / 10 ^ 16 < Rabs (1 - z) /\ m / 10 ^ 16 < Rabs (1 + z).

Section Cyl.
Variable y : cylinder.
Variables q v : p3.
Variable m : R.
Hypothesis IND : indep3 (y_v1 y) (y_v2 y) (y_w y).
Hypothesis HM : 0 < m < tgv.
Hypothesis OFF : ~ surface y q.
Let c := frame y q.
Let vc := to_frame y v.
Hypothesis AP : apart (qz c) (qz vc) m.
Let b := y_base y.
Let at_ t := at3 c vc t.

Lemma flat_at t : flat (at_ t) = at2 (flat c) (flat vc) t.
Proof. reflexivity. Qed.
Lemma off0 : ~ surf b c.
Proof. intros S. apply OFF. apply surface_frame; auto. Qed.

Lemma end_some k s : (s = 1 /\ k = 1 - qz c \/ s = -1 /\ k = - (1 + qz c)) ->
  end_time b c vc m k = tgv \/
  0 < end_time b c vc m k <= m /\ Shape b (flat (at_ (end_time b c vc m k))) /\ qz (at_ (end_time b c vc m k)) = s.
Proof.
  intros K. unfold end_time. cbv zeta.
  set (decal := if Reqb (qz vc) 0 then / 10 ^ 16 else 0).
  set (t := k / (qz vc + decal)).
  destruct (Rltb t 0) eqn:E1; [now left|]. destruct (Rltb m t) eqn:E2; [now left|].
  destruct (base_inside b (P2 (qx c + t * qx vc) (qy c + t * qy vc))) eqn:E3; [|now left].
  cbn [orb negb]. apply Rltb_false in E1, E2. apply base_inside_iff in E3. right.
  destruct (Req_dec (qz vc) 0) as [Z|Z].
  - exfalso. destruct AP as [N|[A1 A2]]; [contradiction|].
    unfold t, decal in E1, E2. rewrite (proj2 (Reqb_iff (qz vc) 0) Z) in E1, E2. rewrite Z, Rplus_0_l in E1, E2.
    set (e := / 10 ^ 16) in *. assert (PE : 0 < e) by (unfold e; apply Rinv_0_lt_compat, pow_lt; lra).
    assert (T : k / e * e = k) by (field; lra).
    assert (KM : Rabs k <= m * e).
    { rewrite <- T, Rabs_mult, (Rabs_right e) by lra. apply Rmult_le_compat_r; [lra|]. rewrite Rabs_right; lra. }
    change (m / 10 ^ 16) with (m * e) in A1, A2. destruct K as [[_ ->]|[_ ->]]; [lra|].
    rewrite Rabs_Ropp in KM. lra.
  - assert (D : decal = 0) by (unfold decal; now rewrite (proj2 (Reqb_false (qz vc) 0) Z)).
    assert (ZT : qz (at_ t) = s).
    { unfold at_, at3; cbn [qz]. unfold t. rewrite D, Rplus_0_r.
      destruct K as [[-> ->]|[-> ->]]; field; auto. }
    split; [|auto]. split; [|lra]. destruct (Req_dec t 0) as [T|T]; [|lra]. exfalso. apply off0. right.
    assert (at_ t = c). { rewrite T. unfold at_, at3. apply p3_eq; cbn; ring. }
    rewrite H in ZT. split; [|destruct K as [[-> _]|[-> _]]; auto].
    unfold Shape, flat in *. cbn [px py] in *. rewrite T in E3. now rewrite !Rmult_0_l, !Rplus_0_r in E3.
Qed.
Lemma end_hit t k s : (s = 1 /\ k = 1 - qz c \/ s = -1 /\ k = - (1 + qz c)) ->
  0 < t -> t <= m -> Shape b (flat (at_ t)) -> qz (at_ t) = s -> end_time b c vc m k = t.
Proof.
  intros K Pt Lt S Z. unfold end_time. cbv zeta.
  assert (NZ : qz vc <> 0).
  { intros NZ. destruct AP as [A|[A1 A2]]; [contradiction|]. unfold at_, at3 in Z; cbn [qz] in Z.
    rewrite NZ, Rmult_0_r, Rplus_0_r in Z.
    assert (0 < m / 10 ^ 16) by (apply Rdiv_lt_0_compat; [lra|apply pow_lt; lra]).
    destruct K as [[-> _]|[-> _]]; rewrite Z in *.
    - rewrite Rminus_eq_0, Rabs_R0 in A1. lra.
    - replace (1 + -1) with 0 in A2 by ring. rewrite Rabs_R0 in A2. lra. }
  rewrite (proj2 (Reqb_false (qz vc) 0) NZ). rewrite Rplus_0_r.
  assert (T : k / qz vc = t).
  { unfold at_, at3 in Z; cbn [qz] in Z.
    assert (K' : k = t * qz vc) by (destruct K as [[-> ->]|[-> ->]]; lra). rewrite K'. field. auto. }
  rewrite T. rewrite (proj2 (Rltb_false t 0)), (proj2 (Rltb_false m t)) by lra.
  assert (SB := proj2 (base_inside_iff b _) S). unfold flat, at_, at3 in SB. cbn [qx qy] in SB. rewrite SB. reflexivity.
Qed.
Lemma side_some :
  side_time y c vc m = tgv \/
  0 < side_time y c vc m <= m /\ Outline b (flat (at_ (side_time y c vc m))) /\ -1 <= qz (at_ (side_time y c vc m)) <= 1.
Proof.
  unfold side_time. cbv zeta. pose proof tgv_pos.
  destruct (base_first (y_base y) (flat c) (flat vc) m (y_label y) (proj2 HM)) as [[A _]|(P & L & X & _ & _)].
  - rewrite A. rewrite (proj2 (Rltb_iff (-1) 0)) by lra. destruct (_ && _); now left.
  - rewrite (proj2 (Rltb_false _ 0)) by lra. rewrite (proj2 (Rltb_iff 0 _) P). cbn [andb].
    set (r := h_alpha _) in *. cmp 1 (Rabs (qz c + r * qz vc)) Rltb; [now left|right].
    split; [lra|]. split; [exact X|]. unfold at_, at3; cbn [qz]. revert E. unfold Rabs.
    destruct (Rcase_abs (qz c + r * qz vc)); lra.
Qed.
(* between two points of the section with a crossing of the plane of an end *)
Lemma cross_end s t : 0 <= s -> s < t -> t <= m -> Shape b (flat (at_ s)) -> Shape b (flat (at_ t)) ->
  ~ (-1 <= qz (at_ s) <= 1) -> -1 <= qz (at_ t) <= 1 ->
  exists k, (k = 1 - qz c \/ k = - (1 + qz c)) /\ 0 < end_time b c vc m k <= t.
Proof.
  intros Ps Lst Lt S1 S2 Z1 Z2.
  assert (X : exists g e, (e = 1 \/ e = -1) /\ s < g /\ g <= t /\ qz (at_ g) = e).
  { unfold at_, at3 in *; cbn [qz] in *.
    destruct (Rlt_dec 1 (qz c + s * qz vc)) as [G|G].
    - destruct (hit_value (qz c + s * qz vc) (qz vc) (t - s) 1) as (g & G1 & G2 & G3); [lra|right; split; [lra|]|].
      + replace (qz c + s * qz vc + (t - s) * qz vc) with (qz c + t * qz vc) by ring. lra.
      + exists (s + g), 1. repeat split; auto; lra.
    - destruct (hit_value (qz c + s * qz vc) (qz vc) (t - s) (-1)) as (g & G1 & G2 & G3); [lra|left; split; [lra|]|].
      + replace (qz c + s * qz vc + (t - s) * qz vc) with (qz c + t * qz vc) by ring. lra.
      + exists (s + g), (-1). repeat split; auto; lra. }
  destruct X as (g & e & E & G1 & G2 & G3).
  assert (SG : Shape b (flat (at_ g))).
  { rewrite flat_at in *. apply (shape_convex b _ _ s t g); auto; lra. }
  destruct E as [-> | ->].
  - exists (1 - qz c). split; [auto|]. rewrite (end_hit g (1 - qz c) 1); auto; lra.
  - exists (- (1 + qz c)). split; [auto|]. rewrite (end_hit g (- (1 + qz c)) (-1)); auto; lra.
Qed.
Lemma cand_le t : 0 < t -> t <= m -> surf b (at_ t) ->
  side_time y c vc m <= t \/ end_time b c vc m (1 - qz c) <= t \/ end_time b c vc m (- (1 + qz c)) <= t.
Proof.
  intros Pt Lt S.
  assert (C0 : at_ 0 = c) by (unfold at_, at3; apply p3_eq; cbn; ring).
  assert (FROM : forall s, 0 <= s -> s < t -> Shape b (flat (at_ s)) -> Shape b (flat (at_ t)) ->
    ~ (-1 <= qz (at_ s) <= 1) -> -1 <= qz (at_ t) <= 1 ->
    end_time b c vc m (1 - qz c) <= t \/ end_time b c vc m (- (1 + qz c)) <= t).
  { intros s P1 P2 P3 P4 P5 P6. destruct (cross_end s t) as (k & K & E); auto.
    destruct K as [-> | ->]; [left|right]; lra. }
  destruct S as [[O Z]|[S [Z|Z]]].
  - assert (SH : Shape b (flat (at_ t))) by now apply outline_shape.
    assert (HERE : Outline b (flat c) -> end_time b c vc m (1 - qz c) <= t \/ end_time b c vc m (- (1 + qz c)) <= t).
    { intros O0. apply (FROM 0); auto; [lra|rewrite C0; now apply outline_shape|rewrite C0].
      intros Z0. apply off0. left. auto. }
    rewrite flat_at in O. unfold side_time. cbv zeta.
    destruct (base_first (y_base y) (flat c) (flat vc) m (y_label y) (proj2 HM)) as [[A F]|(P & L & X & _ & F)].
    + right. apply HERE. exact (F t Pt Lt O).
    + rewrite (proj2 (Rltb_false _ 0)) by lra. rewrite (proj2 (Rltb_iff 0 _) P). cbn [andb].
      set (r := h_alpha _) in *.
      destruct (Rle_dec r t) as [RT|RT]; [|right; apply HERE; apply (F t Pt); [lra|exact O]].
      cmp 1 (Rabs (qz c + r * qz vc)) Rltb; [|left; lra]. right.
      assert (NZ : ~ (-1 <= qz (at_ r) <= 1)).
      { unfold at_, at3; cbn [qz]. revert E. unfold Rabs. destruct (Rcase_abs (qz c + r * qz vc)); lra. }
      destruct (Req_dec r t) as [RE|RE]; [rewrite RE in NZ; contradiction|].
      apply (FROM r); auto; [lra|lra|apply outline_shape; exact X].
  - right; left. rewrite (end_hit t (1 - qz c) 1); auto. lra.
  - right; right. rewrite (end_hit t (- (1 + qz c)) (-1)); auto. lra.
Qed.
Lemma cyl_cases :
  (h_alpha (cylinder_distance y q v m) = -1 /\ forall t, 0 < t -> t <= m -> ~ surface y (at3 q v t)) \/
  (0 < h_alpha (cylinder_distance y q v m) <= m /\ surface y (at3 q v (h_alpha (cylinder_distance y q v m))) /\
   forall t, 0 < t -> t < h_alpha (cylinder_distance y q v m) -> ~ surface y (at3 q v t)).
Proof.
  assert (SF : forall t, surface y (at3 q v t) <-> surf b (at_ t)).
  { intros t. rewrite surface_frame by auto. rewrite frame_at by auto. reflexivity. }
  rewrite cylinder_alpha. cbv zeta. fold c vc b.
  pose proof side_some as A. pose proof (end_some (1 - qz c) 1 (or_introl (conj eq_refl eq_refl))) as B.
  pose proof (end_some (- (1 + qz c)) (-1) (or_intror (conj eq_refl eq_refl))) as C.
  pose proof cand_le as D.
  set (sa := side_time y c vc m) in *. set (tt := end_time b c vc m (1 - qz c)) in *.
  set (tb := end_time b c vc m (- (1 + qz c))) in *. clearbody sa tt tb.
  set (r := Rmin (Rmin sa tt) tb).
  assert (RL : r <= sa /\ r <= tt /\ r <= tb).
  { unfold r. pose proof (Rmin_l (Rmin sa tt) tb). pose proof (Rmin_r (Rmin sa tt) tb).
    pose proof (Rmin_l sa tt). pose proof (Rmin_r sa tt). lra. }
  assert (RC : r = sa \/ r = tt \/ r = tb).
  { unfold r, Rmin. destruct (Rle_dec sa tt);
    match goal with |- context [Rle_dec ?x ?z] => destruct (Rle_dec x z) end; auto. }
  clearbody r.
  assert (SR : r = tgv \/ 0 < r <= m /\ surf b (at_ r)).
  { destruct RC as [-> |[-> | ->]].
    - destruct A as [A|(A1 & A2 & A3)]; [auto|right]. split; auto. left. auto.
    - destruct B as [B|(B1 & B2 & B3)]; [auto|right]. split; auto. right. auto.
    - destruct C as [C|(C1 & C2 & C3)]; [auto|right]. split; auto. right. auto. }
  cmp r tgv Reqb.
  - left. split; auto. intros t Pt Lt S. apply SF in S. destruct (D t Pt Lt S) as [X|[X|X]]; lra.
  - destruct SR as [SR|[SR1 SR2]]; [contradiction|]. right. split; auto. split; [now apply SF|].
    intros t Pt Lt S. apply SF in S. destruct (D t Pt ltac:(lra) S) as [X|[X|X]]; lra.
Qed.
End Cyl.

Theorem C53_distance_partial y q v m :
  indep3 (y_v1 y) (y_v2 y) (y_w y) -> 0 < m < tgv -> ~ surface y q ->
  apart (qz (frame y q)) (qz (to_frame y v)) m ->
  (h_alpha (cylinder_distance y q v m) = -1 /\ forall t, 0 < t -> t <= m -> ~ surface y (at3 q v t)) \/
  (0 < h_alpha (cylinder_distance y q v m) <= m /\ surface y (at3 q v (h_alpha (cylinder_distance y q v m))) /\
   forall t, 0 < t -> t < h_alpha (cylinder_distance y q v m) -> ~ surface y (at3 q v t)).
Proof. apply cyl_cases. Qed.

(* A link from an outer point to a point of the cylinder is always found. *)
Theorem C53_enter y q v m :
  indep3 (y_v1 y) (y_v2 y) (y_w y) -> 0 < m < tgv ->
  apart (qz (frame y q)) (qz (to_frame y v)) m ->
  cylinder_inside y q = false -> cylinder_inside y (at3 q v m) = true ->
  0 < h_alpha (cylinder_distance y q v m) <= m.
Proof.
  intros H Hm AP Q I.
  assert (INF : forall x, cylinder_inside y x = true <-> Shape (y_base y) (flat (frame y x)) /\ -1 <= qz (frame y x) <= 1).
  { intros x. unfold cylinder_inside. fold (frame y x). rewrite andb_true_iff, base_inside_iff, Rleb_iff.
    assert (A : Rabs (qz (frame y x)) <= 1 <-> -1 <= qz (frame y x) <= 1).
    { unfold Rabs. destruct (Rcase_abs (qz (frame y x))); split; intros; lra. }
    rewrite A. reflexivity. }
  apply INF in I. rewrite frame_at in I by auto. apply not_true_iff_false in Q. rewrite INF in Q.
  assert (OFF : ~ surface y q).
  { rewrite surface_frame by auto. intros [[O Z]|[S Z]]; apply Q; split; auto; [now apply outline_shape|lra]. }
  assert (HIT : exists t, 0 < t /\ t <= m /\ surface y (at3 q v t)).
  { set (c := frame y q) in *. set (vc := to_frame y v) in *. destruct I as [I1 I2].
    change (flat (at3 c vc m)) with (at2 (flat c) (flat vc) m) in I1.
    assert (SF : forall t, surface y (at3 q v t) <-> surf (y_base y) (at3 c vc t)).
    { intros t. rewrite surface_frame by auto. rewrite frame_at by auto. reflexivity. }
    assert (ZC : -1 <= qz c <= 1 \/ exists t, 0 < t /\ t <= m /\ (qz (at3 c vc t) = 1 \/ qz (at3 c vc t) = -1)).
    { destruct (Rlt_dec 1 (qz c)) as [G|G]; [|destruct (Rlt_dec (qz c) (-1)) as [L|L]; [|left; lra]].
      - right. destruct (hit_value (qz c) (qz vc) m 1) as (t & T1 & T2 & T3); [lra|right; cbn [at3 qz] in I2; lra|]. exists t. auto.
      - right. destruct (hit_value (qz c) (qz vc) m (-1)) as (t & T1 & T2 & T3); [lra|left; cbn [at3 qz] in I2; lra|]. exists t. auto. }
    assert (KEEPZ : forall t s, 0 <= t -> t <= s -> s <= m -> -1 <= qz (at3 c vc t) <= 1 -> -1 <= qz (at3 c vc s) <= 1).
    { intros t s T1 T2 T3 Z. cbn [at3 qz] in *. split.
      - pose proof (between t m (1 + qz c) (qz vc) s). lra.
      - pose proof (between t m (1 - qz c) (- qz vc) s). lra. }
    destruct (base_enter (y_base y) (flat c) (flat vc) m (proj1 Hm) I1) as [S0|(t1 & A1 & A2 & A3)].
    - destruct ZC as [Z0|(t2 & B1 & B2 & B3)]; [exfalso; apply Q; auto|].
      exists t2. repeat split; auto. apply SF. right. split; [|exact B3].
      change (Shape (y_base y) (at2 (flat c) (flat vc) t2)). apply (shape_convex _ _ _ 0 m); [lra|lra| |exact I1].
      unfold at2. rewrite !Rmult_0_l, !Rplus_0_r. exact S0.
    - destruct ZC as [Z0|(t2 & B1 & B2 & B3)].
      + exists t1. repeat split; auto. apply SF. left. split; [exact A3|].
        apply (KEEPZ 0); try lra. cbn [at3 qz]. lra.
      + destruct (Rle_dec t1 t2) as [T|T].
        * exists t2. repeat split; auto. apply SF. right. split; [|exact B3].
          change (Shape (y_base y) (at2 (flat c) (flat vc) t2)). apply (shape_convex _ _ _ t1 m); auto.
          now apply outline_shape.
        * exists t1. repeat split; auto. apply SF. left. split; [exact A3|].
          apply (KEEPZ t2); try lra. }
  destruct HIT as (t & T1 & T2 & T3).
  destruct (C53_distance_partial y q v m H Hm OFF AP) as [[_ F]|[P _]]; auto.
  exfalso. exact (F t T1 T2 T3).
Qed.

(* The label of a hit: that of the bottom, of the top, or the one given by the base. *)
Lemma cylinder_border y q v m :
  h_border (cylinder_distance y q v m) =
  let c := frame y q in let vc := to_frame y v in
  let s := side_time y c vc m in let t := end_time (y_base y) c vc m (1 - qz c) in
  let b := end_time (y_base y) c vc m (- (1 + qz c)) in
  let r := Rmin (Rmin s t) b in
  let side := base_distance (y_base y) (flat c) (flat vc) (Some m) (y_label y) in
  let a0 := if Rltb (h_alpha side) 0 then tgv else h_alpha side in
  if Reqb r b then y_bottom y else if Reqb r t then y_top y
  else if Rltb 0 a0 && Rltb 1 (Rabs (qz c + a0 * qz vc)) then (-1)%Z else h_border side.
Proof.
  unfold cylinder_distance, side_time, end_time. cbv zeta.
  fold (frame y q). fold (flat (frame y q)). fold (flat (to_frame y v)).
  repeat match goal with |- context [let '(_, _) := (if ?x then _ else _) in _] => destruct x end; reflexivity.
Qed.
Theorem C53_label y q v m :
  indep3 (y_v1 y) (y_v2 y) (y_w y) -> 0 < m < tgv -> ~ surface y q ->
  apart (qz (frame y q)) (qz (to_frame y v)) m -> 0 < h_alpha (cylinder_distance y q v m) ->
  let p := frame y (at3 q v (h_alpha (cylinder_distance y q v m))) in
  let l := h_border (cylinder_distance y q v m) in
  let side := base_distance (y_base y) (flat (frame y q)) (flat (to_frame y v)) (Some m) (y_label y) in
  l = y_bottom y /\ qz p = -1 /\ Shape (y_base y) (flat p) \/
  l = y_top y /\ qz p = 1 /\ Shape (y_base y) (flat p) \/
  l = h_border side /\ h_alpha (cylinder_distance y q v m) = h_alpha side /\ Outline (y_base y) (flat p).
Proof.
  intros H Hm OFF AP. cbv zeta. rewrite frame_at by auto. rewrite cylinder_border. rewrite cylinder_alpha. cbv zeta.
  set (c := frame y q) in *. set (vc := to_frame y v) in *.
  pose proof (side_some y q v m Hm) as A. fold c vc in A.
  pose proof (end_some y q v m H OFF AP (1 - qz c) 1 (or_introl (conj eq_refl eq_refl))) as B.
  pose proof (end_some y q v m H OFF AP (- (1 + qz c)) (-1) (or_intror (conj eq_refl eq_refl))) as C.
  fold c vc in B, C.
  assert (SI : side_time y c vc m = tgv \/
     ((if Rltb (h_alpha (base_distance (y_base y) (flat c) (flat vc) (Some m) (y_label y))) 0 then tgv
      else h_alpha (base_distance (y_base y) (flat c) (flat vc) (Some m) (y_label y))) =
      side_time y c vc m /\
      side_time y c vc m = h_alpha (base_distance (y_base y) (flat c) (flat vc) (Some m) (y_label y))
      /\ Rltb 0 (side_time y c vc m) && Rltb 1 (Rabs (qz c + side_time y c vc m * qz vc)) = false)).
  { unfold side_time in *. cbv zeta in *. set (h := h_alpha _) in *.
    cmp h 0 Rltb; [left; now destruct (_ && _)|].
    destruct (Rltb 0 h && Rltb 1 (Rabs (qz c + h * qz vc))) eqn:E1; auto. }
  set (s := side_time y c vc m) in *. set (t := end_time (y_base y) c vc m (1 - qz c)) in *.
  set (b := end_time (y_base y) c vc m (- (1 + qz c))) in *. clearbody s t b.
  assert (RC : Rmin (Rmin s t) b = s \/ Rmin (Rmin s t) b = t \/ Rmin (Rmin s t) b = b).
  { unfold Rmin. destruct (Rle_dec s t);
    match goal with |- context [Rle_dec ?x ?z] => destruct (Rle_dec x z) end; auto. }
  set (r := Rmin (Rmin s t) b) in *. clearbody r. cmp r tgv Reqb; [lra|]. intros P.
  cmp r b Reqb.
  - left. subst r. destruct C as [C|(C1 & C2 & C3)]; [contradiction|]. auto.
  - cmp r t Reqb.
    + right; left. subst r. destruct B as [B|(B1 & B2 & B3)]; [contradiction|]. auto.
    + right; right. assert (r = s) by tauto. subst r. destruct A as [A|(A1 & A2 & A3)]; [contradiction|].
      destruct SI as [SI|(S1 & S2 & S3)]; [contradiction|]. rewrite S1, S3. auto.
Qed.

(* A velocity parallel to the ends, very close to the plane of an end: a spurious hit. *)
Theorem C53_flat_refuted : exists y q v,
  indep3 (y_v1 y) (y_v2 y) (y_w y) /\ ~ surface y q /\
  0 < h_alpha (cylinder_distance y q v 1) <= 1 /\ ~ surface y (at3 q v (h_alpha (cylinder_distance y q v 1))).
Proof.
  set (y := mkCyl (P3 0 0 0) (P3 1 0 0) (P3 0 1 0) (P3 0 0 1) BCircle (fun _ => 0%Z) 1 2).
  assert (I : indep3 (y_v1 y) (y_v2 y) (y_w y)) by (unfold indep3; cbn [y y_v1 y_v2 y_w]; unf3; lra).
  set (e := / 10 ^ 16). assert (PE : 0 < e) by (unfold e; apply Rinv_0_lt_compat, pow_lt; lra).
  assert (LE : e < 1) by (unfold e; rewrite <- Rinv_1; apply Rinv_lt_contravar; [|change (1 < tgv); apply tgv_pos];
    rewrite Rmult_1_l; apply pow_lt; lra).
  set (q := P3 0 0 (1 - e / 4)). set (v := P3 (1/2) 0 0).
  assert (FR : forall x, frame y x = x).
  { intros x. assert (E := comb_frame y (qx x) (qy x) (qz x) I).
    assert (X : comb3 (y_center y) (y_v1 y) (y_v2 y) (y_w y) (qx x) (qy x) (qz x) = x) by (apply p3_eq; cbn; ring).
    rewrite X in E. rewrite E. now apply p3_eq. }
  assert (FV : to_frame y v = v).
  { rewrite <- (FR v) at 2. unfold frame. f_equal. apply p3_eq; cbn; ring. }
  assert (SU : forall t, surface y (at3 q v t) -> 2 <= Rabs t).
  { intros t S. apply surface_frame in S; auto. rewrite FR in S. unfold surf, Outline, Shape, flat, at3 in S.
    cbn [y y_base outline shape q v qx qy qz px py] in S. destruct S as [[O _]|[_ S]]; [|lra].
    assert ((t / 2) ^ 2 = 1) by lra. unfold Rabs. destruct (Rcase_abs t); nra. }
  assert (TT : end_time (y_base y) q v 1 (1 - qz q) = 1 / 4).
  { unfold end_time. cbn [q v qx qy qz y y_base]. rewrite (proj2 (Reqb_iff 0 0) eq_refl). fold e.
    replace ((1 - (1 - e / 4)) / (0 + e)) with (1/4) by (field; lra).
    rewrite (proj2 (Rltb_false (1/4) 0)), (proj2 (Rltb_false 1 (1/4))) by lra.
    rewrite (proj2 (base_inside_iff BCircle _)); [reflexivity|]. unfold Shape; cbn. lra. }
  assert (TB : end_time (y_base y) q v 1 (- (1 + qz q)) = tgv).
  { unfold end_time. cbn [q v qx qy qz y y_base]. rewrite (proj2 (Reqb_iff 0 0) eq_refl). fold e.
    set (t := - _ / _). assert (t < 0).
    { unfold t. rewrite Rplus_0_l. unfold Rdiv. assert (0 < / e) by now apply Rinv_0_lt_compat. nra. }
    now rewrite (proj2 (Rltb_iff t 0)). }
  assert (NS : ~ surface y q).
  { intros S. assert (at3 q v 0 = q) by (unfold at3; apply p3_eq; cbn; ring). rewrite <- H in S. apply SU in S.
    rewrite Rabs_R0 in S. lra. }
  assert (SD : side_time y q v 1 = tgv).
  { pose proof (side_some y q v 1 ltac:(split; [lra|apply tgv_pos])) as S. rewrite FR, FV in S. destruct S as [S|(S1 & S2 & S3)]; auto.
    exfalso. set (s := side_time y q v 1) in *. assert (2 <= Rabs s).
    { apply SU. apply surface_frame; auto. rewrite FR. left. auto. }
    rewrite Rabs_right in H by lra. lra. }
  assert (A : h_alpha (cylinder_distance y q v 1) = 1 / 4).
  { rewrite cylinder_alpha. rewrite FR, FV. cbv zeta. rewrite SD, TT, TB. pose proof tgv_pos.
    rewrite (Rmin_right tgv (1/4)) by lra. rewrite Rmin_left by lra.
    now rewrite (proj2 (Reqb_false (1/4) tgv)) by lra. }
  exists y, q, v. split; [auto|]. split; [auto|]. rewrite A. split; [lra|]. intros S. apply SU in S.
  rewrite Rabs_right in S by lra. lra.
Qed.
(* The faces of the side, in the coordinates of the base: which label belongs to which
   face. *)
Definition face (b : base) (i : nat) (p : p2) : Prop :=
  match b, i with
  | BCircle, 0%nat | BEllipse, 0%nat => px p ^ 2 + py p ^ 2 = 1
  | BTriangle, 0%nat => py p = 0 /\ 0 <= px p <= 1
  | BTriangle, 1%nat => px p = 0 /\ 0 <= py p <= 1
  | BTriangle, 2%nat => px p + py p = 1 /\ 0 <= px p <= 1
  | BParallelogram, 0%nat => py p = 0 /\ 0 <= px p <= 1
  | BParallelogram, 1%nat => px p = 0 /\ 0 <= py p <= 1
  | BParallelogram, 2%nat => px p = 1 /\ 0 <= py p <= 1
  | BParallelogram, 3%nat => py p = 1 /\ 0 <= px p <= 1
  | _, _ => False
  end.
Lemma base_face b q v m lab : m < tgv ->
  let h := base_distance b q v (Some m) lab in
  0 < h_alpha h -> exists i, h_border h = lab i /\ face b i (at2 q v (h_alpha h)).
Proof.
  intros Hm h P.
  assert (EDGE : forall es, h = distance_lines q v es (Some m) ->
    (forall e, In e es -> exists i, e_label e = lab i /\ forall x, seg e x -> face b i x) ->
    exists i, h_border h = lab i /\ face b i (at2 q v (h_alpha h))).
  { intros es E F. destruct (lines_spec q v es (Some m) Hm) as [(A & _)|(_ & _ & (e & X1 & X2 & X3 & X4 & X5) & _)].
    - exfalso. rewrite <- E in A. lra.
    - rewrite <- E in X3, X4, X5. destruct (F e X1) as (i & L & G). exists i. split; [congruence|auto]. }
  destruct b; cbn [base_distance] in h.
  - destruct (base_first BCircle q v m lab Hm) as [(A & _)|(_ & _ & O & _)]; cbn [base_distance] in *;
      [fold h in A; lra|fold h in O].
    exists 0%nat. split; [|exact O]. unfold h. rewrite distance_ellipse_border. fold h. now rewrite (proj2 (Rltb_iff 0 _) P).
  - destruct (base_first BEllipse q v m lab Hm) as [(A & _)|(_ & _ & O & _)]; cbn [base_distance] in *;
      [fold h in A; lra|fold h in O].
    exists 0%nat. split; [|exact O]. unfold h. rewrite distance_ellipse_border. fold h. now rewrite (proj2 (Rltb_iff 0 _) P).
  - apply (EDGE _ eq_refl). intros e [<-|[<-|[<-|[]]]]; [exists 0%nat|exists 1%nat|exists 2%nat]; (split; [reflexivity|]);
      intros x (s & S & ->); cbn; lra.
  - apply (EDGE _ eq_refl). intros e [<-|[<-|[<-|[<-|[]]]]]; [exists 0%nat|exists 1%nat|exists 2%nat|exists 3%nat]; (split; [reflexivity|]);
      intros x (s & S & ->); cbn; lra.
Qed.
Theorem C53_face y q v m :
  indep3 (y_v1 y) (y_v2 y) (y_w y) -> 0 < m < tgv -> ~ surface y q ->
  apart (qz (frame y q)) (qz (to_frame y v)) m -> 0 < h_alpha (cylinder_distance y q v m) ->
  let p := frame y (at3 q v (h_alpha (cylinder_distance y q v m))) in
  let l := h_border (cylinder_distance y q v m) in
  l = y_bottom y /\ qz p = -1 /\ Shape (y_base y) (flat p) \/
  l = y_top y /\ qz p = 1 /\ Shape (y_base y) (flat p) \/
  exists i, l = y_label y i /\ face (y_base y) i (flat p).
Proof.
  intros H Hm OFF AP P. cbv zeta. destruct (C53_label y q v m H Hm OFF AP P) as [X|[X|(X1 & X2 & X3)]]; auto.
  right; right. rewrite X1.
  destruct (base_face (y_base y) (flat (frame y q)) (flat (to_frame y v)) m (y_label y) (proj2 Hm)) as (i & I1 & I2); [lra|].
  exists i. split; [exact I1|]. rewrite <- X2 in I2. rewrite frame_at by auto. exact I2.
Qed.
(* The drawing of an element (geometry.py 310-314) gives the colour of the label i to the
   i-th face of BaseTriangle._visualize (base.py 467-473) and
   BaseParallelogram._visualize (591-597): the segment from the i-th corner to the next. *)
Definition drawn (b : base) (i : nat) (p : p2) : Prop :=
  let corner k := match b with
                  | BTriangle => nth k [P2 0 0; P2 1 0; P2 0 1; P2 0 0; P2 1 0] (P2 0 0)
                  | _ => nth k [P2 0 0; P2 1 0; P2 1 1; P2 0 1; P2 0 0; P2 1 0] (P2 0 0)
                  end in
  exists s, 0 <= s <= 1 /\ p = at2 (corner i) (sub2 (corner (S i)) (corner i)) s.
Theorem C53_colours_refuted b : b = BTriangle \/ b = BParallelogram ->
  exists p, drawn b 1 p /\ (exists i, face b i p) /\ forall i, face b i p -> i <> 1%nat.
Proof.
  intros [-> | ->].
  - exists (P2 (1/2) (1/2)). split; [|split].
    + exists (1/2). split; [lra|]. apply p2_eq; cbn; lra.
    + exists 2%nat. cbn; lra.
    + intros i F ->. cbn in F. lra.
  - exists (P2 1 (1/2)). split; [|split].
    + exists (1/2). split; [lra|]. apply p2_eq; cbn; lra.
    + exists 2%nat. cbn; lra.
    + intros i F ->. cbn in F. lra.
Qed.
(* Without a hit the label is not the default -1 but the label of the bottom. *)
Theorem C53_label_refuted : exists y q v,
  indep3 (y_v1 y) (y_v2 y) (y_w y) /\ h_alpha (cylinder_distance y q v 1) = -1 /\
  h_border (cylinder_distance y q v 1) = y_bottom y /\ y_bottom y <> (-1)%Z.
Proof.
  set (y := mkCyl (P3 0 0 0) (P3 1 0 0) (P3 0 1 0) (P3 0 0 1) BCircle (fun _ => 0%Z) 1 2).
  assert (I : indep3 (y_v1 y) (y_v2 y) (y_w y)) by (unfold indep3; cbn [y y_v1 y_v2 y_w]; unf3; lra).
  set (q := P3 0 0 5). set (v := P3 0 0 1).
  assert (FR : forall x, frame y x = x).
  { intros x. assert (E := comb_frame y (qx x) (qy x) (qz x) I).
    assert (X : comb3 (y_center y) (y_v1 y) (y_v2 y) (y_w y) (qx x) (qy x) (qz x) = x) by (apply p3_eq; cbn; ring).
    rewrite X in E. rewrite E. now apply p3_eq. }
  assert (FV : to_frame y v = v).
  { rewrite <- (FR v) at 2. unfold frame. f_equal. apply p3_eq; cbn; ring. }
  pose proof tgv_pos as TG.
  assert (EN : forall k, k < 0 -> end_time BCircle q v 1 k = tgv).
  { intros k K. unfold end_time. cbn [v qz]. rewrite (proj2 (Reqb_false 1 0)) by lra.
    rewrite Rplus_0_r. rewrite (proj2 (Rltb_iff (k / 1) 0)); [reflexivity|]. unfold Rdiv. rewrite Rinv_1. lra. }
  assert (SD : side_time y q v 1 = tgv).
  { pose proof (side_some y q v 1 ltac:(split; [lra|auto])) as S. rewrite FR, FV in S. destruct S as [S|(S1 & S2 & S3)]; auto.
    exfalso. unfold Outline, flat, at3 in S2. cbn [y y_base outline q v qx qy qz px py] in S2. lra. }
  exists y, q, v. split; [auto|]. split; [|split; [|discriminate]].
  - rewrite cylinder_alpha. rewrite FR, FV. cbv zeta. rewrite SD. cbn [y y_base].
    rewrite (EN (1 - qz q)), (EN (- (1 + qz q))) by (cbn [q qz]; lra). rewrite !(Rmin_left tgv tgv) by apply Rle_refl.
    now rewrite (proj2 (Reqb_iff tgv tgv) eq_refl).
  - rewrite cylinder_border. rewrite FR, FV. cbv zeta. rewrite SD. cbn [y y_base].
    rewrite (EN (1 - qz q)), (EN (- (1 + qz q))) by (cbn [q qz]; lra). rewrite !(Rmin_left tgv tgv) by apply Rle_refl.
    rewrite !(proj2 (Reqb_iff tgv tgv) eq_refl). reflexivity.
Qed.
