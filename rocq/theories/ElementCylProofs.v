(* Cylinders: description in the coordinates of their frame and lemmas. *)
From Coq Require Import Reals ZArith List Lra Psatz Bool.
From Verif Require Import ElementModel ElementProofs ElementLinesProofs ElementFrameProofs ElementProps.
Import ListNotations.
Open Scope R_scope.

(* The section of the cylinder and its outline, in the frame of the section. *)
Definition shape (b : base) (x y : R) : Prop :=
  match b with
  | BCircle | BEllipse => x ^ 2 + y ^ 2 <= 1
  | BTriangle => 0 <= x /\ 0 <= y /\ x + y <= 1
  | BParallelogram => 0 <= x <= 1 /\ 0 <= y <= 1
  end.
Definition outline (b : base) (x y : R) : Prop :=
  match b with
  | BCircle | BEllipse => x ^ 2 + y ^ 2 = 1
  | BTriangle => shape BTriangle x y /\ (x = 0 \/ y = 0 \/ x + y = 1)
  | BParallelogram => shape BParallelogram x y /\ (x = 0 \/ x = 1 \/ y = 0 \/ y = 1)
  end.
Definition Shape b (q : p2) := shape b (px q) (py q).
Definition Outline b (q : p2) := outline b (px q) (py q).

Lemma base_inside_iff b q : base_inside b q = true <-> Shape b q.
Proof.
  unfold Shape. destruct b; cbn [base_inside shape]; rewrite ?andb_true_iff, ?Rleb_iff; tauto.
Qed.
Lemma outline_shape b q : Outline b q -> Shape b q.
Proof. unfold Outline, Shape. destruct b; cbn; try lra; tauto. Qed.

Lemma e_indep : indep2 (P2 1 0) (P2 0 1).
Proof. unfold indep2. cbn. lra. Qed.
Lemma e_co q : co1 O2 (P2 1 0) (P2 0 1) q = px q /\ co2 O2 (P2 1 0) (P2 0 1) q = py q.
Proof. unfold co1, co2, O2; cbn. split; field. Qed.

(* convexity *)
Lemma shape_convex b q v s t u : s <= u -> u <= t ->
  Shape b (at2 q v s) -> Shape b (at2 q v t) -> Shape b (at2 q v u).
Proof.
  intros L1 L2. unfold Shape, at2; cbn [px py].
  destruct (Req_dec s t) as [E|NE]; [intros; replace u with s by lra; auto|].
  assert (ROUND : forall x y vx vy : R, (x + s * vx) ^ 2 + (y + s * vy) ^ 2 <= 1 ->
     (x + t * vx) ^ 2 + (y + t * vy) ^ 2 <= 1 -> (x + u * vx) ^ 2 + (y + u * vy) ^ 2 <= 1).
  { intros x y vx vy A B. set (f := fun r => (x + r * vx) ^ 2 + (y + r * vy) ^ 2).
    change (f u <= 1). change (f s <= 1) in A. change (f t <= 1) in B.
    assert (E : (t - s) * f u = (t - u) * f s + (u - s) * f t - (vx ^ 2 + vy ^ 2) * (u - s) * (t - u) * (t - s))
      by (unfold f; ring).
    assert (0 <= (vx ^ 2 + vy ^ 2) * (u - s) * (t - u) * (t - s)).
    { repeat apply Rmult_le_pos; try lra. pose proof (pow2_ge_0 vx). pose proof (pow2_ge_0 vy). lra. }
    assert ((t - u) * f s <= (t - u) * 1) by (apply Rmult_le_compat_l; lra).
    assert ((u - s) * f t <= (u - s) * 1) by (apply Rmult_le_compat_l; lra).
    assert ((t - s) * f u <= (t - s) * 1) by lra.
    apply Rmult_le_reg_l in H2; lra. }
  assert (LIN : forall c d, 0 <= c + s * d -> 0 <= c + t * d -> 0 <= c + u * d)
    by (intros; apply (between s t); auto).
  destruct b; cbn [shape]; auto.
  - intros (A1 & A2 & A3) (B1 & B2 & B3). repeat split; auto.
    pose proof (LIN (1 - px q - py q) (- px v - py v)). lra.
  - intros ([A1 A1'] & A2 & A2') ([B1 B1'] & B2 & B2'). repeat split; auto.
    + pose proof (LIN (1 - px q) (- px v)). lra.
    + pose proof (LIN (1 - py q) (- py v)). lra.
Qed.

Lemma first_root_root a b c dmax : 0 < a ->
  let r := first_root a b c dmax in r = -1 \/ 0 < r /\ below dmax r = true /\ a * r ^ 2 + b * r + c = 0.
Proof.
  intros Ha. pose proof tgv_pos as TG. cbv zeta. unfold first_root.
  assert (NEG : Rltb 0 (-1) = false) by (apply Rltb_false; lra).
  destruct (root_cases a b c Ha) as [[N D]|[D F]].
  - rewrite (proj2 (Rleb_false 0 _)) by lra. rewrite (proj2 (Reqb_false (-1) tgv)) by lra. rewrite NEG. auto.
  - rewrite (proj2 (Rleb_iff 0 _)) by lra. rewrite (proj2 (Reqb_false a 0)) by lra.
    cbv zeta in F. revert F.
    set (x1 := (- b - sqrt (b ^ 2 - 4 * a * c)) / (2 * a)).
    set (x2 := (- b + sqrt (b ^ 2 - 4 * a * c)) / (2 * a)). clearbody x1 x2. intros [L F].
    set (d := Rmin _ _).
    assert (X : d = tgv \/ d = x1 \/ d = x2).
    { unfold d. unfold Rmin. destruct (Rltb x1 0), (Rltb x2 0);
      match goal with |- context [Rle_dec ?p ?q] => destruct (Rle_dec p q) end; auto. }
    clearbody d. cmp d tgv Reqb; [rewrite NEG; auto|].
    destruct (Rltb 0 d) eqn:P; [|auto]. apply Rltb_iff in P. destruct (below dmax d) eqn:B; [|auto].
    right. cbn [andb]. repeat split; auto. destruct X as [X|[X|X]]; [contradiction| |]; subst d; rewrite F; ring.
Qed.

Lemma first_root_zero b c dmax : first_root 0 b c dmax = -1.
Proof.
  unfold first_root. pose proof tgv_pos.
  assert (NEG : Rltb 0 (-1) = false) by (apply Rltb_false; lra).
  destruct (Rleb 0 _).
  - rewrite (proj2 (Reqb_iff 0 0) eq_refl). rewrite (proj2 (Rltb_false tgv 0)) by lra. rewrite Rmin_left by lra.
    rewrite (proj2 (Reqb_iff tgv tgv) eq_refl). now rewrite NEG.
  - rewrite (proj2 (Reqb_false (-1) tgv)) by lra. now rewrite NEG.
Qed.
Lemma base_first b q v m lab : m < tgv ->
  let h := base_distance b q v (Some m) lab in
  (h_alpha h = -1 /\ forall t, 0 < t -> t <= m -> Outline b (at2 q v t) -> Outline b q) \/
  (0 < h_alpha h /\ h_alpha h <= m /\ Outline b (at2 q v (h_alpha h)) /\ (exists i, h_border h = lab i) /\
   forall t, 0 < t -> t < h_alpha h -> Outline b (at2 q v t) -> Outline b q).
Proof.
  intros Hm. cbv zeta.
  assert (ROUND : forall l,
    let h := distance_ellipse q v (P2 0 0) (P2 1 0) (P2 0 1) (Some m) l in
    let B := fun x : p2 => px x ^ 2 + py x ^ 2 = 1 in
    (h_alpha h = -1 /\ forall t, 0 < t -> t <= m -> B (at2 q v t) -> B q) \/
    (0 < h_alpha h /\ h_alpha h <= m /\ B (at2 q v (h_alpha h)) /\ h_border h = l /\
     forall t, 0 < t -> t < h_alpha h -> B (at2 q v t) -> B q)).
  { intros l h B.
    assert (BR : forall x, B x <-> rim2 (P2 0 0) (P2 1 0) (P2 0 1) x).
    { intros x. rewrite rim2_co by apply e_indep. destruct (e_co x) as [E1 E2]. fold O2. rewrite E1, E2. reflexivity. }
    destruct (Req_dec (px q ^ 2 + py q ^ 2) 1) as [Q|Q].
    - assert (NZ : nonzero2 v \/ v = P2 0 0).
      { unfold nonzero2. destruct (Req_dec (px v) 0), (Req_dec (py v) 0); auto. right. now apply p2_eq. }
      assert (X : h_alpha h = -1 \/ 0 < h_alpha h /\ h_alpha h <= m /\ B (at2 q v (h_alpha h))).
      { unfold h. rewrite distance_ellipse_alpha. destruct NZ as [NZ| ->].
        - destruct (first_root_root (quad_a v (P2 1 0) (P2 0 1)) (quad_b q v (P2 0 0) (P2 1 0) (P2 0 1))
            (form2 (P2 0 0) (P2 1 0) (P2 0 1) q - (px (P2 1 0) * py (P2 0 1) - py (P2 1 0) * px (P2 0 1)) ^ 2) (Some m)
            (quad_a_pos _ _ _ e_indep NZ)) as [E|(P & C & E)]; [auto|right]. repeat split; auto.
          + cbn [below] in C. now apply Rleb_iff in C.
          + apply BR. apply form2_rim; [apply e_indep|]. rewrite form2_at. lra.
        - left. replace (quad_a (P2 0 0) (P2 1 0) (P2 0 1)) with 0 by (unfold quad_a; cbn; ring). apply first_root_zero. }
      destruct X as [X|(X1 & X2 & X3)]; [left; split; auto|right]. repeat split; auto.
      unfold h. rewrite distance_ellipse_border. fold h. now rewrite (proj2 (Rltb_iff 0 _) X1).
    - assert (NZ : nonzero2 v \/ v = P2 0 0).
      { unfold nonzero2. destruct (Req_dec (px v) 0), (Req_dec (py v) 0); auto. right. now apply p2_eq. }
      destruct NZ as [NZ| ->].
      + destruct (ellipse_first q v (P2 0 0) (P2 1 0) (P2 0 1) (Some m) l e_indep NZ) as [(A & C & F)|(A & C & D & E & F)];
          [rewrite <- BR; auto|auto| |].
        * left. split; auto. intros t Pt Lt T. exfalso. apply (F t Pt Lt). now apply BR.
        * right. repeat split; auto; [cbn [below] in C; now apply Rleb_iff in C|now apply BR|].
          intros t Pt Lt T. exfalso. apply (F t Pt Lt). now apply BR.
      + left. split.
        * unfold h. rewrite distance_ellipse_alpha. replace (quad_a (P2 0 0) (P2 1 0) (P2 0 1)) with 0 by (unfold quad_a; cbn; ring). apply first_root_zero.
        * unfold B, at2; cbn [px py]. intros t _ _. rewrite !Rmult_0_r, !Rplus_0_r. auto. }
  destruct b; cbn [base_distance].
  - destruct (ROUND (lab 0%nat)) as [X|(A & C & D & E & F)]; [left; exact X|right]. repeat split; eauto.
  - destruct (ROUND (lab 0%nat)) as [X|(A & C & D & E & F)]; [left; exact X|right]. repeat split; eauto.
  - set (es := [ _; _; _ ]).
    assert (TE : tr_edges (P2 1 0) (P2 0 1) es).
    { intros k. cbn [es map pv e_p e_v In]. unfold O2. replace (sub2 (P2 0 1) (P2 1 0)) with (P2 (-1) 1)
        by (apply p2_eq; cbn; ring). intuition auto. }
    assert (BD : forall x, tr_Bd (P2 1 0) (P2 0 1) x <-> Outline BTriangle x).
    { intros x. unfold tr_Bd. destruct (e_co x) as [-> ->]. unfold tr_bd, tr_in, Outline; cbn. tauto. }
    destruct (poly_spec (tr_Bd (P2 1 0) (P2 0 1)) q v es (Some m) Hm
             (tr_edges_bd _ _ e_indep _ TE) (tr_H3 _ _ e_indep _ _ _ TE))
    as [(A & B & I)|(P & L & X & (e & E1 & _ & _ & E4 & _) & I)].
    + left. split; auto. intros t Pt Lt. rewrite <- !BD. now apply I.
    + right. split; [exact P|split; [exact L|split; [now apply BD|split; [|intros t Pt Lt; rewrite <- !BD; now apply I]]]].
      rewrite E4. destruct E1 as [<-|[<-|[<-|[]]]]; cbn; eauto.
  - set (es := [ _; _; _; _ ]).
    assert (TE : sq_edges (P2 1 0) (P2 0 1) es).
    { intros k. cbn [es map pv e_p e_v In]. unfold O2. intuition auto. }
    assert (BD : forall x, sq_Bd (P2 1 0) (P2 0 1) x <-> Outline BParallelogram x).
    { intros x. unfold sq_Bd. destruct (e_co x) as [-> ->]. unfold sq_bd, sq_in, Outline; cbn. tauto. }
    destruct (poly_spec (sq_Bd (P2 1 0) (P2 0 1)) q v es (Some m) Hm
             (sq_edges_bd _ _ e_indep _ TE) (sq_H3 _ _ e_indep _ _ _ TE))
    as [(A & B & I)|(P & L & X & (e & E1 & _ & _ & E4 & _) & I)].
    + left. split; auto. intros t Pt Lt. rewrite <- !BD. now apply I.
    + right. split; [exact P|split; [exact L|split; [now apply BD|split; [|intros t Pt Lt; rewrite <- !BD; now apply I]]]].
      rewrite E4. destruct E1 as [<-|[<-|[<-|[<-|[]]]]]; cbn; eauto.
Qed.

Lemma base_enter b q v t : 0 < t -> Shape b (at2 q v t) ->
  Shape b q \/ exists t', 0 < t' /\ t' <= t /\ Outline b (at2 q v t').
Proof.
  intros Pt S.
  assert (ROUND : px (at2 q v t) ^ 2 + py (at2 q v t) ^ 2 <= 1 ->
     px q ^ 2 + py q ^ 2 <= 1 \/ exists t', 0 < t' /\ t' <= t /\ px (at2 q v t') ^ 2 + py (at2 q v t') ^ 2 = 1).
  { intros L. destruct (Rle_dec (px q ^ 2 + py q ^ 2) 1) as [Q|Q]; [now left|right].
    assert (EXP : forall s, px (at2 q v s) ^ 2 + py (at2 q v s) ^ 2 - 1 =
      (px v ^ 2 + py v ^ 2) * s ^ 2 + 2 * (px q * px v + py q * py v) * s + (px q ^ 2 + py q ^ 2 - 1))
      by (intros; cbn; ring).
    destruct (Req_dec (px v ^ 2 + py v ^ 2) 0) as [Z|Z].
    - exfalso. pose proof (pow2_ge_0 (px v)). pose proof (pow2_ge_0 (py v)).
      assert (Z1 : px v ^ 2 = 0) by lra. assert (Z2 : py v ^ 2 = 0) by lra.
      assert (V1 : px v = 0) by (destruct (Req_dec (px v) 0); auto; apply sq_pos in H1; lra).
      assert (V2 : py v = 0) by (destruct (Req_dec (py v) 0); auto; apply sq_pos in H1; lra).
      unfold at2 in L; cbn [px py] in L. rewrite V1, V2, !Rmult_0_r, !Rplus_0_r in L. lra.
    - destruct (root_enter (px v ^ 2 + py v ^ 2) (2 * (px q * px v + py q * py v)) (px q ^ 2 + py q ^ 2 - 1) t)
        as (x & Px & Lx & X); try lra.
      + pose proof (pow2_ge_0 (px v)). pose proof (pow2_ge_0 (py v)). lra.
      + rewrite <- EXP. lra.
      + exists x. repeat split; auto. rewrite <- EXP in X. lra. }
  destruct b.
  - apply ROUND. exact S.
  - apply ROUND. exact S.
  - apply (tr_enter (px q) (py q) (px v) (py v) t Pt S).
  - apply (sq_enter (px q) (py q) (px v) (py v) t Pt S).
Qed.

(* ---- the frame of the cylinder ---- *)
Definition frame (y : cylinder) (q : p3) : p3 := to_frame y (sub3 q (y_center y)).
Definition flat (c : p3) : p2 := P2 (qx c) (qy c).
Lemma frame_comb y q : indep3 (y_v1 y) (y_v2 y) (y_w y) ->
  q = comb3 (y_center y) (y_v1 y) (y_v2 y) (y_w y) (qx (frame y q)) (qy (frame y q)) (qz (frame y q)).
Proof. intros H. apply (cd_comb (y_center y) _ _ _ q H). Qed.
Lemma comb_frame y a b d : indep3 (y_v1 y) (y_v2 y) (y_w y) ->
  frame y (comb3 (y_center y) (y_v1 y) (y_v2 y) (y_w y) a b d) = P3 a b d.
Proof.
  intros H. destruct (comb_cd (y_center y) _ _ _ a b d H) as (E1 & E2 & E3).
  apply p3_eq; [exact E1|exact E2|exact E3].
Qed.
Lemma frame_at y q v t : indep3 (y_v1 y) (y_v2 y) (y_w y) ->
  frame y (at3 q v t) = at3 (frame y q) (to_frame y v) t.
Proof.
  intros H. unfold indep3 in H. unfold frame, to_frame, at3. cbn [qx qy qz].
  apply p3_eq; cbn [qx qy qz]; unf3; field; auto.
Qed.

(* The surface: the side and the two ends. *)
Definition surface (y : cylinder) (q : p3) : Prop :=
  exists a b d, q = comb3 (y_center y) (y_v1 y) (y_v2 y) (y_w y) a b d /\
    (outline (y_base y) a b /\ -1 <= d <= 1 \/ shape (y_base y) a b /\ (d = 1 \/ d = -1)).
Definition surf (b : base) (c : p3) : Prop :=
  Outline b (flat c) /\ -1 <= qz c <= 1 \/ Shape b (flat c) /\ (qz c = 1 \/ qz c = -1).
Lemma surface_frame y q : indep3 (y_v1 y) (y_v2 y) (y_w y) -> (surface y q <-> surf (y_base y) (frame y q)).
Proof.
  intros H. split.
  - intros (a & b & d & -> & S). rewrite comb_frame by auto. exact S.
  - intros S. exists (qx (frame y q)), (qy (frame y q)), (qz (frame y q)). split; [now apply frame_comb|exact S].
Qed.

(* the two times at which the planes of the ends are met *)
Definition end_time (b : base) (c vc : p3) (m k : R) : R :=
  let decal := if Reqb (qz vc) 0 then / 10 ^ 16 else 0 in
  let t := k / (qz vc + decal) in
  if Rltb t 0 || Rltb m t || negb (base_inside b (P2 (qx c + t * qx vc) (qy c + t * qy vc))) then tgv else t.
Definition side_time (y : cylinder) (c vc : p3) (m : R) : R :=
  let side := base_distance (y_base y) (flat c) (flat vc) (Some m) (y_label y) in
  let a0 := if Rltb (h_alpha side) 0 then tgv else h_alpha side in
  if Rltb 0 a0 && Rltb 1 (Rabs (qz c + a0 * qz vc)) then tgv else a0.
Lemma cylinder_alpha y q v m :
  h_alpha (cylinder_distance y q v m) =
  let c := frame y q in let vc := to_frame y v in
  let r := Rmin (Rmin (side_time y c vc m) (end_time (y_base y) c vc m (1 - qz c)))
                (end_time (y_base y) c vc m (- (1 + qz c))) in
  if Reqb r tgv then -1 else r.
Proof.
  unfold cylinder_distance, side_time, end_time. cbv zeta.
  fold (frame y q). fold (flat (frame y q)). fold (flat (to_frame y v)).
  repeat match goal with |- context [let '(_, _) := (if ?x then _ else _) in _] => destruct x end; reflexivity.
Qed.
