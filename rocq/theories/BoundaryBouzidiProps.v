(* Properties C18 and C20: the interpolated conditions, and uniform states. *)
From Verif Require Import PyBase VelocityModel StencilModel StencilProofs GridModel LinAlg GlobalModel GlobalProofs
  DomainModel DomainProofs DomainProps BoundaryModel BoundaryProofs BoundaryProps BoundaryUpdProps.
From Coq Require Import QArith Qcanon Reals Qreals Lra.
Open Scope R_scope.

Definition RR : ring := mkRing R 0 1 Rplus Rmult Rminus Ropp RTheory.

Lemma s_near (d : Q) : Qltb d (1 # 2) = true -> Q2R (bz_s d) = 2 * Q2R d.
Proof. intros H. unfold bz_s. rewrite H, Q2R_mult. unfold Q2R at 1. cbn. lra. Qed.
Lemma s_far (d : Q) : Qltb d (1 # 2) = false -> Q2R (bz_s d) = / (2 * Q2R d) /\ 1 / 2 <= Q2R d.
Proof.
  intros H. unfold bz_s. rewrite H. apply Qltb_false in H.
  assert (Hd : 1 / 2 <= Q2R d).
  { replace (1 / 2) with (Q2R (1 # 2)) by (unfold Q2R; cbn; lra). now apply Qle_Rle. }
  split; [|exact Hd]. rewrite Q2R_div.
  - unfold Q2R at 1. cbn. field. lra.
  - intros C. rewrite (Qeq_eqR _ _ C) in Hd. replace (Q2R 0) with 0 in Hd by (unfold Q2R; cbn; lra). lra.
Qed.
Lemma near_lt (d : Q) : Qltb d (1 # 2) = true -> Q2R d < 1 / 2.
Proof.
  intros H. apply Qltb_true in H. apply Qlt_Rlt in H. unfold Q2R in H at 2. cbn in H. lra.
Qed.

Section Links.
Variable g : grid.
Variable vel : nat -> list Z.
Variable sym : nat -> nat.
Variable feq : blink -> nat -> RR.
Notation value := (bvalue RR Q2R g vel sym feq).
Notation add := (rhs RR sym feq).
(* the three distributions that can be read: towards the wall at the fluid cell and
   at the next one, from the wall at the fluid cell *)
Definition out0 (F : dfield RR) (b : blink) : R := F (sym (b_k b)) (shift g (b_cell b) (vel (b_k b))).
Definition out1 (F : dfield RR) (b : blink) : R := F (sym (b_k b)) (shift g (b_cell b) (map (fun x => 2 * x)%Z (vel (b_k b)))).
Definition in0 (F : dfield RR) (b : blink) : R := F (b_k b) (shift g (b_cell b) (vel (b_k b))).

Lemma value_near F b : Qltb (b_dist b) (1 # 2) = true ->
  value MBouzidi F b = 2 * Q2R (b_dist b) * out0 F b + (1 - 2 * Q2R (b_dist b)) * out1 F b + add MBouzidi b /\
  value MBouzidiAnti F b = - (2 * Q2R (b_dist b)) * out0 F b + (1 - 2 * Q2R (b_dist b)) * out1 F b + add MBouzidiAnti b.
Proof.
  intros H. unfold bvalue, iload1, near. rewrite H. cbv zeta. change (rcar RR) with R in *. rewrite (s_near _ H).
  unfold at_, iload0. cbn [fst snd]. unfold ahead, ahead2. fold (out0 F b). fold (out1 F b). split; reflexivity.
Qed.
Lemma value_far F b : Qltb (b_dist b) (1 # 2) = false ->
  let s := / (2 * Q2R (b_dist b)) in
  value MBouzidi F b = s * out0 F b + (1 - s) * in0 F b + add MBouzidi b /\
  value MBouzidiAnti F b = - s * out0 F b + (1 - s) * in0 F b + add MBouzidiAnti b.
Proof.
  intros H s. unfold bvalue, iload1, near. rewrite H. cbv zeta. change (rcar RR) with R in *.
  rewrite (proj1 (s_far _ H)). fold s.
  unfold at_, iload0. cbn [fst snd]. unfold ahead. fold (out0 F b). fold (in0 F b). split; reflexivity.
Qed.
Lemma far_s d : 1 / 2 <= d <= 1 -> 1 / 2 <= / (2 * d) <= 1.
Proof.
  intros H. split.
  - replace (1 / 2) with (/ 2) by lra. apply Rinv_le_contravar; lra.
  - rewrite <- Rinv_1. apply Rinv_le_contravar; lra.
Qed.
End Links.

(* --------------------------------------------------------------- C18 ----- *)
(* Two weights, non negative, of sum one. *)
Theorem C18_weights g vel sym feq b : 0 < Q2R (b_dist b) <= 1 ->
  exists w0 w1, 0 < w0 /\ 0 <= w1 /\ w0 + w1 = 1 /\
  ((Q2R (b_dist b) < 1 / 2 /\ forall F,
     bvalue RR Q2R g vel sym feq MBouzidi F b = w0 * out0 g vel sym F b + w1 * out1 g vel sym F b + rhs RR sym feq MBouzidi b) \/
   (1 / 2 <= Q2R (b_dist b) /\ forall F,
     bvalue RR Q2R g vel sym feq MBouzidi F b = w0 * out0 g vel sym F b + w1 * in0 g vel F b + rhs RR sym feq MBouzidi b)).
Proof.
  intros Hd. destruct (Qltb (b_dist b) (1 # 2)) eqn:E.
  - pose proof (near_lt _ E). exists (2 * Q2R (b_dist b)), (1 - 2 * Q2R (b_dist b)). repeat split; try lra.
    left. split; [lra|]. intros F. now apply value_near.
  - destruct (s_far _ E) as [_ H]. pose proof (far_s (Q2R (b_dist b)) ltac:(lra)) as S.
    exists (/ (2 * Q2R (b_dist b))), (1 - / (2 * Q2R (b_dist b))). repeat split; try lra.
    right. split; [lra|]. intros F. now apply value_far.
Qed.
(* Wall half way: bounce back (and anti bounce back). *)
Theorem C18_half_way g vel sym feq b F : Q2R (b_dist b) = 1 / 2 ->
  bvalue RR Q2R g vel sym feq MBouzidi F b = bvalue RR Q2R g vel sym feq MBounceBack F b /\
  bvalue RR Q2R g vel sym feq MBouzidiAnti F b = bvalue RR Q2R g vel sym feq MAnti F b.
Proof.
  intros Hd. destruct (Qltb (b_dist b) (1 # 2)) eqn:E; [apply near_lt in E; lra|].
  destruct (value_far g vel sym feq F b E) as [-> ->].
  rewrite Hd. unfold bvalue at 1 2. cbv zeta. unfold at_, iload0. cbn [fst snd]. unfold ahead.
  fold (out0 g vel sym F b). change (rhs RR sym feq MBouzidi b) with (rhs RR sym feq MBounceBack b).
  change (rhs RR sym feq MBouzidiAnti b) with (rhs RR sym feq MAnti b). cbn [radd rmul rsub ropp rar RR].
  replace (/ (2 * (1 / 2))) with 1 by field. cbn [rar RR]; split; cbn [rcar]; ring.
Qed.
(* Continuity in the wall position, through one half as well. *)
Theorem C18_continuous g vel sym feq F b b' :
  b_k b = b_k b' -> b_cell b = b_cell b' -> (forall k, feq b k = feq b' k) ->
  0 < Q2R (b_dist b) <= 1 -> 0 < Q2R (b_dist b') <= 1 ->
  Rabs (bvalue RR Q2R g vel sym feq MBouzidi F b - bvalue RR Q2R g vel sym feq MBouzidi F b') <=
  2 * Rabs (Q2R (b_dist b) - Q2R (b_dist b')) *
  (Rabs (out0 g vel sym F b) + Rabs (out1 g vel sym F b) + Rabs (in0 g vel F b)).
Proof.
  intros Hk Hc Hq Hd Hd'.
  assert (E0 : out0 g vel sym F b' = out0 g vel sym F b) by (unfold out0; now rewrite Hk, Hc).
  assert (E1 : out1 g vel sym F b' = out1 g vel sym F b) by (unfold out1; now rewrite Hk, Hc).
  assert (E2 : in0 g vel F b' = in0 g vel F b) by (unfold in0; now rewrite Hk, Hc).
  assert (E3 : rhs RR sym feq MBouzidi b' = rhs RR sym feq MBouzidi b) by (unfold rhs; now rewrite !Hq, Hk).
  assert (V : forall x : blink, 0 < Q2R (b_dist x) <= 1 -> x = b \/ x = b' ->
    exists s t u, bvalue RR Q2R g vel sym feq MBouzidi F x = s * out0 g vel sym F b + t * out1 g vel sym F b + u * in0 g vel F b + rhs RR sym feq MBouzidi b /\
      ((Q2R (b_dist x) < 1 / 2 /\ s = 2 * Q2R (b_dist x) /\ t = 1 - 2 * Q2R (b_dist x) /\ u = 0) \/
       (1 / 2 <= Q2R (b_dist x) /\ s * (2 * Q2R (b_dist x)) = 1 /\ 1 / 2 <= s <= 1 /\ t = 0 /\ u = 1 - s))).
  { intros x Hx Hb. destruct (Qltb (b_dist x) (1 # 2)) eqn:E.
    - pose proof (near_lt _ E). exists (2 * Q2R (b_dist x)), (1 - 2 * Q2R (b_dist x)), 0. split; [|left; auto].
      rewrite (proj1 (value_near g vel sym feq F x E)). destruct Hb as [-> | ->]; rewrite ?E0, ?E1, ?E3; cbn [radd rmul RR]; change (rcar RR) with R; ring.
    - destruct (s_far _ E) as [_ H]. pose proof (far_s (Q2R (b_dist x)) ltac:(lra)) as S.
      exists (/ (2 * Q2R (b_dist x))), 0, (1 - / (2 * Q2R (b_dist x))). split.
      + rewrite (proj1 (value_far g vel sym feq F x E)). destruct Hb as [-> | ->]; rewrite ?E0, ?E2, ?E3; cbn [radd rmul RR]; change (rcar RR) with R; ring.
      + right. repeat split; try lra. field. lra. }
  destruct (V b Hd (or_introl eq_refl)) as (s & t & u & Eb & C). destruct (V b' Hd' (or_intror eq_refl)) as (s' & t' & u' & Eb' & C').
  rewrite Eb, Eb'. clear V Eb Eb' E0 E1 E2 E3.
  set (A := out0 g vel sym F b). set (B := out1 g vel sym F b). set (I := in0 g vel F b). set (z := rhs RR sym feq MBouzidi b).
  set (d := Q2R (b_dist b)) in *. set (d' := Q2R (b_dist b')) in *. clearbody A B I z d d'. change (rcar RR) with R in *.
  replace (s * A + t * B + u * I + z - (s' * A + t' * B + u' * I + z)) with ((s - s') * A + (t - t') * B + (u - u') * I) by ring.
  assert (Hs : forall a1 a2, 1 / 2 <= a1 -> 1 / 2 <= a2 -> forall s1 s2, s1 * (2 * a1) = 1 -> s2 * (2 * a2) = 1 -> 0 <= s1 <= 1 -> 0 <= s2 <= 1 ->
     Rabs (s1 - s2) <= 2 * Rabs (a1 - a2)).
  { intros a1 a2 H1 H2 s1 s2 G1 G2 G3 G4. replace (s1 - s2) with ((2 * s1 * s2) * (a2 - a1)).
    - rewrite Rabs_mult, (Rabs_minus_sym a2 a1). apply Rmult_le_compat_r; [apply Rabs_pos|].
      rewrite Rabs_right by (apply Rle_ge; nra). nra.
    - replace (2 * s1 * s2 * (a2 - a1)) with (s1 * (s2 * (2 * a2)) - s2 * (s1 * (2 * a1))) by ring. rewrite G1, G2. ring. }
  assert (W : Rabs (s - s') <= 2 * Rabs (d - d') /\ Rabs (t - t') <= 2 * Rabs (d - d') /\ Rabs (u - u') <= 2 * Rabs (d - d')).
  { destruct C as [(C1 & -> & -> & ->)|(C1 & C2 & C3 & -> & ->)]; destruct C' as [(C1' & -> & -> & ->)|(C1' & C2' & C3' & -> & ->)].
    - repeat split; unfold Rabs; repeat destruct Rcase_abs; lra.
    - assert (N : Rabs (d - d') = d' - d) by (rewrite Rabs_left1; lra). rewrite N.
      assert (1 - s' <= 2 * (d' - 1 / 2)) by nra.
      repeat split; apply Rabs_le; split; nra.
    - assert (N : Rabs (d - d') = d - d') by (rewrite Rabs_right; lra). rewrite N.
      assert (1 - s <= 2 * (d - 1 / 2)) by nra.
      repeat split; apply Rabs_le; split; nra.
    - pose proof (Hs d d' C1 C1' s s' C2 C2' ltac:(lra) ltac:(lra)) as H. repeat split; [exact H| |].
      + rewrite Rminus_eq_0, Rabs_R0. pose proof (Rabs_pos (d - d')). lra.
      + replace (1 - s - (1 - s')) with (- (s - s')) by ring. now rewrite Rabs_Ropp. }
  destruct W as (W1 & W2 & W3).
  eapply Rle_trans; [apply Rabs_triang|]. eapply Rle_trans; [apply Rplus_le_compat_r, Rabs_triang|]. rewrite !Rabs_mult.
  pose proof (Rabs_pos A). pose proof (Rabs_pos B). pose proof (Rabs_pos I).
  pose proof (Rmult_le_compat_r _ _ _ H W1). pose proof (Rmult_le_compat_r _ _ _ H0 W2). pose proof (Rmult_le_compat_r _ _ _ H1 W3). lra.
Qed.
(* Exact for linear states.  Positions along the link are counted from the fluid
   cell, in lengths of the link, positive away from the wall, and continued behind
   the wall by the reflected path: the particle that moves away from the wall at
   the fluid cell is at -2d.  The particle that is there after the step is before
   the step at 1 - 2d. *)
Theorem C18_linear g vel sym feq F b a c : 0 < Q2R (b_dist b) <= 1 ->
  let phi u := a + c * u in
  let d := Q2R (b_dist b) in
  out0 g vel sym F b = phi 0 -> out1 g vel sym F b = phi 1 -> in0 g vel F b = phi (- (2 * d)) ->
  bvalue RR Q2R g vel sym feq MBouzidi F b = phi (1 - 2 * d) + rhs RR sym feq MBouzidi b.
Proof.
  intros Hd phi d H0 H1 H2. destruct (Qltb (b_dist b) (1 # 2)) eqn:E.
  - rewrite (proj1 (value_near g vel sym feq F b E)), H0, H1. fold d. unfold phi. cbn [radd rmul RR]. change (rcar RR) with R. ring.
  - rewrite (proj1 (value_far g vel sym feq F b E)), H0, H2. fold d. unfold phi. change (rcar RR) with R. field. unfold d. lra.
Qed.
(* Not so for the anti bounce back: wrong for every constant state unless the wall
   is half way. *)
Theorem C18_bouzidi_anti_wrong : forall g vel sym feq F b a, 0 < Q2R (b_dist b) <= 1 ->
  Q2R (b_dist b) <> 1 / 2 -> a <> 0 -> (forall k x, F k x = a) ->
  bvalue RR Q2R g vel sym feq MBouzidiAnti F b <> - a + rhs RR sym feq MBouzidiAnti b.
Proof.
  intros g vel sym feq F b a Hd Hne Ha HF. assert (E0 : out0 g vel sym F b = a) by apply HF.
  assert (E1 : out1 g vel sym F b = a) by apply HF. assert (E2 : in0 g vel F b = a) by apply HF.
  destruct (Qltb (b_dist b) (1 # 2)) eqn:E.
  - rewrite (proj2 (value_near g vel sym feq F b E)), E0, E1. set (d := Q2R (b_dist b)) in *. intros C.
    assert (X : (1 - 2 * d) * (2 * a) = 0) by (cbn [radd rmul RR] in C; lra).
    apply Rmult_integral in X. destruct X as [X|X]; lra.
  - rewrite (proj2 (value_far g vel sym feq F b E)), E0, E2. destruct (s_far _ E) as [_ Hh]. set (d := Q2R (b_dist b)) in *. intros C.
    assert (X : (1 - / (2 * d)) * (2 * a) = 0) by (cbn [radd rmul RR] in C; lra).
    apply Rmult_integral in X. destruct X as [X|X]; [|lra].
    assert (/ (2 * d) < 1); [|lra]. rewrite <- Rinv_1. apply Rinv_lt_contravar; lra.
Qed.
Print Assumptions C18_weights.
Print Assumptions C18_half_way.
Print Assumptions C18_continuous.
Print Assumptions C18_linear.
Print Assumptions C18_bouzidi_anti_wrong.

(* One link of velocity 1 (index 0, opposite 1), wall at 1/4 and at 3/4; the field
   is 5 + 3 u before the wall and its reflection. *)
Definition ex_link (d : Q) : blink := mkB 0 [0%Z] 5 d (fun _ => 0%Q).
Definition ex_line : grid := mkGrid [4%Z] [1%Z] [0%Z; 0%Z] [[1%Z]; [(-1)%Z]] [0%Q] 1%Q.
Definition ex_vel (k : nat) : list Z := match k with 0%nat => [1%Z] | _ => [(-1)%Z] end.
Definition ex_sym (k : nat) : nat := match k with 0%nat => 1%nat | _ => 0%nat end.
Example C18_ex : forall d, d = (1 # 4)%Q \/ d = (3 # 4)%Q ->
  let F : dfield RR := fun k c => match k with
             | 0%nat => 5 + 3 * (- (2 * Q2R d) - IZR ((nth 0 c 0) - 1)%Z)
             | _ => 5 + 3 * IZR ((nth 0 c 0) - 1)%Z end in
  bvalue RR Q2R ex_line ex_vel ex_sym (fun _ _ => 0) MBouzidi F (ex_link d) = 5 + 3 * (1 - 2 * Q2R d).
Proof.
  intros d Hd F. rewrite (C18_linear ex_line ex_vel ex_sym (fun _ _ => 0) F (ex_link d) 5 3).
  - unfold rhs. cbn [b_dist ex_link rsub rar RR]. lra.
  - destruct Hd as [-> | ->]; unfold Q2R; cbn; lra.
  - unfold out0, F. cbn. lra.
  - unfold out1, F. cbn. lra.
  - unfold in0, F. cbn [ex_link b_k b_cell ex_vel b_dist]. change (shift ex_line [0%Z] [1%Z]) with [1%Z]. cbn [nth].
    replace (1 - 1)%Z with 0%Z by reflexivity. lra.
Qed.

(* The linear exactness (with the sign of the condition) fails. *)
Theorem C18_bouzidi_anti_refuted : exists g vel sym feq F b a c,
  0 < Q2R (b_dist b) <= 1 /\
  let phi u := a + c * u in
  let d := Q2R (b_dist b) in
  out0 g vel sym F b = phi 0 /\ out1 g vel sym F b = phi 1 /\ in0 g vel F b = phi (- (2 * d)) /\
  bvalue RR Q2R g vel sym feq MBouzidiAnti F b <> - phi (1 - 2 * d) + rhs RR sym feq MBouzidiAnti b.
Proof.
  assert (D : Q2R (1 # 4) = 1 / 4) by (unfold Q2R; cbn; lra).
  exists ex_line, ex_vel, ex_sym, (fun _ _ => 0), (fun _ _ => 1), (ex_link (1 # 4)), 1, 0. cbn [b_dist ex_link].
  rewrite D. split; [lra|]. cbv zeta. unfold out0, out1, in0. repeat split; try lra.
  replace (1 + 0 * (1 - 2 * (1 / 4))) with 1 by lra.
  apply C18_bouzidi_anti_wrong; cbn [b_dist ex_link]; [rewrite D; lra|rewrite D; intros X; lra|intros X; lra|reflexivity].
Qed.
Print Assumptions C18_bouzidi_anti_refuted.

(* --------------------------------------------------------------- C20 ----- *)
(* The state is the equilibrium e everywhere, and so is the boundary value. *)
Section Uniform.
Variable K : ring.
Add Ring Kring_bound : (rth K).
Lemma Ring_laws : (forall a b : K, (a + (b - a))%K = b) /\ (forall a b : K, (- a + (b + a))%K = b).
Proof. split; intros; ring. Qed.
Theorem C20_uniform_partial (qk : Q -> K) g vel sym (feq : blink -> nat -> K) (e : nat -> K) be ms (F : dfield K) :
  (forall k x, F k x = e k) -> (forall b k, feq b k = e k) ->
  (forall m L b, In (m, L) ms -> In b L ->
     match m with
     | MBouzidi => (b_dist b < 1 # 2)%Q \/ qk (bz_s (b_dist b)) = r1 \/ e (b_k b) = e (sym (b_k b))
     | MBouzidiAnti => qk (bz_s (b_dist b)) = r1
     | _ => True
     end) ->
  forall k x, boundary_condition K qk g vel sym feq be ms F k x = e k.
Proof.
  intros HF He Hm.
  assert (V : forall m b (G : dfield K), (forall k x, G k x = e k) ->
     match m with
     | MBouzidi => (b_dist b < 1 # 2)%Q \/ qk (bz_s (b_dist b)) = r1 \/ e (b_k b) = e (sym (b_k b))
     | MBouzidiAnti => qk (bz_s (b_dist b)) = r1
     | _ => True
     end -> bvalue K qk g vel sym feq m G b = e (b_k b)).
  { intros m b G HG Hb. unfold bvalue, at_, rhs. cbv zeta. rewrite !HG, ?He. destruct m; cbn [iload0 fst]; try ring.
    - unfold iload1, near. destruct (Qltb (b_dist b) (1 # 2)) eqn:E; cbn [fst]; [ring|].
      destruct Hb as [Hb|[Hb|Hb]]; [apply Qltb_true in Hb; congruence|rewrite Hb; ring|rewrite Hb; ring].
    - rewrite Hb. ring. }
  assert (U : forall m L G, (forall b, In b L -> match m with
     | MBouzidi => (b_dist b < 1 # 2)%Q \/ qk (bz_s (b_dist b)) = r1 \/ e (b_k b) = e (sym (b_k b))
     | MBouzidiAnti => qk (bz_s (b_dist b)) = r1
     | _ => True
     end) -> (forall k x, G k x = e k) -> forall k x, bupdate K qk g vel sym feq be m L G k x = e k).
  { intros m L G HL HG. unfold bupdate.
    assert (W : forall H : dfield K, (forall k x, H k x = e k) -> forall k x,
      fold_left (fun F b => dupd K F (b_k b) (b_cell b) (bvalue K qk g vel sym feq m (if reads_copy be m then G else F) b)) L H k x = e k).
    { induction L as [|b L IH]; intros H HH k x; cbn [fold_left]; [apply HH|]. apply IH; [intros c Hc; apply HL; now right|].
      intros k' x'. unfold dupd. destruct (Nat.eqb_spec k' (b_k b)) as [->|]; [|apply HH].
      destruct (list_eqb x' (b_cell b)); cbn [andb]; [|apply HH]. apply V; [|apply HL; now left].
      destruct (reads_copy be m); assumption. }
    now apply W. }
  unfold boundary_condition. revert F HF. induction ms as [|[m L] ms IH]; intros F HF k x; cbn [fold_left fst snd]; [apply HF|].
  apply IH.
  - intros m' L' b H1 H2. apply (Hm m' L' b); [now right|exact H2].
  - apply U; [|exact HF]. intros b Hb. apply (Hm m L b); [now left|exact Hb].
Qed.
(* What Bouzidi conditions write otherwise: they are off by the given terms. *)
Theorem C20_defect (qk : Q -> K) g vel sym (feq : blink -> nat -> K) (e : nat -> K) (F : dfield K) b :
  (forall k x, F k x = e k) -> (forall b k, feq b k = e k) ->
  let k := b_k b in
  let s := qk (bz_s (b_dist b)) in
  ((1 # 2 <= b_dist b)%Q -> bvalue K qk g vel sym feq MBouzidi F b = (e k + (1 - s) * (e k - e (sym k)))%K) /\
  ((b_dist b < 1 # 2)%Q -> bvalue K qk g vel sym feq MBouzidiAnti F b = (e k + (1 - s) * (e (sym k) + e (sym k)))%K) /\
  ((1 # 2 <= b_dist b)%Q -> bvalue K qk g vel sym feq MBouzidiAnti F b = (e k + (1 - s) * (e k + e (sym k)))%K).
Proof.
  intros HF He k s. unfold bvalue, at_, rhs. cbv zeta. rewrite !HF, ?He. fold k. fold s. cbn [iload0 fst].
  unfold iload1, near. repeat split; intros H; [apply Qltb_false in H|apply Qltb_true in H|apply Qltb_false in H];
    rewrite H; cbn [fst]; fold k; ring.
Qed.
End Uniform.
Print Assumptions C20_uniform_partial.
Print Assumptions C20_defect.

(* Fluid cells uniform, anything elsewhere: after the conditions and the transport
   the fluid cells are still uniform, if every link from the fluid has a
   condition. *)
Theorem C20_stays_uniform_partial dimz schemes st r g D conds labels ms :
  setting dimz schemes st r g D conds labels ms ->
  (forall lab s m, In lab labels -> In (s, m) (conds lab) -> simple m) ->
  (forall num w x, nth_error (g_vel g) num = Some w -> In x (array_cells g) -> d_ioo D x = true -> d_ioo D (shift g x w) = false ->
     In (l_flag (d_link D num x)) labels /\ (0 <= l_flag (d_link D num x))%Z) ->
  (forall lab s, In lab labels -> (s < length schemes)%nat -> exists m, In (s, m) (conds lab)) ->
  forall (K : ring) (qk : Q -> K) (feq : blink -> nat -> K) (e : nat -> K) be (F : dfield K),
  (forall k x, d_ioo D x = true -> F k x = e k) -> (forall b k, feq b k = e k) ->
  forall k x, (k < length (concat schemes))%nat -> In x (array_cells g) -> d_ioo D x = true ->
  btransport K g (velk st) (boundary_condition K qk g (velk st) (symk r) feq be ms F) k x = e k.
Proof.
  intros S HS HC HM K qk feq e be F HF He k x Hk Hx Hfl.
  destruct (array_cells_in g x) as [AX _]. destruct (AX Hx) as [Lx _].
  pose proof (build_facts dimz schemes st (s_nn _ _ _ _ _ _ _ _ _ S) (s_build _ _ _ _ _ _ _ _ _ S)) as BF.
  destruct (d_ioo D (shift g x (map Z.opp (velk st k)))) eqn:Et.
  - rewrite (C17_elsewhere _ _ _ _ _ _ _ _ _ S K qk feq be F k x Lx); [now apply HF|].
    intros m b Hb Ek Ex. destruct (link_facts _ _ _ _ _ _ _ _ _ S m b Hb) as (Hs & _ & Lb & _).
    rewrite <- Ex in Et. rewrite shift_back' in Et by exact Lb. congruence.
  - assert (Lv : length (concat (sv st)) = length (concat schemes)).
    { rewrite <- (b_v _ _ _ BF), <- concat_map. now rewrite map_length. }
    destruct (nth_error (concat (sv st)) k) as [v|] eqn:Ev; [|apply nth_error_None in Ev; lia].
    destruct (concat_nth _ _ _ Ev) as (s & i & vs & Hs & Hi & Ek).
    assert (Ekv : velk st k = vel_list v) by (rewrite <- Ek; now apply (row_velk st s vs i v)).
    assert (Hu : In v (sunique st)) by (eapply (b_vin _ _ _ BF); eapply nth_error_In; eauto).
    assert (Hw : exists num w, nth_error (sunique st) num = Some w /\ vel_list w = map Z.opp (vel_list v)).
    { destruct (C07_lemma dimz schemes st None (s_nn _ _ _ _ _ _ _ _ _ S) (s_build _ _ _ _ _ _ _ _ _ S) ltac:(intros; discriminate)) as [_ T].
      destruct (T r (s_sym _ _ _ _ _ _ _ _ _ S)) as (_ & T2 & _). destruct (T2 s i vs v Hs Hi) as (j & u & Hj & Eu & _).
      assert (Huu : In u (sunique st)) by (eapply (b_vin _ _ _ BF); eapply nth_error_In; eauto).
      apply In_nth_error in Huu. destruct Huu as [num Hnum]. exists num, u. split; [exact Hnum|].
      change (vel_list u) with (Velocity3Proofs.vcoords u). rewrite Eu. apply sym_coords_opp. }
    destruct Hw as (num & w & Hw & Ew). rewrite Ekv in Et.
    assert (Hg : nth_error (g_vel g) num = Some (vel_list w)) by (rewrite (s_vel _ _ _ _ _ _ _ _ _ S); now apply map_nth_error).
    rewrite <- Ew in Et. destruct (HC num (vel_list w) x Hg Hx Hfl Et) as [HL HLpos].
    set (lab := l_flag (d_link D num x)) in *.
    assert (Ls : (s < length schemes)%nat).
    { rewrite <- (b_v _ _ _ BF), map_length. apply nth_error_Some. congruence. }
    destruct (HM lab s HL Ls) as [m Hm].
    set (b := mkB (row st s i) (shift g x (vel_list w)) lab (l_dist (d_link D num x)) (l_norm (d_link D num x))).
    assert (Hb : has ms m b).
    { apply (boundary_links dimz schemes st (s_nn _ _ _ _ _ _ _ _ _ S) (s_build _ _ _ _ _ _ _ _ _ S) g D conds labels ms (s_bound _ _ _ _ _ _ _ _ _ S)).
      exists lab, s, vs, i, v, num, w, x. repeat split; auto; lia. }
    assert (Eb : b_k b = k) by exact Ek.
    assert (Exb : shift g (b_cell b) (velk st (b_k b)) = x).
    { rewrite Eb, Ekv. cbn [b_cell b]. rewrite Ew. now apply shift_back. }
    pose proof (C17_after_transport _ _ _ _ _ _ _ _ _ S K qk feq be F m b Hb) as C. cbv zeta in C.
    rewrite Exb, Eb in C. destruct C as (_ & _ & C1 & C2 & C3 & _). destruct (Ring_laws K) as (R1 & R2).
    destruct (HS lab s m HL Hm) as [ -> | [ -> | -> ] ].
    + rewrite (C1 eq_refl), !He, HF by exact Hfl. apply R1.
    + rewrite (C2 eq_refl), !He, HF by exact Hfl. apply R2.
    + rewrite (C3 eq_refl). now apply HF.
Qed.
Print Assumptions C20_stays_uniform_partial.

(* Bouzidi bounce back with the wall beyond one half, and a moving wall; Bouzidi
   anti bounce back at any other distance than one half. *)
Theorem C20_bouzidi_refuted : exists g vel sym (e : nat -> QcR) (b b1 : blink),
  (0 < b_dist b <= 1)%Q /\ (0 < b_dist b1 <= 1)%Q /\
  bvalue QcR Q2Qc g vel sym (fun _ k => e k) MBouzidi (fun k _ => e k) b <> e (b_k b) /\
  bvalue QcR Q2Qc g vel sym (fun _ k => e k) MBouzidiAnti (fun k _ => e k) b <> e (b_k b) /\
  bvalue QcR Q2Qc g vel sym (fun _ k => e k) MBouzidiAnti (fun k _ => e k) b1 <> e (b_k b1).
Proof.
  exists ex_line, ex_vel, ex_sym, (fun k => Q2Qc (inject_Z (1 + Z.of_nat k))), (ex_link (3 # 4)), (ex_link (1 # 4)).
  split; [split; [reflexivity|discriminate]|]. split; [split; [reflexivity|discriminate]|].
  repeat split; intros C; apply (f_equal (fun q : Qc => this q)) in C; vm_compute in C; discriminate.
Qed.
Print Assumptions C20_bouzidi_refuted.

(* The channel of C16_ex: 7 + k in the fluid cell, -1 in the others. *)
Example C20_ex : forall m be k, simple m -> (k < 3)%nat ->
  btransport ZR (line [0%Z; 0%Z]) (velk line_st)
    (boundary_condition ZR (fun _ => 0%Z) (line [0%Z; 0%Z]) (velk line_st) (symk [0%Z; 2%Z; 1%Z])
       (fun _ k => (7 + Z.of_nat k)%Z) be (chan_ms m)
       (fun k c => if d_ioo chan_D c then (7 + Z.of_nat k)%Z else (-1)%Z)) k [4%Z] = (7 + Z.of_nat k)%Z.
Proof.
  intros m be k Hm Hk.
  assert (A : array_cells (line [0%Z; 0%Z]) = [[0%Z]; [1%Z]; [2%Z]; [3%Z]; [4%Z]; [5%Z]; [6%Z]; [7%Z]]) by reflexivity.
  assert (Hfl : forall x, In x (array_cells (line [0%Z; 0%Z])) -> d_ioo chan_D x = true -> x = [4%Z]).
  { intros x. rewrite A. intros Hx H.
    repeat (destruct Hx as [<-|Hx]; [first [reflexivity|vm_compute in H; discriminate]|]). destruct Hx. }
  apply (C20_stays_uniform_partial _ _ _ _ _ _ _ _ _ (chan_setting m)) with (e := fun k => (7 + Z.of_nat k)%Z).
  - intros lab s m0 _ [Eq|[]]. injection Eq as _ <-. exact Hm.
  - intros num w x Hw Hx Hxf Ht. rewrite (Hfl x Hx Hxf) in *. destruct num as [|[|[|num]]]; cbn in Hw.
    + injection Hw as <-. vm_compute in Ht. discriminate.
    + vm_compute. split; [auto|discriminate].
    + vm_compute. split; [auto|discriminate].
    + destruct num; discriminate.
  - intros lab s _ Hs. exists m. left. cbn in Hs. f_equal. lia.
  - intros k' x H. now rewrite H.
  - reflexivity.
  - exact Hk.
  - rewrite A. cbn. tauto.
  - reflexivity.
Qed.
