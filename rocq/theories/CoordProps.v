(* C92, continued: where the coordinates in binary64 do not depend on the process grid. *)
From Coq Require Import Reals Lra QArith.
From Coq.Floats Require Import SpecFloat.
From Flocq Require Import Core BinarySingleNaN.
From Verif Require Import PyBase VelocityModel GridModel GridProofs StorageModel ExchangeProofs DomainModel LinAlg GlobalModel GlobalProofs
  ParallelProofs RoundModel Round64Proofs NearProofs.
Require Import Lia.
Open Scope Z_scope.

(* m 2^e *)
Definition dy (m e : Z) : R := (IZR m * bpow radix2 e)%R.
Lemma dy_format m e : Z.abs m < 2 ^ 53 -> -1074 <= e <= 900 -> rnd64 (dy m e) = dy m e /\ (Rabs (dy m e) <= big64)%R.
Proof.
  intros Hm He. split.
  - apply round_generic; [apply valid_rnd_N|]. apply (generic_format_FLT radix2 (3 - 1024 - 53) 53). exists (Float radix2 m e); [reflexivity|exact Hm|cbn; lia].
  - unfold dy. rewrite Rabs_mult, <- abs_IZR, (Rabs_pos_eq (bpow radix2 e)) by apply bpow_ge_0.
    apply Rle_trans with (IZR (2 ^ 53) * bpow radix2 e)%R; [apply Rmult_le_compat_r; [apply bpow_ge_0|apply IZR_le; lia]|].
    change (2 ^ 53) with (Zpower radix2 53). rewrite IZR_Zpower by lia. rewrite <- bpow_plus. apply bpow_le. lia.
Qed.
Lemma dy_is m e : Z.abs m < 2 ^ 53 -> -1074 <= e <= 900 -> is64 (dyadic64 m e) (dy m e).
Proof. exact (dyadic_exact m e). Qed.
Lemma exact_add x y m m' e : is64 x (dy m e) -> is64 y (dy m' e) -> Z.abs (m + m') < 2 ^ 53 -> -1074 <= e <= 900 -> is64 (add64 x y) (dy (m + m') e).
Proof.
  intros Hx Hy Hm He. destruct (dy_format _ _ Hm He) as [F B]. assert (E : (dy m e + dy m' e = dy (m + m') e)%R) by (unfold dy; rewrite plus_IZR; ring).
  rewrite <- F, <- E. apply add_is64; auto. now rewrite E.
Qed.
Lemma exact_sub x y m m' e : is64 x (dy m e) -> is64 y (dy m' e) -> Z.abs (m - m') < 2 ^ 53 -> -1074 <= e <= 900 -> is64 (sub64 x y) (dy (m - m') e).
Proof.
  intros Hx Hy Hm He. destruct (dy_format _ _ Hm He) as [F B]. assert (E : (dy m e - dy m' e = dy (m - m') e)%R) by (unfold dy; rewrite minus_IZR; ring).
  rewrite <- F, <- E. apply sub_is64; auto. now rewrite E.
Qed.
Lemma exact_mul x y m m' e e' : is64 x (dy m e) -> is64 y (dy m' e') -> Z.abs (m * m') < 2 ^ 53 -> -1074 <= e + e' <= 900 -> is64 (mul64 x y) (dy (m * m') (e + e')).
Proof.
  intros Hx Hy Hm He. destruct (dy_format _ _ Hm He) as [F B]. assert (E : (dy m e * dy m' e' = dy (m * m') (e + e'))%R) by (unfold dy; rewrite mult_IZR, bpow_plus; ring).
  rewrite <- F, <- E. apply mul_is64; auto. now rewrite E.
Qed.
Lemma exact_div x y m m' e : is64 x (dy (m * m') e) -> is64 y (dy m' 0) -> m' <> 0 -> Z.abs m < 2 ^ 53 -> -1074 <= e <= 900 -> is64 (div64 x y) (dy m e).
Proof.
  intros Hx Hy H0 Hm He. destruct (dy_format _ _ Hm He) as [F B]. assert (Z0 : (IZR m' <> 0)%R) by (intros X; apply eq_IZR in X; lia).
  assert (N : (dy m' 0 <> 0)%R) by (unfold dy; simpl; lra).
  assert (E : (dy (m * m') e / dy m' 0 = dy m e)%R) by (unfold dy; rewrite mult_IZR; simpl (bpow _ 0); field; exact Z0).
  rewrite <- F, <- E. apply div_is64; auto. now rewrite E.
Qed.
Lemma half_step m e : dy (2 * m) e = dy m (e + 1).
Proof. unfold dy. rewrite mult_IZR, bpow_plus. change (bpow radix2 1) with 2%R. ring. Qed.

(* lo = L 2^e and dx = 2 D 2^e: all the operations of linspace are exact as long as the numbers have
   at most 53 bits; the cell of local index i has the coordinate lo + (r0 + i - h + 1/2) dx. *)
Lemma coords_exact lo dx L D e r0 r1 h N i : is64 lo (dy L e) -> is64 dx (dy (2 * D) e) -> 0 < D -> -1073 <= e <= 800 ->
  0 <= r0 <= r1 -> r1 <= N -> 1 <= h -> Z.abs L + 4 * D * (N + 2 * h) < 2 ^ 53 -> 0 <= i < r1 - r0 + 2 * h ->
  is64 (nth (Z.to_nat i) (coords_halo64 lo dx r0 r1 h) S754_nan) (dy (L + D * (2 * (r0 - h + i) + 1)) e).
Proof.
  intros Hlo Hdx HD He Hr Hr1 Hh HB Hi. unfold coords_halo64. cbv zeta.
  set (num := r1 - r0 + 2 * h) in *.
  assert (Z64 : forall z, Z.abs z < 2 ^ 53 -> is64 (of_Z64 z) (dy z 0)) by (intros z Hz; apply (dy_is z 0); lia).
  assert (Hb : is64 (mul64 dx (sub64 (of_Z64 h) (dyadic64 1 (-1)))) (dy (D * (2 * h - 1)) e)).
  { assert (S : is64 (sub64 (of_Z64 h) (dyadic64 1 (-1))) (dy (2 * h - 1) (-1))).
    { apply exact_sub; [|apply dy_is; lia|nia|lia]. rewrite half_step. apply Z64. nia. }
    rewrite half_step in Hdx. replace e with (e + 1 + -1) by lia. apply exact_mul; auto; [nia|lia]. }
  assert (At : forall z, 0 <= z <= N -> is64 (add64 lo (mul64 dx (of_Z64 z))) (dy (L + 2 * D * z) e)).
  { intros z Hz. apply exact_add; [exact Hlo| |nia|lia]. replace e with (e + 0) at 1 by lia. apply exact_mul; [exact Hdx|apply Z64; nia|nia|lia]. }
  assert (A : is64 (sub64 (add64 lo (mul64 dx (of_Z64 r0))) (mul64 dx (sub64 (of_Z64 h) (dyadic64 1 (-1))))) (dy (L + 2 * D * r0 - D * (2 * h - 1)) e)).
  { apply exact_sub; [apply At; lia|exact Hb|nia|lia]. }
  assert (B : is64 (add64 (add64 lo (mul64 dx (of_Z64 r1))) (mul64 dx (sub64 (of_Z64 h) (dyadic64 1 (-1))))) (dy (L + 2 * D * r1 + D * (2 * h - 1)) e)).
  { apply exact_add; [apply At; lia|exact Hb|nia|lia]. }
  lazymatch type of A with is64 ?a0 _ => set (a := a0) in * end. lazymatch type of B with is64 ?b0 _ => set (b := b0) in * end. clearbody a b.
  unfold linspace64.
  set (f := fun i0 : nat => _). rewrite (nth_indep _ S754_nan (f 0%nat)) by (rewrite map_length, seq_length; lia).
  rewrite map_nth, seq_nth by lia. cbn [plus]. unfold f. rewrite Z2Nat.id by lia.
  destruct (Z.eqb_spec i (num - 1)) as [E|E].
  - replace (L + D * (2 * (r0 - h + i) + 1)) with (L + 2 * D * r1 + D * (2 * h - 1)) by (subst i num; ring). exact B.
  - assert (S : is64 (div64 (sub64 b a) (of_Z64 (num - 1))) (dy (2 * D) e)).
    { apply exact_div with (num - 1); [|apply Z64; nia|lia|nia|lia].
      replace (2 * D * (num - 1)) with (L + 2 * D * r1 + D * (2 * h - 1) - (L + 2 * D * r0 - D * (2 * h - 1))) by (unfold num; ring).
      apply exact_sub; auto; [|lia]. replace (L + 2 * D * r1 + D * (2 * h - 1) - (L + 2 * D * r0 - D * (2 * h - 1))) with (2 * D * (r1 - r0 + 2 * h - 1)) by ring. nia. }
    replace (L + D * (2 * (r0 - h + i) + 1)) with (i * (2 * D) + (L + 2 * D * r0 - D * (2 * h - 1))) by ring.
    apply exact_add; [|exact A|nia|lia]. replace e with (0 + e) at 1 by lia. apply exact_mul; [apply Z64; nia|exact S|nia|lia].
Qed.

(* The coordinate of a stored cell is exact, and the same on every process grid. *)
Theorem C92_coordinates lo dx L D e x c i : is64 lo (IZR L * bpow radix2 e) -> is64 dx (IZR (2 * D) * bpow radix2 e) -> 0 < D -> -1073 <= e <= 800 ->
  ax_ok x -> (c < ax_p x)%nat -> 1 <= ax_h x -> Z.abs L + 4 * D * (ax_n x + 2 * ax_h x) < 2 ^ 53 -> ax_stored x c i ->
  is64 (coord64 lo dx x c i) (IZR L * bpow radix2 e + IZR (2 * D) * bpow radix2 e * (IZR (glob x c i) + / 2)).
Proof.
  intros Hlo Hdx HD He Hx Hc Hh HB Hi. destruct (ax_bounds x c Hx Hc) as (B1 & B2 & B3 & _).
  assert (E : (IZR L * bpow radix2 e + IZR (2 * D) * bpow radix2 e * (IZR (glob x c i) + / 2) = dy (L + D * (2 * (ax_lo x c - ax_h x + i) + 1)) e)%R).
  { unfold dy, glob. rewrite !plus_IZR, !mult_IZR, !plus_IZR, !mult_IZR, !plus_IZR. field. }
  rewrite E. apply coords_exact with (N := ax_n x); auto; try lia.
Qed.
Print Assumptions C92_coordinates.

Lemma rnd_le r k : -1000 <= k <= 1000 -> (Rabs r <= bpow radix2 k -> Rabs (rnd64 r) <= bpow radix2 k)%R.
Proof.
  intros Hk H. apply abs_round_le_generic; [apply fexp_correct; exact Hprec|apply valid_rnd_N| |exact H].
  apply generic_format_bpow. unfold fexp64, SpecFloat.fexp, SpecFloat.emin. lia.
Qed.
Lemma sub_bound r s k : -999 <= k <= 999 -> (Rabs r <= bpow radix2 k -> Rabs s <= bpow radix2 k -> Rabs (r - s) <= bpow radix2 (k + 1))%R.
Proof.
  intros Hk Hr Hs. rewrite bpow_plus. change (bpow radix2 1) with 2%R. replace (r - s)%R with (r + - s)%R by ring.
  eapply Rle_trans; [apply Rabs_triang|]. rewrite Rabs_Ropp. lra.
Qed.
(* What the comparison of circle64 is, of the exact values of the arguments. *)
Definition circleR (cx cy radius x y : R) : bool :=
  let v0 := rnd64 (x - cx) in let v1 := rnd64 (y - cy) in Rle_bool (rnd64 (rnd64 (v0 * v0) + rnd64 (v1 * v1))) (rnd64 (radius * radius)).
Lemma circle_is cx cy radius x y cx' cy' radius' x' y' : is64 cx cx' -> is64 cy cy' -> is64 radius radius' -> is64 x x' -> is64 y y' ->
  (forall r, In r [cx'; cy'; radius'; x'; y'] -> Rabs r <= bpow radix2 490)%R -> circle64 cx cy radius x y = circleR cx' cy' radius' x' y'.
Proof.
  intros H1 H2 H3 H4 H5 HB. unfold circle64, circleR. cbv zeta.
  assert (B : forall r s, In r [cx'; cy'; radius'; x'; y'] -> In s [cx'; cy'; radius'; x'; y'] -> (Rabs (r - s) <= bpow radix2 491)%R).
  { intros r s Hr Hs. apply (sub_bound r s 490); [lia|auto..]. }
  assert (Sq : forall r k, 0 <= k <= 500 -> (Rabs r <= bpow radix2 k -> Rabs (r * r) <= bpow radix2 (k + k))%R).
  { intros r k Hk Hr. rewrite Rabs_mult, bpow_plus. apply Rmult_le_compat; auto using Rabs_pos. }
  assert (Le : forall a b : Z, a <= b -> (bpow radix2 a <= bpow radix2 b)%R) by (intros; now apply bpow_le).
  assert (D : forall u r v s, is64 u r -> is64 v s -> In r [cx'; cy'; radius'; x'; y'] -> In s [cx'; cy'; radius'; x'; y'] ->
    is64 (mul64 (sub64 u v) (sub64 u v)) (rnd64 (rnd64 (r - s) * rnd64 (r - s))) /\ (Rabs (rnd64 (rnd64 (r - s) * rnd64 (r - s))) <= bpow radix2 982)%R).
  { intros u r v s Hu Hv Hr Hs. pose proof (B r s Hr Hs) as Q1.
    assert (Q2 : is64 (sub64 u v) (rnd64 (r - s))) by (apply sub_is64; auto; eapply Rle_trans; [exact Q1|apply Le; lia]).
    assert (Q3 : (Rabs (rnd64 (r - s)) <= bpow radix2 491)%R) by (apply rnd_le; [lia|exact Q1]).
    pose proof (Sq _ 491 ltac:(lia) Q3) as Q4. split; [apply mul_is64; auto; eapply Rle_trans; [exact Q4|apply Le; lia]|].
    apply rnd_le; [lia|exact Q4]. }
  destruct (D x x' cx cx' H4 H1 ltac:(cbn; auto) ltac:(cbn; auto)) as [X1 X2]. destruct (D y y' cy cy' H5 H2 ltac:(cbn; auto 6) ltac:(cbn; auto)) as [Y1 Y2].
  assert (R1 : is64 (mul64 radius radius) (rnd64 (radius' * radius'))).
  { apply mul_is64; auto. eapply Rle_trans; [apply (Sq _ 490); [lia|apply HB; cbn; auto]|apply Le; lia]. }
  assert (S : is64 (add64 (mul64 (sub64 x cx) (sub64 x cx)) (mul64 (sub64 y cy) (sub64 y cy))) (rnd64 (rnd64 (rnd64 (x' - cx') * rnd64 (x' - cx')) + rnd64 (rnd64 (y' - cy') * rnd64 (y' - cy'))))).
  { apply add_is64; auto. eapply Rle_trans; [apply Rabs_triang|]. apply Rle_trans with (bpow radix2 982 + bpow radix2 982)%R; [lra|].
    apply Rle_trans with (bpow radix2 983); [|apply Le; lia]. change 983 with (982 + 1). rewrite bpow_plus. change (bpow radix2 1) with 2%R. lra. }
  destruct S as (b1 & <- & F1 & <-). destruct R1 as (b2 & <- & F2 & <-). exact (Bleb_correct _ _ b1 b2 F1 F2).
Qed.
(* So the cells inside a circle (or outside) are the same on every process grid, for any centre
   and radius, if dx and the corner of the box have few bits. *)
Theorem C92_edge lo dx L D e lo' dx' L' D' e' x y p p' q q' c i c' i' d j d' j' cx cy radius rcx rcy rr :
  is64 lo (IZR L * bpow radix2 e) -> is64 dx (IZR (2 * D) * bpow radix2 e) -> 0 < D -> -1073 <= e <= 400 ->
  is64 lo' (IZR L' * bpow radix2 e') -> is64 dx' (IZR (2 * D') * bpow radix2 e') -> 0 < D' -> -1073 <= e' <= 400 ->
  Z.abs L + 4 * D * (ax_n x + 2 * ax_h x) < 2 ^ 53 -> Z.abs L' + 4 * D' * (ax_n y + 2 * ax_h y) < 2 ^ 53 -> 1 <= ax_h x -> 1 <= ax_h y ->
  let x1 := mkAxis (ax_n x) p (ax_h x) in let x2 := mkAxis (ax_n x) p' (ax_h x) in
  let y1 := mkAxis (ax_n y) q (ax_h y) in let y2 := mkAxis (ax_n y) q' (ax_h y) in
  ax_ok x1 -> ax_ok x2 -> ax_ok y1 -> ax_ok y2 -> (c < p)%nat -> (c' < p')%nat -> (d < q)%nat -> (d' < q')%nat ->
  ax_stored x1 c i -> ax_stored x2 c' i' -> ax_stored y1 d j -> ax_stored y2 d' j' -> glob x1 c i = glob x2 c' i' -> glob y1 d j = glob y2 d' j' ->
  is64 cx rcx -> is64 cy rcy -> is64 radius rr -> (Rabs rcx <= bpow radix2 490)%R -> (Rabs rcy <= bpow radix2 490)%R -> (Rabs rr <= bpow radix2 490)%R ->
  circle64 cx cy radius (coord64 lo dx x1 c i) (coord64 lo' dx' y1 d j) = circle64 cx cy radius (coord64 lo dx x2 c' i') (coord64 lo' dx' y2 d' j').
Proof.
  intros Hlo Hdx HD He Hlo' Hdx' HD' He' HB HB' Hh Hh' x1 x2 y1 y2 A1 A2 A3 A4 Hc Hc' Hd Hd' S1 S2 S3 S4 G1 G2 C1 C2 C3 B1 B2 B3.
  pose proof (C92_coordinates lo dx L D e x1 c i Hlo Hdx HD ltac:(lia) A1 Hc Hh HB S1) as P1.
  pose proof (C92_coordinates lo dx L D e x2 c' i' Hlo Hdx HD ltac:(lia) A2 Hc' Hh HB S2) as P2.
  pose proof (C92_coordinates lo' dx' L' D' e' y1 d j Hlo' Hdx' HD' ltac:(lia) A3 Hd Hh' HB' S3) as Q1.
  pose proof (C92_coordinates lo' dx' L' D' e' y2 d' j' Hlo' Hdx' HD' ltac:(lia) A4 Hd' Hh' HB' S4) as Q2.
  rewrite <- G1 in P2. rewrite <- G2 in Q2.
  assert (Bd : forall L D e a k i0, 0 < D -> -1073 <= e <= 400 -> Z.abs L + 4 * D * (ax_n a + 2 * ax_h a) < 2 ^ 53 -> ax_ok a -> (k < ax_p a)%nat -> ax_stored a k i0 ->
    (Rabs (IZR L * bpow radix2 e + IZR (2 * D) * bpow radix2 e * (IZR (glob a k i0) + / 2)) <= bpow radix2 490)%R).
  { clear. intros L D e a k i0 HD He HB Ha Hk Hi. destruct (ax_bounds a k Ha Hk) as (B1 & B2 & B3 & _). unfold ax_stored, ax_size in Hi.
    assert (E : (IZR L * bpow radix2 e + IZR (2 * D) * bpow radix2 e * (IZR (glob a k i0) + / 2) = dy (L + D * (2 * (ax_lo a k - ax_h a + i0) + 1)) e)%R).
    { unfold dy, glob. rewrite !plus_IZR, !mult_IZR, !plus_IZR, !mult_IZR, !plus_IZR. field. }
    rewrite E. unfold dy. rewrite Rabs_mult, <- abs_IZR, (Rabs_pos_eq (bpow radix2 e)) by apply bpow_ge_0.
    assert (W : Z.abs (2 * (ax_lo a k - ax_h a + i0) + 1) <= 4 * (ax_n a + 2 * ax_h a)) by (destruct Ha as (_ & _ & ? & _); lia).
    assert (V : Z.abs (L + D * (2 * (ax_lo a k - ax_h a + i0) + 1)) <= 2 ^ 53).
    { eapply Z.le_trans; [apply Z.abs_triangle|]. rewrite Z.abs_mul, (Z.abs_eq D) by lia. nia. }
    apply Rle_trans with (IZR (2 ^ 53) * bpow radix2 e)%R; [apply Rmult_le_compat_r; [apply bpow_ge_0|apply IZR_le; exact V]|].
    change (2 ^ 53) with (Zpower radix2 53). rewrite IZR_Zpower by lia. rewrite <- bpow_plus. apply bpow_le. lia. }
  pose proof (Bd L D e x1 c i HD He HB A1 Hc S1) as X. pose proof (Bd L' D' e' y1 d j HD' He' HB' A3 Hd S3) as Y.
  rewrite (circle_is _ _ _ _ _ _ _ _ _ _ C1 C2 C3 P1 Q1), (circle_is _ _ _ _ _ _ _ _ _ _ C1 C2 C3 P2 Q2); [reflexivity|..];
    intros r [<-|[<-|[<-|[<-|[<-|[]]]]]]; assumption.
Qed.
Print Assumptions C92_edge.

(* [0, 1] with 32 cells; the cell 16 is the cell 17 of one process and the cell 6 of the second of three *)
Example C92_dyadic_example : let x := mkAxis 32 1 1 in let x' := mkAxis 32 3 1 in let dx := dyadic64 1 (-5) in
  is64 dx (IZR (2 * 1) * bpow radix2 (-6)) /\ ax_ok x /\ ax_ok x' /\ glob x 0 17 = 16 /\ glob x' 1 6 = 16 /\
  coord64 (S754_zero false) dx x 0 17 = dyadic64 33 (-6) /\ coord64 (S754_zero false) dx x' 1 6 = dyadic64 33 (-6).
Proof.
  cbv zeta. split.
  { replace (IZR (2 * 1) * bpow radix2 (-6))%R with (dy 1 (-5)); [apply dy_is; lia|]. change (-5) with (-6 + 1). rewrite <- half_step. reflexivity. }
  split; [|split; [|repeat split; vm_compute; reflexivity]].
  - repeat split; try (cbn; lia). cbn. intros [|c] Hc; [vm_compute; discriminate|lia].
  - repeat split; try (cbn; lia). cbn. intros [|[|[|c]]] Hc; [vm_compute; discriminate..|lia].
Qed.
