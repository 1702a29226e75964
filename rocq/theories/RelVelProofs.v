(* Relative velocity: the change of frame and the collision in the moving frame. *)
From Verif Require Import PyBase LinAlg SchemeModel SchemeProofs AlgoModel AlgoProofs.

Section Frame.
Variable K : ring.
Add Ring Kring_rel : (rth K).
Open Scope ring_scope'.

Lemma sum_mul_l n c g : sum n (fun i => c * g i)%K = (c * sum (K:=K) n g)%K.
Proof. apply sumL_mul_l. Qed.
Lemma sum_add n g h : sum n (fun i => g i + h i)%K = (sum (K:=K) n g + sum n h)%K.
Proof. apply sumL_add. Qed.

(* opposite and sum of displacements *)
Definition popp (u : point K) : point K := map (fun c => - c)%K u.
Definition padd (u w : point K) : point K := map (fun p => fst p + snd p)%K (combine u w).

Lemma shift_length (u x : point K) : length x = length u -> length (shift_point u x) = length x.
Proof. intros H. unfold shift_point. rewrite map_length, combine_length. lia. Qed.
Lemma padd_length (u w : point K) : length w = length u -> length (padd u w) = length u.
Proof. intros H. unfold padd. rewrite map_length, combine_length. lia. Qed.
Lemma popp_length (u : point K) : length (popp u) = length u.
Proof. apply map_length. Qed.
Lemma shift_shift (u w x : point K) : length u = length x -> length w = length x ->
  shift_point u (shift_point w x) = shift_point (padd u w) x.
Proof.
  revert w x. induction u as [|a u IH]; intros [|b w] [|c x] Hu Hw; try discriminate; [reflexivity|].
  cbn. f_equal; [ring|]. apply IH; cbn in *; lia.
Qed.
Lemma shift_zero (u x : point K) : length u = length x -> shift_point (padd u (popp u)) x = x.
Proof.
  revert x. induction u as [|a u IH]; intros [|c x] Hu; try discriminate; [reflexivity|].
  cbn. f_equal; [ring|]. apply IH. cbn in *. lia.
Qed.

(* One elementary scheme: n polynomials P in dimension d, n velocities v (times la). *)
Section One.
Variables (d n : nat) (P : nat -> point K -> K) (v : nat -> point K) (invM : mat K).
Hypothesis Hv : forall j, (j < n)%nat -> length (v j) = d.
Hypothesis Hinv : inverse n (moment_matrix P v) invM.
(* The space spanned by the polynomials is invariant by translation. *)
Definition translation_closed : Prop :=
  forall u, length u = d -> exists C : mat K, forall i x, (i < n)%nat -> length x = d ->
    P i (shift_point u x) = sum n (fun j => C i j * P j x)%K.
Hypothesis Hclosed : translation_closed.
(* scheme.py 507-512: T = Mu * invM *)
Definition frame (u : point K) : mat K := mmul n (rel_matrix P v u) invM.

Lemma frame_coeff u C : (forall i x, (i < n)%nat -> length x = d ->
    P i (shift_point u x) = sum n (fun j => C i j * P j x)%K) ->
  forall i k, (i < n)%nat -> (k < n)%nat -> frame u i k = C i k.
Proof using Hv Hinv.
  intros HC i k Hi Hk. unfold frame.
  rewrite (mmul_ext K n _ (mmul n C (moment_matrix P v)) invM invM i k); [|intros j Hj|reflexivity].
  - rewrite <- mmul_assoc.
    rewrite (mmul_ext K n C C _ idm i k); [|reflexivity|intros j Hj; apply (proj1 Hinv); assumption].
    apply mmul_idm_r. exact Hk.
  - unfold rel_matrix. rewrite (HC i (v j) Hi (Hv j Hj)). reflexivity.
Qed.
(* moments of the shifted frame of any point *)
Lemma frame_point u i x : length u = d -> (i < n)%nat -> length x = d ->
  P i (shift_point u x) = sum n (fun j => frame u i j * P j x)%K.
Proof using Hv Hinv Hclosed.
  intros Hu Hi Hx. destruct (Hclosed u Hu) as [C HC]. rewrite (HC i x Hi Hx).
  apply sum_ext. intros j Hj. rewrite (frame_coeff u C HC i j Hi Hj). reflexivity.
Qed.
Lemma frame_mul u w i k : length u = d -> length w = d -> (i < n)%nat -> (k < n)%nat ->
  mmul n (frame u) (frame w) i k = frame (padd u w) i k.
Proof using Hv Hinv Hclosed.
  intros Hu Hw Hi Hk. unfold frame at 2. rewrite mmul_assoc. unfold frame at 2. apply mmul_ext; [|reflexivity].
  intros j Hj. unfold rel_matrix at 2. rewrite <- shift_shift by (rewrite Hv by exact Hj; assumption).
  rewrite frame_point; [reflexivity|exact Hu|exact Hi|].
  rewrite shift_length; [apply Hv; exact Hj|rewrite Hv by exact Hj; congruence].
Qed.
Lemma frame_zero u i k : length u = d -> (i < n)%nat -> (k < n)%nat ->
  frame (padd u (popp u)) i k = idm i k.
Proof using Hv Hinv.
  intros Hu Hi Hk. rewrite <- (proj1 Hinv i k Hi Hk). apply mmul_ext; [|reflexivity].
  intros j Hj. unfold rel_matrix. rewrite shift_zero; [reflexivity|]. rewrite Hv by exact Hj. exact Hu.
Qed.
Lemma popp_popp (u : point K) : popp (popp u) = u.
Proof. unfold popp. rewrite map_map. rewrite <- (map_id u) at 2. apply map_ext. intros c. ring. Qed.
Lemma frame_inverse u : length u = d -> inverse n (frame u) (frame (popp u)).
Proof using Hv Hinv Hclosed.
  intros Hu. split; intros i k Hi Hk.
  - rewrite frame_mul by (rewrite ?popp_length; assumption). apply frame_zero; assumption.
  - rewrite frame_mul by (rewrite ?popp_length; assumption).
    rewrite <- (popp_popp u) at 2. apply frame_zero; [rewrite popp_length|..]; assumption.
Qed.
End One.

(* Assembled blocks: the default entries are only read outside the blocks. *)
Lemma assemble_default (D E : mat K) : forall Bs r c, (r < bsize K Bs)%nat -> (c < bsize K Bs)%nat ->
  assemble D Bs r c = assemble E Bs r c.
Proof.
  induction Bs as [|[n B] t IH]; intros r c Hr Hc; [cbn in Hr; lia|].
  cbn [assemble]. unfold bsize in *. cbn [map fst total fold_right] in *. fold (total (map fst t)) in *.
  destruct (Nat.ltb_spec r n), (Nat.ltb_spec c n); try reflexivity. apply IH; lia.
Qed.
Lemma inverse_ext n (A A' B B' : mat K) :
  (forall i j, (i < n)%nat -> (j < n)%nat -> A i j = A' i j) ->
  (forall i j, (i < n)%nat -> (j < n)%nat -> B i j = B' i j) -> inverse n A B -> inverse n A' B'.
Proof.
  intros HA HB [H1 H2]. split; intros i j Hi Hj.
  - rewrite <- (H1 i j Hi Hj). apply mmul_ext; intros k Hk; symmetry; auto.
  - rewrite <- (H2 i j Hi Hj). apply mmul_ext; intros k Hk; symmetry; auto.
Qed.
Lemma assemble_inverse_idm Bs Cs : blocks_inverse K Bs Cs ->
  inverse (bsize K Bs) (assemble idm Bs) (assemble idm Cs).
Proof.
  intros H. pose proof (blocks_sizes K Bs Cs H) as E.
  apply (inverse_ext _ (assemble zerom Bs) _ (assemble zerom Cs)); [intros; apply assemble_default; assumption| |apply assemble_inverse; exact H].
  intros i j Hi Hj. rewrite E in Hi, Hj. apply assemble_default; assumption.
Qed.
(* conjugation by the permutation of the moments *)
Lemma inverse_conj n ps (A B A' B' : mat K) : swaps_ok n ps -> inverse n A B ->
  (forall k c, A' k c = A (sigma ps k) (sigma ps c)) -> (forall k c, B' k c = B (sigma ps k) (sigma ps c)) ->
  inverse n A' B'.
Proof.
  intros Hok [H1 H2] HA HB.
  assert (G : forall X Y X' Y' : mat K, is_id n (mmul n X Y) ->
    (forall k c, X' k c = X (sigma ps k) (sigma ps c)) -> (forall k c, Y' k c = Y (sigma ps k) (sigma ps c)) ->
    is_id n (mmul n X' Y')).
  { intros X Y X' Y' H HX HY i j Hi Hj. unfold mmul.
    rewrite (sum_ext K n _ (fun k => (X (sigma ps i) (sigma ps k) * Y (sigma ps k) (sigma ps j))%K))
      by (intros; rewrite HX, HY; reflexivity).
    rewrite (sum_sigma K n ps (fun k => X (sigma ps i) k * Y k (sigma ps j))%K Hok).
    change (mmul n X Y (sigma ps i) (sigma ps j) = idm i j). rewrite H by (apply sigma_lt; assumption).
    unfold idm. destruct (Nat.eqb_spec i j) as [->|N]; [rewrite Nat.eqb_refl; reflexivity|].
    destruct (Nat.eqb_spec (sigma ps i) (sigma ps j)) as [E|_]; [|reflexivity].
    exfalso. apply N. revert E. apply sigma_inj. }
  split; [exact (G A B A' B' H1 HA HB)|exact (G B A B' A' H2 HB HA)].
Qed.

(* ---- the kernel in the moving frame ---- *)
Implicit Types a : algo K.

(* T(u) and T(-u) are inverse; T(-u) and T(u) do not mix the other moments into the
   conserved ones (the span of the conserved polynomials is invariant by translation). *)
Definition frame_ok a : Prop :=
  inverse (al_n a) (al_M a) (al_invM a) /\
  (forall u, inverse (al_n a) (al_Tu a u) (al_Tu a (vopp u))) /\
  (forall u i j, (i < al_nc a <= j)%nat -> (j < al_n a)%nat -> al_Tu a u i j = 0%K).

Definition fixed_frame a : algo K :=
  mkAlgo (al_n a) (al_nc a) (al_dim a) (al_M a) (al_invM a) (al_Tu a) (al_eq a) (al_s a) None (al_source a) (al_hdt a).

(* moments after the first statements of the pull kernel *)
Lemma f2m_rel_spec a rel src v : al_relvel a = Some rel -> (al_nc a <= al_n a)%nat ->
  (forall w m u, src (mkView (vf w) (vfn w) m u) = src w) ->
  let w := run (f2m_local a src) v in
  vf w = vf v /\ vfn w = vfn v /\
  (forall i, (i < al_nc a)%nat -> vm w i = mvmul (al_n a) (al_M a) (src v) i) /\
  (forall i, (al_nc a <= i < al_n a)%nat -> vm w i = mvmul (al_n a) (al_Mu a (vu w)) (src v) i).
Proof.
  intros R Hn Hsrc. cbn zeta. unfold f2m_local. rewrite R, !run_app, run_TM, run_TU, run_TM. cbn [vf vfn vm vu].
  assert (Hsrc' : forall m u, src (mkView (vf v) (vfn v) m u) = src v) by (intros; apply Hsrc).
  split; [reflexivity|]. split; [reflexivity|].
  split; intros i Hi.
  - rewrite seqf_out by lia.
    rewrite seqf_sim with (lo := 0%nat) (hi := al_nc a); [rewrite Hsrc'; reflexivity|intros; rewrite !Hsrc'; reflexivity|lia].
  - rewrite seqf_sim with (lo := al_nc a) (hi := al_n a); [rewrite Hsrc'; reflexivity|intros; rewrite !Hsrc'; reflexivity|lia].
Qed.

Lemma TM_frame (e : view K -> vec K) lo hi v :
  let w := run (assign TM lo hi e) v in vf w = vf v /\ vfn w = vfn v /\ vu w = vu v.
Proof. cbn zeta. rewrite run_TM. cbn. auto. Qed.

Definition rel_moments a (v : view K) (u m : vec K) : Prop :=
  (forall i, (i < al_nc a)%nat -> m i = mvmul (al_n a) (al_Mu a u) (vf v) i).

(* final distributions of the pull kernel without source *)
Lemma pull_rel_spec a rel v : al_relvel a = Some rel -> al_source a = [] -> (al_nc a <= al_n a)%nat ->
  exists u w1 w2,
    w1 = run (f2m_local a vf) v /\ w2 = run (relaxation_local a) w1 /\ u = vu w1 /\
    forall k, (k < al_n a)%nat -> vfn (run (pull_local a) v) k =
      mvmul (al_n a) (al_invMu a u)
        (fun i => if (i <? al_nc a)%nat then mvmul (al_n a) (al_Mu a u) (vf v) i else vm w2 i) k.
Proof.
  intros R HS Hn. set (w1 := run (f2m_local a vf) v). set (w2 := run (relaxation_local a) w1).
  exists (vu w1), w1, w2. split; [reflexivity|]. split; [reflexivity|]. split; [reflexivity|].
  intros k Hk. unfold pull_local, with_source. rewrite HS, R. rewrite !app_nil_l, !run_app. fold w1.
  change (run [] w1) with w1. fold w2.
  destruct (f2m_rel_spec a rel vf v R Hn) as (F1 & _ & _ & _); [reflexivity|]. fold w1 in F1.
  assert (F2 : vf w2 = vf w1 /\ vu w2 = vu w1).
  { unfold w2, relaxation_local. rewrite R. destruct (TM_frame (fun v0 k0 => (1 - al_s a (vm v0) k0) * vm v0 k0 + al_s a (vm v0) k0 * mvmul (al_n a) (al_Tu a (vu v0)) (al_eq a (vm v0)) k0)%K 0 (al_n a) w1) as (A & _ & B). split; assumption. }
  destruct F2 as [F2 F3].
  unfold restore_conserved_moments. rewrite run_TM. cbn [vf vu vm vfn].
  unfold m2f_local. rewrite R. change (run [] ?x) with x. rewrite run_TFn. cbn [vf vu vm vfn].
  rewrite seqf_sim with (lo := 0%nat) (hi := al_n a); [|reflexivity|lia].
  rewrite F3. apply mvmul_ext. intros i Hi. destruct (Nat.ltb_spec i (al_nc a)) as [L|L].
  - rewrite seqf_sim with (lo := 0%nat) (hi := al_nc a); [rewrite F2, F1, ?F3; reflexivity|reflexivity|lia].
  - rewrite seqf_out by lia. reflexivity.
Qed.

Lemma mvmul_add n (A : mat K) f g i : mvmul n A (fun j => f j + g j)%K i = (mvmul n A f i + mvmul n A g i)%K.
Proof. unfold mvmul. rewrite <- sum_add. apply sum_ext. intros; ring. Qed.
Lemma mvmul_scale n (A : mat K) c f i : mvmul n A (fun j => c * f j)%K i = (c * mvmul n A f i)%K.
Proof. unfold mvmul. rewrite <- sum_mul_l. apply sum_ext. intros; ring. Qed.

(* M applied to the new distributions *)
Lemma M_invMu a u m i : frame_ok a -> (i < al_n a)%nat ->
  mvmul (al_n a) (al_M a) (mvmul (al_n a) (al_invMu a u) m) i = mvmul (al_n a) (al_Tu a (vopp u)) m i.
Proof.
  intros (HM & _) Hi. rewrite (mvmul_ext K _ _ _ (mvmul (al_n a) (al_invM a) (mvmul (al_n a) (al_Tu a (vopp u)) m))).
  - apply mvmul_inverse; [apply HM|exact Hi].
  - intros j _. unfold al_invMu. rewrite mvmul_assoc. reflexivity.
Qed.
Lemma Tmu_Mu a u f i : frame_ok a -> (i < al_n a)%nat ->
  mvmul (al_n a) (al_Tu a (vopp u)) (mvmul (al_n a) (al_Mu a u) f) i = mvmul (al_n a) (al_M a) f i.
Proof.
  intros (_ & HT & _) Hi.
  rewrite (mvmul_ext K _ _ _ (mvmul (al_n a) (al_Tu a u) (mvmul (al_n a) (al_M a) f))).
  - rewrite mvmul_assoc. apply mvmul_id; [apply (HT u)|exact Hi].
  - intros j _. unfold al_Mu. rewrite mvmul_assoc. reflexivity.
Qed.

Lemma pull_rel_conserves a rel v : al_relvel a = Some rel -> al_source a = [] -> (al_nc a <= al_n a)%nat ->
  frame_ok a -> forall i, (i < al_nc a)%nat ->
  mvmul (al_n a) (al_M a) (vfn (run (pull_local a) v)) i = mvmul (al_n a) (al_M a) (vf v) i.
Proof.
  intros R HS Hn HF i Hi.
  destruct (pull_rel_spec a rel v R HS Hn) as (u & w1 & w2 & _ & _ & _ & E).
  rewrite (mvmul_ext K _ _ _ _ E). rewrite M_invMu by (assumption || lia).
  rewrite <- (Tmu_Mu a u) by (assumption || lia). unfold mvmul at 1 3. apply sum_ext. intros j Hj.
  destruct (Nat.ltb_spec j (al_nc a)) as [L|L]; [reflexivity|].
  rewrite (proj2 (proj2 HF) (vopp u) i j) by lia. ring.
Qed.

(* Equal relaxation parameters (0 for the conserved moments, c for the others). *)
Definition single_relaxation a (c : vec K -> K) : Prop :=
  (forall m i, (i < al_nc a)%nat -> al_s a m i = 0%K) /\
  (forall m i, (al_nc a <= i < al_n a)%nat -> al_s a m i = c m).

Lemma relaxation_rel_spec a rel v : al_relvel a = Some rel -> eq_ok K a ->
  (forall m i, (i < al_nc a)%nat -> al_s a m i = 0%K) ->
  let w := run (relaxation_local a) v in
  agree K (al_n a) (vm w) (fun k =>
    ((1 - al_s a (vm v) k) * vm v k + al_s a (vm v) k * mvmul (al_n a) (al_Tu a (vu v)) (al_eq a (vm v)) k)%K).
Proof.
  intros R (Hn & He & Hs & Hc) H0. cbn zeta. unfold relaxation_local. rewrite R, run_TM. cbn [vm vu].
  intros i Hi. rewrite seqf_sim with (lo := 0%nat) (hi := al_n a); [reflexivity| |lia].
  intros k m' Hk Ho Hl.
  assert (C : agree K (al_nc a) m' (vm v)).
  { intros j Hj. destruct (Nat.lt_ge_cases j k) as [L|L].
    - rewrite Hl by lia. rewrite H0 by exact Hj. ring.
    - apply Ho. lia. }
  rewrite (Hs _ _ C k) by lia. rewrite (Ho k) by lia.
  rewrite (mvmul_ext K _ _ _ _ (He _ _ C)). reflexivity.
Qed.

Lemma pull_rel_single a rel c v : al_relvel a = Some rel -> al_source a = [] -> eq_ok K a ->
  frame_ok a -> single_relaxation a c ->
  agree K (al_n a) (vfn (run (pull_local a) v)) (vfn (run (pull_local (fixed_frame a)) v)).
Proof.
  intros R HS He HF [H0 Hc] k Hk. pose proof He as (Hn & Hee & Hes & Hid).
  assert (He' : eq_ok K (fixed_frame a)) by exact He.
  assert (Hs' : source_ok K (fixed_frame a)).
  { intros k' g m m' HI. cbn in HI. rewrite HS in HI. destruct HI. }
  pose proof (pull_spec K (fixed_frame a) v eq_refl He' Hs' k Hk) as E0. rewrite E0. clear E0.
  destruct (pull_rel_spec a rel v R HS Hn) as (u & w1 & w2 & W1 & W2 & U & E). rewrite (E k Hk).
  unfold collide. cbn [fixed_frame al_n al_M al_invM].
  unfold al_invMu. rewrite <- mvmul_assoc. apply mvmul_ext. intros i Hi.
  set (m0 := mvmul (al_n a) (al_M a) (vf v)).
  rewrite (half_source_none K (fixed_frame a) _ HS i Hi).
  assert (A : agree K (al_n a) (half_source K (fixed_frame a) m0) m0) by exact (half_source_none K (fixed_frame a) m0 HS).
  rewrite (relax_agree K (fixed_frame a) _ _ He' A i Hi).
  unfold relax_formula. cbn [fixed_frame al_s al_eq].
  destruct (f2m_rel_spec a rel vf v R Hn) as (_ & _ & A1 & A2); [reflexivity|]. rewrite <- W1 in A1, A2. rewrite <- U in A2.
  assert (C : agree K (al_nc a) (vm w1) m0) by (intros j Hj; rewrite A1 by exact Hj; reflexivity).
  pose proof (relaxation_rel_spec a rel w1 R He H0) as A3. rewrite <- W2, <- U in A3.
  (* the deviation in the moving frame *)
  set (dl := fun j => (c m0 * (al_eq a m0 j - m0 j))%K).
  assert (Z0 : forall j, (j < al_nc a)%nat -> mvmul (al_n a) (al_Tu a u) dl j = 0%K).
  { intros j Hj. apply sum_zero. intros l Hl. destruct (Nat.lt_ge_cases l (al_nc a)) as [L|L].
    - unfold dl. rewrite Hid by exact L. ring.
    - rewrite (proj2 (proj2 HF) u j l) by lia. ring. }
  assert (E2 : forall j, (j < al_n a)%nat ->
    (if (j <? al_nc a)%nat then mvmul (al_n a) (al_Mu a u) (vf v) j else vm w2 j) =
    (mvmul (al_n a) (al_Mu a u) (vf v) j + mvmul (al_n a) (al_Tu a u) dl j)%K).
  { intros j Hj. destruct (Nat.ltb_spec j (al_nc a)) as [L|L]; [rewrite Z0 by exact L; ring|].
    rewrite (A3 j Hj). rewrite A2 by lia. rewrite (Hes _ _ C j Hj), Hc by lia.
    rewrite (mvmul_ext K _ _ _ _ (Hee _ _ C)).
    unfold dl. rewrite mvmul_scale.
    assert (EM : mvmul (al_n a) (al_Mu a u) (vf v) j = mvmul (al_n a) (al_Tu a u) m0 j).
    { unfold al_Mu, m0. rewrite mvmul_assoc. reflexivity. }
    assert (ED : mvmul (al_n a) (al_Tu a u) (fun j0 => (al_eq a m0 j0 - m0 j0)%K) j =
      (mvmul (al_n a) (al_Tu a u) (al_eq a m0) j - mvmul (al_n a) (al_Tu a u) m0 j)%K).
    { rewrite (mvmul_ext K _ _ _ (fun j0 => (al_eq a m0 j0 + (-(1)) * m0 j0)%K)) by (intros; ring).
      rewrite mvmul_add, mvmul_scale. ring. }
    rewrite ED, EM. ring. }
  rewrite (mvmul_ext K _ _ _ _ E2). rewrite mvmul_add, Tmu_Mu by assumption. fold m0.
  rewrite mvmul_assoc, mvmul_id; [|apply (proj1 (proj2 HF) u)|exact Hi].
  unfold dl. destruct (Nat.lt_ge_cases i (al_nc a)) as [L|L].
  - rewrite H0 by exact L. rewrite Hid by exact L. ring.
  - rewrite Hc by lia. reflexivity.
Qed.
End Frame.
