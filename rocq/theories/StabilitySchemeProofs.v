(* Dual numbers a + b eps (eps^2 = 0): a computation with dual numbers carries a value and
   its first variation.  The linearised time step is the variation of the kernel. *)
From Verif Require Import PyBase LinAlg AlgoModel AlgoProofs RelVelProofs KernelProofs StabilitySchemeModel.

Section Dual.
Variable K : ring.
Add Ring Kring_dual : (rth K).
Open Scope ring_scope'.

Lemma dual_th : ring_theory (R := K * K) (0%K, 0%K) (1%K, 0%K)
  (fun x y => (fst x + fst y, snd x + snd y)%K)
  (fun x y => (fst x * fst y, fst x * snd y + snd x * fst y)%K)
  (fun x y => (fst x - fst y, snd x - snd y)%K)
  (fun x => (- fst x, - snd x)%K) eq.
Proof. constructor; repeat intros []; cbn [fst snd]; f_equal; ring. Qed.
Definition dual : ring := mkRing (K * K) _ _ _ _ _ _ dual_th.
Definition re (x : dual) : K := fst x.
Definition im (x : dual) : K := snd x.
Definition real (x : K) : dual := (x, 0%K).

Lemma re_add (x y : dual) : re (x + y)%K = (re x + re y)%K. Proof. reflexivity. Qed.
Lemma im_add (x y : dual) : im (x + y)%K = (im x + im y)%K. Proof. reflexivity. Qed.
Lemma re_sub (x y : dual) : re (x - y)%K = (re x - re y)%K. Proof. reflexivity. Qed.
Lemma im_sub (x y : dual) : im (x - y)%K = (im x - im y)%K. Proof. reflexivity. Qed.
Lemma re_mul (x y : dual) : re (x * y)%K = (re x * re y)%K. Proof. reflexivity. Qed.
Lemma im_mul (x y : dual) : im (x * y)%K = (re x * im y + im x * re y)%K. Proof. reflexivity. Qed.
Lemma dual_eq (x y : dual) : re x = re y -> im x = im y -> x = y.
Proof. destruct x, y. cbn. intros -> ->. reflexivity. Qed.
Lemma re_sum n (g : nat -> dual) : re (sum n g) = sum n (fun i => re (g i)).
Proof. induction n as [|n IH]; [reflexivity|]. rewrite !sum_S, re_add, IH. reflexivity. Qed.
Lemma im_sum n (g : nat -> dual) : im (sum n g) = sum n (fun i => im (g i)).
Proof. induction n as [|n IH]; [reflexivity|]. rewrite !sum_S, im_add, IH. reflexivity. Qed.

(* a matrix whose value is A (its variation matters only when it multiplies a nonzero value) *)
Lemma re_mvmul n (B : mat dual) (A : mat K) f i :
  (forall j, (j < n)%nat -> re (B i j) = A i j) -> re (mvmul n B f i) = mvmul n A (fun j => re (f j)) i.
Proof. intros H. unfold mvmul. rewrite re_sum. apply sum_ext. intros j Hj. rewrite re_mul, H by exact Hj. reflexivity. Qed.
Lemma im_mvmul_real n (B : mat dual) (A : mat K) f i :
  (forall j, (j < n)%nat -> B i j = real (A i j)) -> im (mvmul n B f i) = mvmul n A (fun j => im (f j)) i.
Proof.
  intros H. unfold mvmul. rewrite im_sum. apply sum_ext. intros j Hj. rewrite im_mul, H by exact Hj.
  unfold real. cbn [re im fst snd]. ring.
Qed.
Lemma im_mvmul_small n (B : mat dual) (A : mat K) (f : vec dual) i :
  (forall j, (j < n)%nat -> re (B i j) = A i j) -> (forall j, (j < n)%nat -> re (f j) = 0%K) ->
  im (mvmul n B f i) = mvmul n A (fun j => im (f j)) i.
Proof.
  intros H Hf. unfold mvmul. rewrite im_sum. apply sum_ext. intros j Hj. rewrite im_mul, H, Hf by exact Hj. ring.
Qed.

Lemma sum_low n m (g : nat -> K) : (m <= n)%nat -> sum n (fun j => if (j <? m)%nat then g j else 0%K) = sum m g.
Proof.
  intros H. replace n with (m + (n - m))%nat by lia. rewrite sum_split.
  rewrite (sum_ext K m _ g). 2:{ intros i Hi. apply Nat.ltb_lt in Hi. rewrite Hi. reflexivity. }
  rewrite (sum_zero K (n - m)); [ring|]. intros i Hi. destruct (Nat.ltb_spec (m + i) m); [lia|reflexivity].
Qed.
Lemma relax_mat_m_apply n nc (s : vec K) (J : mat K) (d : vec K) i : (nc <= n)%nat -> (i < n)%nat ->
  mvmul n (relax_mat_m nc s J) d i = (d i + s i * (sum nc (fun j => J i j * d j) - d i))%K.
Proof.
  intros Hn Hi. unfold mvmul, relax_mat_m.
  rewrite (sum_ext K n _ (fun j => (idm i j * d j + ((- s i) * (idm i j * d j) + s i * (if (j <? nc)%nat then J i j * d j else 0)))%K)).
  2:{ intros j Hj. unfold idm. destruct (Nat.eqb i j), (j <? nc)%nat; ring. }
  rewrite !sum_add, !sum_mul_l, sum_low by exact Hn.
  assert (E : sum n (fun j => idm i j * d j)%K = d i) by (apply (mvmul_id K n idm d i); [intros ? ? ? ?; reflexivity|exact Hi]).
  rewrite E. ring.
Qed.

(* The scheme with dual numbers: M and invM are constant, m0 = M f0 is its own equilibrium,
   J is the derivative of the equilibrium with respect to the conserved moments and s the
   relaxation parameters at m0. *)
Definition linearised (a : algo dual) (M invM : mat K) (s : vec K) (J : mat K) (f0 : vec K) : Prop :=
  let n := al_n a in
  let m0 := mvmul n M f0 in
  inverse n M invM /\
  (forall i j, (i < n)%nat -> (j < n)%nat -> al_M a i j = real (M i j) /\ al_invM a i j = real (invM i j)) /\
  (forall m, (forall j, (j < al_nc a)%nat -> re (m j) = m0 j) -> forall i, (i < n)%nat ->
     re (al_s a m i) = s i /\ re (al_eq a m i) = m0 i /\
     im (al_eq a m i) = sum (al_nc a) (fun j => J i j * im (m j))%K).
(* Tu, Tmu: the values of T(u) and T(-u) for the relative velocity of m0 *)
Definition linearised_frame (a : algo dual) (M : mat K) (Tu Tmu : mat K) (f0 : vec K) : Prop :=
  let n := al_n a in
  match al_relvel a with
  | None => False
  | Some rel => forall m u, (forall j, (j < al_nc a)%nat -> re (m j) = mvmul n M f0 j) ->
      (forall d, (d < al_dim a)%nat -> u d = rel m d) ->
      forall i j, (i < n)%nat -> (j < n)%nat -> re (al_Tu a u i j) = Tu i j /\ re (al_Tu a (vopp u) i j) = Tmu i j
  end.

Lemma linearised_fixed a M invM s J f0 f : al_relvel a = None -> al_source a = [] -> eq_ok dual a ->
  linearised a M invM s J f0 -> (forall k, (k < al_n a)%nat -> re (f k) = f0 k) ->
  forall k, (k < al_n a)%nat -> re (pull_fun dual a f k) = f0 k /\
    im (pull_fun dual a f k) = mvmul (al_n a) (relax_mat_f (al_n a) M invM (relax_mat (al_n a) (al_nc a) s J None)) (fun j => im (f j)) k.
Proof.
  intros R HS He (HI & HM & HL) Hf k Hk. set (n := al_n a) in *. cbv zeta in HL.
  rewrite (pull_fun_collide dual a f He (source_ok_nil dual a HS) R k Hk). unfold collide. fold n.
  set (m := mvmul n (al_M a) f).
  assert (Em : agree dual n (half_source dual a (relax_formula dual a (half_source dual a m))) (relax_formula dual a m)).
  { refine (agree_trans dual n _ _ _ (half_source_none dual a _ HS) _). apply relax_agree; [exact He|]. apply half_source_none. exact HS. }
  assert (m_re : forall i, (i < n)%nat -> re (m i) = mvmul n M f0 i).
  { intros i Hi. unfold m. rewrite (re_mvmul n _ M) by (intros j Hj; rewrite (proj1 (HM i j Hi Hj)); reflexivity).
    apply mvmul_ext. exact Hf. }
  assert (m_im : forall i, (i < n)%nat -> im (m i) = mvmul n M (fun j => im (f j)) i).
  { intros i Hi. unfold m. apply im_mvmul_real. intros j Hj. apply HM; assumption. }
  destruct He as (Hn & _). fold n in Hn.
  assert (L := HL m (fun j Hj => m_re j ltac:(lia))).
  rewrite (mvmul_ext dual n _ _ _ Em).
  split.
  - rewrite (re_mvmul n _ invM) by (intros j Hj; rewrite (proj2 (HM k j Hk Hj)); reflexivity).
    rewrite (mvmul_ext K n _ _ (mvmul n M f0)); [apply mvmul_inverse; [apply HI|exact Hk]|].
    intros i Hi. destruct (L i Hi) as (Ls & Le & _). unfold relax_formula.
    rewrite re_add, re_mul, re_sub, Le, m_re by exact Hi. ring.
  - rewrite (im_mvmul_real n _ invM) by (intros j Hj; apply HM; assumption).
    unfold relax_mat_f. rewrite <- mvmul_assoc, <- mvmul_assoc. apply mvmul_ext. intros i Hi.
    cbn [relax_mat]. rewrite relax_mat_m_apply by (exact Hn || exact Hi).
    destruct (L i Hi) as (Ls & Le & Li). unfold relax_formula.
    rewrite im_add, im_mul, im_sub, re_sub, Le, Li, Ls, m_re, m_im by exact Hi.
    rewrite (sum_ext K (al_nc a) _ (fun j => J i j * mvmul n M (fun j => im (f j)) j)%K) by (intros j Hj; rewrite m_im by lia; reflexivity).
    ring.
Qed.

Lemma f2m_rel_u a rel src v : al_relvel a = Some rel ->
  (forall w m u, src (mkView (vf w) (vfn w) m u) = src w) ->
  exists m1, agree dual (al_nc a) m1 (mvmul (al_n a) (al_M a) (src v)) /\
    forall d, (d < al_dim a)%nat -> vu (run (f2m_local a src) v) d = rel m1 d.
Proof.
  intros R Hsrc. unfold f2m_local. rewrite R, !run_app, run_TM, run_TU, run_TM. cbn [vf vfn vm vu].
  assert (Hsrc' : forall m u, src (mkView (vf v) (vfn v) m u) = src v) by (intros; apply Hsrc).
  eexists. split; [|intros d Hd; rewrite seqf_sim with (lo := 0%nat) (hi := al_dim a); [reflexivity|reflexivity|lia]].
  intros i Hi. rewrite seqf_sim with (lo := 0%nat) (hi := al_nc a); [rewrite Hsrc'; reflexivity|intros; rewrite !Hsrc'; reflexivity|lia].
Qed.

Lemma linearised_moving a M invM s J Tu Tmu f0 f : al_source a = [] -> eq_ok dual a -> frame_ok dual a ->
  (forall m i, (i < al_nc a)%nat -> al_s a m i = 0%K) ->
  linearised a M invM s J f0 -> linearised_frame a M Tu Tmu f0 ->
  (forall k, (k < al_n a)%nat -> re (f k) = f0 k) ->
  let dm := mvmul (al_n a) M (fun j => im (f j)) in
  forall k, (k < al_n a)%nat -> re (pull_fun dual a f k) = f0 k /\
    im (pull_fun dual a f k) = mvmul (al_n a) invM (fun i => (dm i + mvmul (al_n a) Tmu (fun j => s j *
      mvmul (al_n a) Tu (fun l => sum (al_nc a) (fun h => J l h * dm h) - dm l) j) i)%K) k.
Proof.
  intros HS He HF H0 (HI & HM & HL) HT Hf dm k Hk. unfold linearised_frame in HT.
  destruct (al_relvel a) as [rel|] eqn:R; [|destruct HT]. cbv zeta in HL. set (n := al_n a) in *.
  pose proof He as (Hn & Hee & Hes & Hid).
  unfold pull_fun. destruct (pull_rel_spec dual a rel (fresh dual f) R HS Hn) as (u & w1 & w2 & W1 & W2 & U & E).
  rewrite (E k Hk). clear E. fold n. change (vf (fresh dual f)) with f.
  destruct (f2m_rel_spec dual a rel vf (fresh dual f) R Hn) as (_ & _ & A1 & A2); [reflexivity|]. rewrite <- W1 in A1, A2.
  rewrite <- U in A2. change (vf (fresh dual f)) with f in A1, A2.
  destruct (f2m_rel_u a rel vf (fresh dual f) R) as (m1 & M1 & U1); [reflexivity|]. rewrite <- W1, <- U in U1.
  change (vf (fresh dual f)) with f in M1.
  pose proof (relaxation_rel_spec dual a rel w1 R He H0) as A3. rewrite <- W2, <- U in A3.
  set (m := mvmul n (al_M a) f).
  assert (m_re : forall i, (i < n)%nat -> re (m i) = mvmul n M f0 i).
  { intros i Hi. unfold m. rewrite (re_mvmul n _ M) by (intros j Hj; rewrite (proj1 (HM i j Hi Hj)); reflexivity).
    apply mvmul_ext. exact Hf. }
  assert (m_im : forall i, (i < n)%nat -> im (m i) = dm i).
  { intros i Hi. unfold m. apply im_mvmul_real. intros j Hj. apply HM; assumption. }
  assert (L := HL m (fun j Hj => m_re j ltac:(lia))).
  assert (HT' := HT m1 u (fun j Hj => eq_trans (f_equal re (M1 j Hj)) (m_re j ltac:(lia))) U1).
  assert (C : agree dual (al_nc a) (vm w1) m) by (intros j Hj; rewrite A1 by exact Hj; reflexivity).
  set (D := fun j => (al_eq a m j - m j)%K : dual).
  assert (D_re : forall i, (i < n)%nat -> re (D i) = 0%K).
  { intros i Hi. unfold D. rewrite re_sub, m_re by exact Hi. rewrite (proj1 (proj2 (L i Hi))). ring. }
  assert (D_im : forall i, (i < n)%nat -> im (D i) = (sum (al_nc a) (fun h => J i h * dm h) - dm i)%K).
  { intros i Hi. unfold D. rewrite im_sub, m_im by exact Hi. rewrite (proj2 (proj2 (L i Hi))). f_equal.
    apply sum_ext. intros h Hh. rewrite m_im by lia. reflexivity. }
  set (S := fun j => (al_s a m j * mvmul n (al_Tu a u) D j)%K : dual).
  assert (E2 : forall j, (j < n)%nat -> (if (j <? al_nc a)%nat then mvmul n (al_Mu a u) f j else vm w2 j) = (mvmul n (al_Tu a u) m j + S j)%K).
  { intros j Hj.
    assert (EM : mvmul n (al_Mu a u) f j = mvmul n (al_Tu a u) m j).
    { unfold al_Mu, m. rewrite mvmul_assoc. reflexivity. }
    destruct (Nat.ltb_spec j (al_nc a)) as [Lj|Lj].
    - unfold S. rewrite H0 by exact Lj. rewrite EM. apply dual_eq; rewrite ?re_add, ?im_add, ?re_mul, ?im_mul; cbn [re im r0 rar dual fst snd]; ring.
    - rewrite (A3 j Hj). rewrite A2 by lia. rewrite (Hes _ _ C j Hj). rewrite (mvmul_ext dual _ _ _ _ (Hee _ _ C)). fold n.
      rewrite EM. unfold S.
      assert (ED : mvmul n (al_Tu a u) D j = (mvmul n (al_Tu a u) (al_eq a m) j - mvmul n (al_Tu a u) m j)%K).
      { rewrite (mvmul_ext dual _ _ _ (fun j0 => (al_eq a m j0 + (-(1)) * m j0)%K)).
        - rewrite mvmul_add, mvmul_scale. apply dual_eq; rewrite ?re_add, ?im_add, ?re_sub, ?im_sub, ?re_mul, ?im_mul; cbn [re im ropp r1 rar dual fst snd]; ring.
        - intros i _. unfold D. apply dual_eq; rewrite ?re_add, ?im_add, ?re_sub, ?im_sub, ?re_mul, ?im_mul; cbn [re im ropp r1 rar dual fst snd]; ring. }
      rewrite ED. apply dual_eq; rewrite ?re_add, ?im_add, ?re_sub, ?im_sub, ?re_mul, ?im_mul, ?re_add, ?im_add, ?re_sub, ?im_sub; cbn [re im ropp r1 rar dual fst snd]; ring. }
  rewrite (mvmul_ext dual _ _ _ _ E2). unfold al_invMu. fold n. rewrite <- mvmul_assoc.
  rewrite (mvmul_ext dual _ _ _ (fun i => (m i + mvmul n (al_Tu a (vopp u)) S i)%K)).
  2:{ intros i Hi. rewrite mvmul_add. f_equal. apply mvmul_inverse; [apply (proj1 (proj2 HF) u)|exact Hi]. }
  assert (TD_re : forall j, (j < n)%nat -> re (mvmul n (al_Tu a u) D j) = 0%K).
  { intros j Hj. rewrite (re_mvmul n _ Tu) by (intros l Hl; apply HT'; assumption). apply sum_zero. intros l Hl. rewrite D_re by exact Hl. ring. }
  assert (S_re : forall j, (j < n)%nat -> re (S j) = 0%K).
  { intros j Hj. unfold S. rewrite re_mul, TD_re by exact Hj. ring. }
  assert (S_im : forall j, (j < n)%nat -> im (S j) = (s j * mvmul n Tu (fun l => sum (al_nc a) (fun h => J l h * dm h) - dm l) j)%K).
  { intros j Hj. unfold S. rewrite im_mul, TD_re by exact Hj.
    rewrite (im_mvmul_small n _ Tu) by (intros l Hl; first [apply HT'; assumption|apply D_re; exact Hl]).
    rewrite (proj1 (L j Hj)). rewrite (mvmul_ext K n Tu _ _ D_im). ring. }
  split.
  - rewrite (re_mvmul n _ invM) by (intros j Hj; rewrite (proj2 (HM k j Hk Hj)); reflexivity).
    rewrite (mvmul_ext K n _ _ (mvmul n M f0)); [apply mvmul_inverse; [apply HI|exact Hk]|].
    intros i Hi. rewrite re_add, m_re by exact Hi. rewrite (re_mvmul n _ Tmu) by (intros l Hl; apply HT'; assumption).
    unfold mvmul at 2. rewrite sum_zero; [ring|]. intros l Hl. rewrite S_re by exact Hl. ring.
  - rewrite (im_mvmul_real n _ invM) by (intros j Hj; apply HM; assumption).
    apply mvmul_ext. intros i Hi. rewrite im_add, m_im by exact Hi. f_equal.
    rewrite (im_mvmul_small n _ Tmu); [apply mvmul_ext; exact S_im|intros l Hl; apply HT'; assumption|exact S_re].
Qed.

(* the matrix of the code, applied to a variation of the distributions *)
Lemma moving_matrix n nc (M invM : mat K) (s : vec K) (J Tu Tmu : mat K) (df : vec K) k : (nc <= n)%nat -> inverse n Tu Tmu -> (k < n)%nat ->
  let dm := mvmul n M df in
  mvmul n (relax_mat_f n M invM (relax_mat n nc s J (Some (Tu, Tmu)))) df k =
  mvmul n invM (fun i => (dm i + mvmul n Tmu (fun j => s j *
     mvmul n Tu (fun l => sum nc (fun h => J l h * mvmul n Tu dm h) - dm l) j) i)%K) k.
Proof.
  intros Hn HI Hk dm. unfold relax_mat_f. rewrite <- !mvmul_assoc. apply mvmul_ext. intros i Hi. cbn [relax_mat].
  rewrite <- !mvmul_assoc.
  rewrite (mvmul_ext K n Tmu _ (fun j => (mvmul n Tu dm j + s j * mvmul n Tu (fun l => sum nc (fun h => J l h * mvmul n Tu dm h) - dm l)%K j)%K)).
  - rewrite mvmul_add. f_equal. apply mvmul_inverse; [apply HI|exact Hi].
  - intros j Hj. rewrite relax_mat_m_apply by assumption. fold dm.
    f_equal. f_equal. rewrite (mvmul_ext K n Tu (fun l => (sum nc (fun h => J l h * mvmul n Tu dm h) - dm l)%K) (fun l => (mvmul n (fun l h => if (h <? nc)%nat then J l h else 0) (mvmul n Tu dm) l + (-(1)) * dm l)%K)).
    + rewrite mvmul_add, mvmul_scale, mvmul_assoc.
      assert (X : sum nc (fun h => mmul n Tu J j h * mvmul n Tu dm h)%K = mvmul n (mmul n Tu (fun l h => if (h <? nc)%nat then J l h else 0%K)) (mvmul n Tu dm) j).
      { unfold mvmul at 2. rewrite <- (sum_low n nc) by exact Hn. apply sum_ext. intros h Hh. unfold mmul.
        destruct (h <? nc)%nat; [reflexivity|]. rewrite sum_zero; [ring|]. intros; ring. }
      rewrite X. ring.
    + intros l Hl.
      assert (X : sum nc (fun h => J l h * mvmul n Tu dm h)%K = mvmul n (fun l h => if (h <? nc)%nat then J l h else 0%K) (mvmul n Tu dm) l).
      { unfold mvmul at 2. rewrite <- (sum_low n nc) by exact Hn. apply sum_ext. intros h Hh. destruct (h <? nc)%nat; ring. }
      rewrite X. ring.
Qed.
End Dual.
