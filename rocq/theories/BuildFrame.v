(* C64 with a relative velocity: the moments relax in the frame which moves with the velocity. *)
From Verif Require Import PyBase VelocityModel GridModel StorageModel ExchangeProofs LinAlg AlgoModel AlgoProofs RelVelProofs KernelProofs GlobalModel GlobalProofs TorusProofs AlgoProps GlobalProps GenModel GenProofs GenProps StepGenModel StepGenProofs StepGenProps SchemeModel SchemeProofs SchemeProps BuildModel BuildProofs BuildProps.
Require Import Lia.

Section Algo.
Variable K : ring.
Add Ring Kring : (rth K).
Lemma f2m_velocity (a : algo K) rel src v : al_relvel a = Some rel -> rel_ok K a -> (al_nc a <= al_n a)%nat ->
  (forall w m u, src (mkView (vf w) (vfn w) m u) = src w) ->
  agree K (al_dim a) (vu (run (f2m_local a src) v)) (rel (mvmul (al_n a) (al_M a) (src v))).
Proof.
  intros R [HR _] Hn Hsrc j Hj. unfold f2m_local. rewrite R, !run_app, run_TM, run_TU, run_TM. cbn [vf vfn vm vu].
  rewrite seqf_sim with (lo := 0%nat) (hi := al_dim a); [|intros; reflexivity|lia].
  apply (HR rel); [exact R| |exact Hj]. intros i Hi. rewrite seqf_sim with (lo := 0%nat) (hi := al_nc a); [now rewrite Hsrc|intros; now rewrite !Hsrc|lia].
Qed.
Lemma moving_algo (a : algo K) rel f : al_relvel a = Some rel -> al_source a = [] -> eq_ok K a -> rel_ok K a ->
  inverse (al_n a) (al_M a) (al_invM a) -> (forall u, is_id (al_n a) (mmul (al_n a) (al_Tu a u) (al_Tu a (vopp u)))) ->
  (forall m i, (i < al_nc a)%nat -> al_s a m i = 0%K) ->
  let m0 := mvmul (al_n a) (al_M a) f in let u := rel m0 in
  forall k, (k < al_n a)%nat -> mvmul (al_n a) (al_Mu a u) (pull_fun K a f) k =
    if (k <? al_nc a)%nat then mvmul (al_n a) (al_Mu a u) f k
    else ((1 - al_s a m0 k) * mvmul (al_n a) (al_Mu a u) f k + al_s a m0 k * mvmul (al_n a) (al_Tu a u) (al_eq a m0) k)%K.
Proof.
  intros R HS He HR HM HT H0 m0 u k Hk. pose proof He as (Hn & Hee & Hes & Hid). set (n := al_n a) in *.
  destruct (pull_rel_spec K a rel (KernelProofs.fresh K f) R HS Hn) as (u' & w1 & w2 & W1 & W2 & U & E). change (vf (KernelProofs.fresh K f)) with f in E.
  destruct (f2m_rel_spec K a rel vf (KernelProofs.fresh K f) R Hn) as (_ & _ & A1 & A2); [reflexivity|]. rewrite <- W1 in A1, A2. rewrite <- U in A2. change (vf (KernelProofs.fresh K f)) with f in A1, A2.
  pose proof (f2m_velocity a rel vf (KernelProofs.fresh K f) R HR Hn (fun _ _ _ => eq_refl)) as AU. rewrite <- W1, <- U in AU. change (vf (KernelProofs.fresh K f)) with f in AU. fold m0 in AU. fold u in AU.
  pose proof (relaxation_rel_spec K a rel w1 R He H0) as A3. rewrite <- W2, <- U in A3.
  assert (C : agree K (al_nc a) (vm w1) m0) by (intros j Hj; rewrite A1 by exact Hj; reflexivity).
  assert (MU : forall g i, (i < n)%nat -> mvmul n (al_Mu a u') g i = mvmul n (al_Mu a u) g i).
  { intros g i Hi. apply sum_ext. intros j Hj. f_equal. apply (Mu_cong K a u' u i j HR AU Hi). }
  set (ms := fun i => if (i <? al_nc a)%nat then mvmul n (al_Mu a u') f i else vm w2 i) in *.
  assert (EF : mvmul n (al_Mu a u) (pull_fun K a f) k = ms k).
  { rewrite <- MU by exact Hk. unfold al_Mu. fold n. rewrite <- mvmul_assoc.
    rewrite (mvmul_ext K n (al_Tu a u') _ (mvmul n (al_Tu a (vopp u')) ms)).
    - now apply mvmul_inverse.
    - intros i Hi. rewrite (mvmul_ext K n (al_M a) (pull_fun K a f) (mvmul n (al_invM a) (mvmul n (al_Tu a (vopp u')) ms))).
      + apply mvmul_inverse; [apply HM|exact Hi].
      + intros j Hj. unfold pull_fun. rewrite (E j Hj). unfold al_invMu. fold n. now rewrite <- mvmul_assoc. }
  rewrite EF. unfold ms. destruct (Nat.ltb_spec k (al_nc a)) as [L|L]; [now apply MU|].
  rewrite (A3 k Hk), A2 by (split; assumption). rewrite (Hes _ _ C k Hk). rewrite MU by exact Hk. f_equal. f_equal.
  apply sum_ext. intros j Hj. rewrite (Hee _ _ C j Hj). f_equal. now apply (proj2 HR u' u k j AU Hk Hj).
Qed.
End Algo.

Section Blocks.
Variable K : ring.
Add Ring Kring2 : (rth K).
Definition boff (Bs : list (nat * mat K)) (b : nat) : nat := fold_right Nat.add 0%nat (firstn b (map fst Bs)).
Lemma boff_S B Bs b : boff (B :: Bs) (S b) = (fst B + boff Bs b)%nat.
Proof. reflexivity. Qed.
Lemma assemble_brow (D : mat K) (f : vec K) Bs b m B i : nth_error Bs b = Some (m, B) -> (i < m)%nat ->
  mvmul (bsize K Bs) (assemble D Bs) f (boff Bs b + i)%nat = sum m (fun j => (B i j * f (boff Bs b + j)%nat)%K).
Proof.
  revert b f. induction Bs as [|[n0 B0] Bs IH]; intros [|b] f H Hi; try discriminate; cbn in H.
  - injection H as -> ->. unfold mvmul, bsize. cbn [map fst total fold_right]. rewrite sum_split. rewrite (sum_zero K (fold_right _ _ _)).
    + rewrite (sum_ext K m _ (fun j => (B i j * f (0 + j)%nat)%K)); [unfold boff; cbn; ring|].
      intros j Hj. unfold boff. cbn [firstn map fold_right assemble Nat.add]. apply Nat.ltb_lt in Hi, Hj. now rewrite Hi, Hj.
    + intros j Hj. unfold boff. cbn [firstn map fold_right assemble Nat.add]. pose proof Hi as Hi'. apply Nat.ltb_lt in Hi. rewrite Hi.
      destruct (Nat.ltb_spec (m + j) m); [lia|]. ring.
  - unfold mvmul, bsize. cbn [map fst total fold_right]. rewrite sum_split. rewrite (sum_zero K n0).
    + rewrite (sum_ext K m _ (fun j => (B i j * (fun q => f (n0 + q)%nat) (boff Bs b + j)%nat)%K)).
      * rewrite <- (IH b (fun q => f (n0 + q)%nat) H Hi). unfold mvmul, bsize, total.
        rewrite (sum_ext K (fold_right Nat.add 0%nat (map fst Bs)) _ (fun j => (assemble D Bs (boff Bs b + i) j * f (n0 + j)%nat)%K)); [ring|].
        intros j Hj. rewrite boff_S. cbn [fst assemble]. destruct (Nat.ltb_spec (n0 + boff Bs b + i) n0); [lia|].
        destruct (Nat.ltb_spec (n0 + j) n0); [lia|]. do 2 f_equal; lia.
      * intros j Hj. rewrite boff_S. cbn [fst]. now rewrite Nat.add_assoc.
    + intros j Hj. rewrite boff_S. cbn [fst assemble]. destruct (Nat.ltb_spec (n0 + boff Bs b + i) n0); [lia|].
      destruct (Nat.ltb_spec j n0); [|lia]. ring.
Qed.

(* ---- the matrix of the change of frame ---- *)
Definition pol (d : sdict K) (i : nat) (x : point K) : K := teval K (coord K x) (nth i (sd_P K d) (Num 0%K)).
Definition vl (d : sdict K) (j : nat) : point K := nth j (sd_v K d) [].
Definition ulist (dim : nat) (u : vec K) : point K := map u (seq 0 dim).
Fixpoint fb (dim : nat) (u : vec K) (ds : list (sdict K)) (Cs : list (nat * mat K)) : list (nat * mat K) :=
  match ds, Cs with
  | d :: t, (_, C) :: Cs' => (nv K d, frame K (nv K d) (pol d) (vl d) C (ulist dim u)) :: fb dim u t Cs'
  | _, _ => []
  end.
Lemma teval_subst (u : vec K) s t : teval K u (tsubst K s t) = teval K (fun c => teval K u (s c)) t.
Proof. induction t; cbn; congruence. Qed.
Lemma shift_nth_pt dim (u : vec K) (x : point K) c : length x = dim -> (c < dim)%nat -> nth c (shift_point (ulist dim u) x) 0%K = (nth c x 0 - u c)%K.
Proof.
  intros L Hc. unfold shift_point, ulist. rewrite (nth_indep _ 0%K (0 - u 0%nat)%K) by (rewrite map_length, combine_length, map_length, seq_length; lia).
  change (0 - u 0%nat)%K with ((fun p : K * K => (fst p - snd p)%K) (0%K, u 0%nat)). rewrite map_nth. rewrite combine_nth by (now rewrite map_length, seq_length). cbn.
  f_equal. rewrite map_nth. now rewrite seq_nth.
Qed.
Lemma frame_entry dim (u : vec K) d C i j : (forall t, In t (sd_P K d) -> below K dim t) -> (forall x, In x (sd_v K d) -> length x = dim) ->
  teval K u (tsum K (nv K d) (fun l => tmul K (tsubst K (fun c => tminus K (Num (coord K (nth l (sd_v K d) []) c)) (Var c)) (nth i (sd_P K d) (Num 0%K))) (Num (C l j)))) =
  frame K (nv K d) (pol d) (vl d) C (ulist dim u) i j.
Proof.
  intros HP HV. rewrite tsum_eval. unfold frame, mmul. apply sum_ext. intros l Hl. cbn. f_equal. rewrite teval_subst. unfold rel_matrix, pol.
  apply teval_ext. intros c Hc. cbn. unfold coord, vl. assert (Lc : (c < dim)%nat) by (revert c Hc; apply (nth_in_or (below K dim)); [intros c []|exact HP]).
  rewrite (shift_nth_pt dim); [reflexivity| |exact Lc]. apply HV. now apply nth_In.
Qed.
Lemma translation_eval dim (u : vec K) ds Cs pre : (forall d t, In d ds -> In t (sd_P K d) -> below K dim t) -> (forall d x, In d ds -> In x (sd_v K d) -> length x = dim) ->
  Forall (fun d => length (sd_P K d) = nv K d) ds -> forall r c,
  teval K u (assemble_terms K (rel_blocks K (pre ++ concat (map (sd_P K) ds)) (length pre) ds Cs) r c) = assemble idm (fb dim u ds Cs) r c.
Proof.
  intros HP HV HF. revert pre Cs. induction ds as [|d ds IH]; intros pre Cs r c; [reflexivity|]. inversion HF as [|? ? L HF']; subst. destruct Cs as [|[m C] Cs]; [reflexivity|].
  cbn [rel_blocks assemble_terms fb assemble map concat].
  assert (ES : slice (length pre) (nv K d) (pre ++ sd_P K d ++ concat (map (sd_P K) ds)) = sd_P K d).
  { unfold slice. rewrite skipn_app, skipn_all, Nat.sub_diag. cbn. rewrite firstn_app, <- L, firstn_all, Nat.sub_diag. cbn. apply app_nil_r. }
  rewrite ES. destruct (Nat.ltb r (nv K d)); destruct (Nat.ltb c (nv K d)); [|reflexivity|reflexivity|].
  - apply frame_entry; [intros t Ht; apply (HP d); [now left|exact Ht]|intros x Hx; apply (HV d); [now left|exact Hx]].
  - rewrite app_assoc. replace (length pre + nv K d)%nat with (length (pre ++ sd_P K d)) by (rewrite app_length; lia).
    apply IH; [intros d' t Hd; apply HP; now right|intros d' x Hd; apply HV; now right|exact HF'].
Qed.
Lemma fb_sizes dim u ds Cs : length Cs = length ds -> map fst (fb dim u ds Cs) = sizes K ds.
Proof. revert Cs. induction ds as [|d t IH]; intros [|[m C] Cs] L; try discriminate; [reflexivity|]. cbn in *. f_equal. apply IH. lia. Qed.
Lemma fb_nth dim u ds Cs b d : blocks_inverse K (map (fun d => (nv K d, pentry K d)) ds) Cs -> nth_error ds b = Some d ->
  exists C, inverse (nv K d) (pentry K d) C /\ nth_error (fb dim u ds Cs) b = Some (nv K d, frame K (nv K d) (pol d) (vl d) C (ulist dim u)).
Proof.
  revert b Cs. induction ds as [|d0 t IH]; intros [|b] Cs H Hb; try discriminate; cbn in H, Hb; inversion H as [|? [m C] ? Cs' [H1 H2] H3]; subst.
  - injection Hb as ->. exists C. split; [exact H2|reflexivity].
  - cbn. apply IH; assumption.
Qed.
End Blocks.

Section Moving.
Variable K : ring.
Add Ring Kring3 : (rth K).
Variable inv : nat -> mat K -> option (mat K).
Variable simp : term K -> term K.
Variables (l : list (term K)) (dim : nat) (hdt : K).
Variable ds : list (sdict K).
Variable a : salgo K.
Hypothesis HI : inv_spec K inv.
Hypothesis HSi : simp_spec K simp.
Hypothesis D : dict_ok K simp ds.
Hypothesis O : ordered K simp ds.
Hypothesis E : build K inv simp (Some l) dim hdt ds = Some a.
Hypothesis HR : forall j, closed K ds (nth j l (Num 0%K)).
Hypothesis HP : forall d t, In d ds -> In t (sd_P K d) -> below K dim t.
Hypothesis HV : forall d x, In d ds -> In x (sd_v K d) -> length x = dim.
(* moments given by polynomials, whose span in each scheme is invariant by translation *)
Hypothesis HG : forall d, In d ds -> sd_M K d = None.
Hypothesis HC : forall d, In d ds -> translation_closed K dim (nv K d) (pol K d).
Hypothesis HN : forall d, In d ds -> sd_src K d = [].
Notation n := (total (sizes K ds)).
Notation cs := (conserved K ds).
Notation al := (algo_of K a).

(* the moment i of the scheme b in the frame which moves with u *)
Definition momu (u f : vec K) (b i : nat) : K :=
  match nth_error ds b with
  | Some d => sum (nv K d) (fun j => (teval K (fun c => coord K (nth j (sd_v K d) []) c - u c)%K (nth i (sd_P K d) (Num 0%K)) * f (off K ds b + j)%nat)%K)
  | None => 0%K
  end.
(* the relative velocity *)
Definition vrel (val : vec K) : vec K := fun c => teval K val (nth c l (Num 0%K)).

Definition T (u : vec K) (i j : nat) : K := teval K u (translation K inv (Some l) ds i j).
Lemma T_blocks : exists Cs, blocks_inverse K (map (fun d => (nv K d, pentry K d)) ds) Cs /\ forall u i j, T u i j = assemble idm (fb K dim u ds Cs) i j.
Proof using HI D E HP HV HG.
  assert (G : given K ds = None).
  { clear - HG. unfold given. destruct ds as [|d [|d' t]]; try reflexivity. apply HG. now left. }
  assert (HF : Forall (fun d => length (sd_P K d) = nv K d) ds).
  { apply Forall_forall. intros d Hd. pose proof (proj1 (Forall_forall _ _) (do_sized K simp ds D) d Hd) as (_ & H & _). apply H. now apply HG. }
  pose proof E as E'. unfold build, before_swap, matrices in E'. rewrite G in E'.
  destruct (moment_blocks K inv ds) as [[Bs Cs]|] eqn:EB; [|discriminate]. clear E'. exists Cs.
  pose proof EB as EB'. unfold moment_blocks in EB'. destruct (elementary K _ 0 ds) as [Bs'|] eqn:E1; [|discriminate]. destruct (inverses K inv Bs') as [Cs'|] eqn:E2; [|discriminate]. injection EB' as -> ->.
  pose proof (slice_concat K ds [] HF Bs E1) as EBs. split.
  - rewrite <- EBs. now apply (inverses_ok K inv).
  - intros u i j. unfold T, translation. rewrite G, EB. exact (translation_eval K dim u ds Cs [] HP HV HF i j).
Qed.
Lemma ulist_opp u : ulist K dim (vopp u) = popp K (ulist K dim u).
Proof. unfold ulist, popp. now rewrite map_map. Qed.
Lemma pol_inverse d C : inverse (nv K d) (pentry K d) C -> inverse (nv K d) (moment_matrix (pol K d) (vl K d)) C.
Proof. exact (fun H => H). Qed.
Lemma T_inverse u : is_id n (mmul n (T u) (T (vopp u))).
Proof using HI D E HP HV HG HC.
  destruct T_blocks as (Cs & HB & HT). pose proof (Forall2_length _ _ _ HB) as L. rewrite map_length in L. symmetry in L.
  assert (B2 : blocks_inverse K (fb K dim u ds Cs) (fb K dim (vopp u) ds Cs)).
  { clear - HB HC HV. revert Cs HB. induction ds as [|d t IH]; intros [|[m C] Cs] HB; cbn in HB |- *; inversion HB as [|? ? ? ? [H1 H2] H3]; subst; [constructor|].
    constructor; [|apply IH; [intros d' x Hd; apply HV; now right|intros d' Hd; apply HC; now right|exact H3]]. cbn. split; [reflexivity|]. rewrite ulist_opp.
    apply (frame_inverse K dim (nv K d)); [|now apply pol_inverse|apply HC; now left|unfold ulist; now rewrite map_length, seq_length].
    intros j Hj. apply (HV d); [now left|]. now apply nth_In. }
  pose proof (assemble_inverse_idm K _ _ B2) as [A _]. unfold bsize in A. rewrite (fb_sizes K) in A by exact L.
  intros i j Hi Hj. rewrite <- (A i j Hi Hj). apply sum_ext. intros q _. now rewrite !HT.
Qed.
Lemma T_moments M u f b d i : (forall f b d i, nth_error ds b = Some d -> (i < nv K d)%nat -> mvmul n M f (off K ds b + i)%nat = mom K ds f b i) ->
  nth_error ds b = Some d -> (i < nv K d)%nat -> mvmul n (T u) (mvmul n M f) (off K ds b + i)%nat = momu u f b i.
Proof using HI D E HP HV HG.
  intros HM Hb Hi. destruct T_blocks as (Cs & HB & HT). pose proof (Forall2_length _ _ _ HB) as L. rewrite map_length in L. symmetry in L.
  destruct (fb_nth K dim u ds Cs b d HB Hb) as (C & HCi & EC).
  transitivity (mvmul n (assemble idm (fb K dim u ds Cs)) (mvmul n M f) (off K ds b + i)%nat); [apply sum_ext; intros q _; now rewrite HT|].
  pose proof (assemble_brow K idm (mvmul n M f) (fb K dim u ds Cs) b (nv K d) _ i EC Hi) as R.
  unfold bsize in R. rewrite (fb_sizes K) in R by exact L. replace (boff K (fb K dim u ds Cs) b) with (off K ds b) in R by (unfold boff, off; now rewrite (fb_sizes K)). rewrite R. clear R.
  rewrite (sum_ext K (nv K d) _ (fun j => (frame K (nv K d) (pol K d) (vl K d) C (ulist K dim u) i j * mvmul (nv K d) (pentry K d) (fun q => f (off K ds b + q)%nat) j)%K)).
  2:{ intros j Hj. rewrite (HM f b d j Hb Hj). unfold mom. rewrite Hb. f_equal. apply sum_ext. intros q _. unfold entry. now rewrite (HG d) by now apply nth_error_In in Hb. }
  change (sum (nv K d) _) with (mvmul (nv K d) (frame K (nv K d) (pol K d) (vl K d) C (ulist K dim u)) (mvmul (nv K d) (pentry K d) (fun q => f (off K ds b + q)%nat)) i) at 1.
  unfold frame. rewrite <- mvmul_assoc.
  rewrite (mvmul_ext K (nv K d) _ _ (fun q => f (off K ds b + q)%nat)) by (intros q Hq; exact (mvmul_inverse K (nv K d) C (pentry K d) (fun p => f (off K ds b + p)%nat) q (proj2 HCi) Hq)).
  unfold momu. rewrite Hb. apply sum_ext. intros j Hj. f_equal. unfold rel_matrix, pol. apply teval_ext. intros c Hc.
  assert (Hin : In d ds) by now apply nth_error_In in Hb.
  assert (Lc : (c < dim)%nat) by (revert c Hc; apply (nth_in_or (below K dim)); [intros c []|intros t Ht; now apply (HP d)]).
  unfold coord, vl. rewrite (shift_nth_pt K dim); [reflexivity| |exact Lc]. apply (HV d); [exact Hin|]. now apply nth_In.
Qed.

(* The distributions after the collision: in the frame which moves with the relative velocity the
   conserved moments do not change, the other ones relax to those of the distributions at equilibrium g. *)
Theorem C64_moving (f val g : vec K) :
  (forall c b i d, is_moment K simp ds c b i -> nth_error ds b = Some d -> forall w, teval K w (nth i (sd_s K d) (Num 0%K)) = 0%K) ->
  (forall c b i, is_moment K simp ds c b i -> val c = mom K ds f b i) ->
  (forall b d i, nth_error ds b = Some d -> (i < nv K d)%nat -> mom K ds g b i = eqv K d i val) ->
  let u := vrel val in let f' := pull_fun K al f in
  (forall c b i, is_moment K simp ds c b i -> momu u f' b i = momu u f b i) /\
  (forall b i d, nth_error ds b = Some d -> (i < nv K d)%nat -> (forall c, ~ is_moment K simp ds c b i) ->
     let s := teval K val (nth i (sd_s K d) (Num 0%K)) in
     momu u f' b i = ((1 - s) * momu u f b i + s * momu u g b i)%K).
Proof using HI HSi D O E HR HP HV HG HC HN.
  intros HS0 HVal Hg u f'.
  assert (SO : scheme_ok K a) by (apply (built_ok K inv simp (Some l) dim hdt ds a HI D O E); [intros l' j El; injection El as <-; apply HR|exact HP]).
  destruct (scheme_algo K a SO) as (He & Hs & HRel). destruct (build_built K simp inv hdt (Some l) dim ds a HI D E) as (M & N & sg & B).
  pose proof (do_distinct K simp ds D) as ND. pose proof (bu_n _ _ _ _ _ _ _ _ _ _ _ B) as En.
  set (m0 := mvmul n (sa_M K a) f).
  assert (M0 : forall f k, mvmul n (sa_M K a) f k = mvmul n M f (sg k)) by (intros h k; apply sum_ext; intros j _; now rewrite (bu_M _ _ _ _ _ _ _ _ _ _ _ B)).
  assert (V0 : values K cs m0 val).
  { intros r c Hr. destruct (bu_found _ _ _ _ _ _ _ _ _ _ _ B c (nth_error_In _ _ Hr)) as (b & i & Hm). rewrite (HVal c b i Hm). unfold m0. rewrite M0.
    rewrite (bu_front _ _ _ _ _ _ _ _ _ _ _ B O r c b i Hr Hm). destruct Hm as (d & H1 & _ & H3 & _). exact (bu_moments _ _ _ _ _ _ _ _ _ _ _ B f b d i H1 H3). }
  assert (IM : inverse (sa_n K a) (sa_M K a) (sa_invM K a)).
  { pose proof (bu_inverse _ _ _ _ _ _ _ _ _ _ _ B) as [I1 I2]. rewrite En. split; intros i j Hi Hj; unfold mmul.
    - rewrite (sum_ext K n _ (fun q => (M (sg i) q * N q (sg j))%K)) by (intros q _; now rewrite (bu_M _ _ _ _ _ _ _ _ _ _ _ B), (bu_invM _ _ _ _ _ _ _ _ _ _ _ B)).
      change (sum n _) with (mmul n M N (sg i) (sg j)). rewrite I1 by now apply (bu_lt _ _ _ _ _ _ _ _ _ _ _ B). unfold idm.
      destruct (Nat.eqb_spec i j) as [->|Ne]; [now rewrite Nat.eqb_refl|]. destruct (Nat.eqb_spec (sg i) (sg j)) as [Es|]; [|reflexivity]. apply (bu_inj _ _ _ _ _ _ _ _ _ _ _ B) in Es. congruence.
    - rewrite (sum_ext K n _ (fun q => (N i (sg q) * M (sg q) j)%K)) by (intros q _; now rewrite (bu_M _ _ _ _ _ _ _ _ _ _ _ B), (bu_invM _ _ _ _ _ _ _ _ _ _ _ B)).
      rewrite (bu_sum _ _ _ _ _ _ _ _ _ _ _ B (fun q => (N i q * M q j)%K)). exact (I2 i j Hi Hj). }
  assert (ET : forall u k q, al_Tu al u k q = T u (sg k) (sg q)) by (intros u0 k q; cbn; now rewrite (bu_Tu _ _ _ _ _ _ _ _ _ _ _ B)).
  assert (IT : forall u, is_id (sa_n K a) (mmul (sa_n K a) (al_Tu al u) (al_Tu al (vopp u)))).
  { intros u0 i j Hi Hj. rewrite En in Hi, Hj |- *. unfold mmul. rewrite (sum_ext K n _ (fun q => (fun p => T u0 (sg i) p * T (vopp u0) p (sg j))%K (sg q))) by (intros q _; now rewrite !ET).
    rewrite (bu_sum _ _ _ _ _ _ _ _ _ _ _ B (fun p => (T u0 (sg i) p * T (vopp u0) p (sg j))%K)).
    change (sum n _) with (mmul n (T u0) (T (vopp u0)) (sg i) (sg j)). rewrite T_inverse by now apply (bu_lt _ _ _ _ _ _ _ _ _ _ _ B). unfold idm.
    destruct (Nat.eqb_spec i j) as [->|Ne]; [now rewrite Nat.eqb_refl|]. destruct (Nat.eqb_spec (sg i) (sg j)) as [Es|]; [|reflexivity]. apply (bu_inj _ _ _ _ _ _ _ _ _ _ _ B) in Es. congruence. }
  assert (ES : sa_source K a = []).
  { pose proof (bu_src _ _ _ _ _ _ _ _ _ _ _ B) as Es. replace (concat (map (sd_src K) ds)) with (@nil (nat * term K)) in Es; [cbn in Es; congruence|].
    clear - HN. induction ds as [|d t IH]; [reflexivity|]. cbn. rewrite (HN d) by now left. apply IH. intros d' Hd. apply HN. now right. }
  assert (SZ : forall b d i, nth_error ds b = Some d -> (i < nv K d)%nat -> nth (off K ds b + i) (concat (map (sd_s K) ds)) (Num 0%K) = nth i (sd_s K d) (Num 0%K)).
  { intros b d i Hb Hi. apply (nth_concat K (sd_s K)); [|exact Hb|exact Hi]. apply Forall_forall. intros x Hx. exact (proj1 (proj1 (Forall_forall _ _) (do_sized K simp ds D) x Hx)). }
  assert (H0 : forall m i, (i < sa_nc K a)%nat -> al_s al m i = 0%K).
  { intros m r Hr. cbn. rewrite (bu_nc _ _ _ _ _ _ _ _ _ _ _ B) in Hr. destruct (nth_error cs r) as [c|] eqn:Ec; [|apply nth_error_None in Ec; lia].
    destruct (bu_found _ _ _ _ _ _ _ _ _ _ _ B c (nth_error_In _ _ Ec)) as (b & i & Hm). pose proof Hm as (d & H1 & _ & H3 & _).
    rewrite (bu_s _ _ _ _ _ _ _ _ _ _ _ B), (bu_front _ _ _ _ _ _ _ _ _ _ _ B O r c b i Ec Hm), (SZ b d i H1 H3).
    set (w := fun c => match odict_get (ranks cs) c with Some i => m i | None => m (n + c)%nat end).
    assert (W : forall t, teval K m (rename K n (ranks cs) t) = teval K w t).
    { clear. induction t; cbn; [reflexivity| |congruence|congruence]. unfold w. destruct (odict_get (ranks cs) i); reflexivity. }
    rewrite W. exact (HS0 c b i d Hm H1 w). }
  pose proof (moving_algo K al (fun m j => teval K m (rename K n (ranks cs) (nth j l (Num 0%K)))) f) as MA.
  cbn [al_relvel al_source al_n al_M al_invM al_nc algo_of] in MA. rewrite En in MA. fold m0 in MA.
  specialize (MA ltac:(rewrite (bu_rel _ _ _ _ _ _ _ _ _ _ _ B); reflexivity) ltac:(rewrite ES; reflexivity) He HRel).
  rewrite <- En in MA. specialize (MA IM IT H0). rewrite En in MA. cbv zeta in MA.
  set (uu := fun j => teval K m0 (rename K n (ranks cs) (nth j l (Num 0%K)))) in MA.
  assert (EU : forall j, uu j = u j) by (intros j; apply (rename_eval K n cs m0 val); [exact ND|exact V0|apply HR]).
  assert (TU : forall i j, T uu i j = T u i j) by (intros i j; apply teval_ext; intros c _; apply EU).
  (* the moments in the moving frame *)
  assert (MU : forall h k b d i, (k < n)%nat -> sg k = (off K ds b + i)%nat -> nth_error ds b = Some d -> (i < nv K d)%nat -> mvmul n (al_Mu al uu) h k = momu u h b i).
  { intros h k b d i Hk Ek H1 H3. unfold al_Mu. cbn [al_n al_M algo_of]. rewrite En, <- mvmul_assoc.
    unfold mvmul at 1. rewrite (sum_ext K n _ (fun q => (fun p => T u (sg k) p * mvmul n M h p)%K (sg q))) by (intros q _; now rewrite ET, M0, TU).
    rewrite (bu_sum _ _ _ _ _ _ _ _ _ _ _ B (fun p => (T u (sg k) p * mvmul n M h p)%K)). rewrite Ek.
    exact (T_moments M u h b d i (bu_moments _ _ _ _ _ _ _ _ _ _ _ B) H1 H3). }
  split.
  - intros c b i Hm. pose proof Hm as (d & H1 & H2 & H3 & _).
    assert (Hc : In c cs) by (apply in_concat; exists (sd_cons K d); split; [apply in_map; now apply nth_error_In in H1|exact H2]).
    destruct (In_nth_error _ _ Hc) as [r Hr]. assert (Hl : (r < length cs)%nat) by (apply nth_error_Some; congruence). pose proof (bu_le _ _ _ _ _ _ _ _ _ _ _ B) as Hle.
    pose proof (bu_front _ _ _ _ _ _ _ _ _ _ _ B O r c b i Hr Hm) as Ek. specialize (MA r ltac:(lia)).
    rewrite (bu_nc _ _ _ _ _ _ _ _ _ _ _ B) in MA. destruct (Nat.ltb_spec r (length cs)); [|lia].
    rewrite <- (MU f' r b d i ltac:(lia) Ek H1 H3), <- (MU f r b d i ltac:(lia) Ek H1 H3). exact MA.
  - intros b i d H1 H3 Hno s. pose proof (off_total K ds b d i H1 H3) as Hlt. destruct (bu_surj _ _ _ _ _ _ _ _ _ _ _ B _ Hlt) as (k & Hk & Es).
    assert (Hkc : (length cs <= k)%nat).
    { destruct (Nat.lt_ge_cases k (length cs)) as [L|L]; [|exact L]. exfalso. destruct (nth_error cs k) as [c|] eqn:Ec; [|apply nth_error_None in Ec; lia].
      destruct (bu_found _ _ _ _ _ _ _ _ _ _ _ B c (nth_error_In _ _ Ec)) as (b' & i' & Hm). pose proof (bu_front _ _ _ _ _ _ _ _ _ _ _ B O k c b' i' Ec Hm) as Ef.
      pose proof Hm as (d' & H1' & _ & H3' & _). destruct (off_inj K ds b b' d d' i i' H1 H1' H3 H3') as [-> ->]; [congruence|]. now apply (Hno c). }
    specialize (MA k Hk). rewrite (bu_nc _ _ _ _ _ _ _ _ _ _ _ B) in MA. destruct (Nat.ltb_spec k (length cs)); [lia|].
    rewrite (MU f k b d i Hk Es H1 H3) in MA. rewrite <- (MU f' k b d i Hk Es H1 H3). unfold f'. rewrite MA.
    assert (EsE : al_s al m0 k = s).
    { cbn. rewrite (bu_s _ _ _ _ _ _ _ _ _ _ _ B), Es, (SZ b d i H1 H3). apply rename_eval; [exact ND|exact V0|].
      rewrite <- (SZ b d i H1 H3). apply (closed_s K simp ds D). }
    assert (EG : mvmul n (al_Tu al uu) (al_eq al m0) k = mvmul n (al_Mu al uu) g k).
    { unfold al_Mu. cbn [al_n al_M algo_of]. rewrite En, <- mvmul_assoc. apply mvmul_ext. intros q Hq. rewrite M0. cbn [al_eq algo_of].
      rewrite (bu_eq _ _ _ _ _ _ _ _ _ _ _ B). rewrite (rename_eval K n cs m0 val); [|exact ND|exact V0|apply (closed_eq K simp ds D)].
      destruct (off_ex K ds (sg q) (bu_lt _ _ _ _ _ _ _ _ _ _ _ B q Hq)) as (b' & d' & i' & H1' & H3' & Eq). rewrite Eq.
      rewrite (bu_moments _ _ _ _ _ _ _ _ _ _ _ B g b' d' i' H1' H3'), (Hg b' d' i' H1' H3').
      rewrite (nth_concat K (eqs K simp) (Num 0%K) ds b' d' i'); [|apply Forall_forall; intros x Hx; apply eqs_length; exact (proj1 (Forall_forall _ _) (do_sized K simp ds D) x Hx)|exact H1'|exact H3'].
      now apply (eqs_eval K simp). }
    rewrite EG, EsE, (MU g k b d i Hk Es H1 H3). reflexivity.
Qed.
End Moving.
Print Assumptions C64_moving.

Section Given.
Variable K : ring.
Add Ring Kring_given : (rth K).

(* With the key "M" the matrices of the change of frame are identities (scheme.py 164-165): the
   relative velocity has no effect, the step is the one without relative velocity. *)
Theorem C64_given_velocity inv simp l dim hdt (ds : list (sdict K)) a f :
  inv_spec K inv -> simp_spec K simp -> dict_ok K simp ds -> ordered K simp ds -> build K inv simp (Some l) dim hdt ds = Some a ->
  (forall j, closed K ds (nth j l (Num 0%K))) -> (forall d t, In d ds -> In t (sd_P K d) -> below K dim t) ->
  (exists G, given K ds = Some G) -> (forall d, In d ds -> sd_src K d = []) -> (forall m i, (i < sa_nc K a)%nat -> al_s (algo_of K a) m i = 0%K) ->
  collided K simp hdt ds f (pull_fun K (algo_of K a) f).
Proof.
  intros HI HSi D O E HR HP [G EG] HN H0.
  assert (HR' : forall l' j, Some l = Some l' -> closed K ds (nth j l' (Num 0%K))) by (intros l' j El; injection El as <-; apply HR).
  apply (collided_agree K simp hdt ds f f (collide K (algo_of K a) f)); [intros k _; reflexivity| |now apply (C64_step K inv simp (Some l) dim hdt ds a)].
  pose proof (built_ok K inv simp (Some l) dim hdt ds a HI D O E HR' HP) as SO. destruct (scheme_algo K a SO) as (He & Hs & HRel).
  destruct (build_built K simp inv hdt (Some l) dim ds a HI D E) as (M & N & sg & B). pose proof (bu_n _ _ _ _ _ _ _ _ _ _ _ B) as En.
  assert (ET : forall u i j, al_Tu (algo_of K a) u i j = idm i j).
  { intros u i j. cbn. rewrite (bu_Tu _ _ _ _ _ _ _ _ _ _ _ B). unfold translation. rewrite EG. cbn. unfold idm.
    destruct (Nat.eqb_spec i j) as [->|Ne]; [now rewrite Nat.eqb_refl|]. destruct (Nat.eqb_spec (sg i) (sg j)) as [Es|]; [|reflexivity]. apply (bu_inj _ _ _ _ _ _ _ _ _ _ _ B) in Es. congruence. }
  assert (IM : inverse (sa_n K a) (sa_M K a) (sa_invM K a)).
  { pose proof (bu_inverse _ _ _ _ _ _ _ _ _ _ _ B) as [I1 I2]. rewrite En. split; intros i j Hi Hj; unfold mmul.
    - rewrite (sum_ext K _ _ (fun q => (M (sg i) q * N q (sg j))%K)) by (intros q _; now rewrite (bu_M _ _ _ _ _ _ _ _ _ _ _ B), (bu_invM _ _ _ _ _ _ _ _ _ _ _ B)).
      change (sum _ _) with (mmul (total (sizes K ds)) M N (sg i) (sg j)). rewrite I1 by now apply (bu_lt _ _ _ _ _ _ _ _ _ _ _ B). unfold idm.
      destruct (Nat.eqb_spec i j) as [->|Ne]; [now rewrite Nat.eqb_refl|]. destruct (Nat.eqb_spec (sg i) (sg j)) as [Es|]; [|reflexivity]. apply (bu_inj _ _ _ _ _ _ _ _ _ _ _ B) in Es. congruence.
    - rewrite (sum_ext K _ _ (fun q => (N i (sg q) * M (sg q) j)%K)) by (intros q _; now rewrite (bu_M _ _ _ _ _ _ _ _ _ _ _ B), (bu_invM _ _ _ _ _ _ _ _ _ _ _ B)).
      rewrite (bu_sum _ _ _ _ _ _ _ _ _ _ _ B (fun q => (N i q * M q j)%K)). exact (I2 i j Hi Hj). }
  assert (ES : al_source (algo_of K a) = []).
  { pose proof (bu_src _ _ _ _ _ _ _ _ _ _ _ B) as Es. replace (concat (map (sd_src K) ds)) with (@nil (nat * term K)) in Es; [cbn in Es; cbn; injection Es as <-; reflexivity|].
    clear - HN. induction ds as [|d t IH]; [reflexivity|]. cbn. rewrite (HN d) by now left. apply IH. intros d' Hd. apply HN. now right. }
  set (n := total (sizes K ds)) in *. set (al := algo_of K a) in *.
  assert (IT : forall u, is_id (al_n al) (mmul (al_n al) (al_Tu al u) (al_Tu al (vopp u)))).
  { intros u i j Hi Hj. unfold mmul. rewrite (sum_ext K _ _ (fun q => (idm i q * idm q j)%K)) by (intros q _; now rewrite !ET). exact (mmul_idm_l K (al_n al) idm i j Hi). }
  assert (ER : exists rel, al_relvel al = Some rel) by (unfold al; cbn; rewrite (bu_rel _ _ _ _ _ _ _ _ _ _ _ B); cbn; eexists; reflexivity).
  destruct ER as [rel ER]. pose proof (moving_algo K al rel f ER ES He HRel IM IT H0) as MA. cbv zeta in MA. change (al_n al) with (sa_n K a) in MA. rewrite En in MA.
  set (m0 := mvmul n (al_M al) f) in *.
  assert (TI : forall u v k, (k < n)%nat -> mvmul n (al_Tu al u) v k = v k).
  { intros u v k Hk. transitivity (mvmul n idm v k); [|apply (mvmul_id K n idm); [intros i j _ _; reflexivity|exact Hk]]. unfold mvmul. apply sum_ext. intros q _. now rewrite ET. }
  assert (MU : forall u g k, (k < n)%nat -> mvmul n (al_Mu al u) g k = mvmul n (al_M al) g k).
  { intros u g k Hk. unfold al_Mu. change (al_n al) with (sa_n K a). rewrite En, <- mvmul_assoc. now apply TI. }
  intros k Hk. symmetry. transitivity (mvmul n (sa_invM K a) (mvmul n (al_M al) (pull_fun K al f)) k).
  - symmetry. rewrite En in IM. exact (mvmul_inverse K n (sa_invM K a) (sa_M K a) (pull_fun K al f) k (proj2 IM) Hk).
  - unfold collide. change (al_n al) with (sa_n K a). rewrite En. fold m0. apply mvmul_ext. intros q Hq. rewrite <- (MU (rel m0)) by exact Hq. rewrite (MA q Hq).
    change (al_n al) with (sa_n K a) in *.
    rewrite (half_source_none K al _ ES q) by (cbn; now rewrite En).
    assert (A : agree K (al_n al) (half_source K al m0) m0) by exact (half_source_none K al m0 ES).
    rewrite (relax_agree K al _ _ He A q) by (cbn; now rewrite En). unfold relax_formula. rewrite (MU (rel m0) f q Hq). fold m0.
    destruct (Nat.ltb_spec q (al_nc al)) as [L|L].
    + rewrite (H0 m0 q L). ring.
    + rewrite (TI (rel m0) (al_eq al m0) q Hq). ring.
Qed.
End Given.
Print Assumptions C64_given_velocity.

(* d1's moments; rho alone is conserved, the equilibrium of the others is rho^2 and 2 rho, their
   parameters 2 and 1; the frame moves with rho. rho = 13: the equilibrium distribution is
   (-299, 169, 143); in the moving frame the moments of fz are 1042, 13, -171, those of the
   equilibrium 845, 13, -143; after the step they are -1042 + 2 * 845 = 648, 13, -143. Without
   relative velocity, or with the key "M", the step is another one. *)
Definition d4 (M : option (mat Zring)) : sdict Zring :=
  mkSdict Zring [[0]; [1]; [-1]]%Z [Un zhalf (Bin zadd (Bin zmul X X) X); Num (K := Zring) 1%Z; X] M
    [Num (K := Zring) 2%Z; Num (K := Zring) 0%Z; Num (K := Zring) 1%Z] [Bin zmul (Var 5) (Var 5); Var 5; Bin zadd (Var 5) (Var 5)] None [5%nat] [].
Definition bu := build Zring (zinv cands) nosimp (Some [Var 5]) 1 1%Z.
Definition pullf (o : option (salgo Zring)) (f : vec Zring) (n : nat) : option (list Z) :=
  match o with Some a => Some (map (pull_fun Zring (algo_of Zring a) f) (seq 0 n)) | None => None end.
Definition Mz : mat Zring := mat2 [[0; 1; 0]; [1; 1; 1]; [0; 1; -1]]%Z.
Lemma d4_ok M : dict_ok Zring nosimp [d4 M].
Proof.
  constructor; unfold closed, conserved; cbn [map concat sd_cons d4 app].
  - constructor; [|constructor]. repeat split.
  - intros d N [<-|[]] _. reflexivity.
  - repeat constructor. intros [].
  - intros d t [<-|[]] Ht c Hc. cbn in Ht. destruct Ht as [<-|[<-|[<-|[]]]]; cbn in Hc; cbn; tauto.
  - intros d t [<-|[]] Ht c Hc. cbn in Ht. destruct Ht as [<-|[<-|[<-|[]]]]; destruct Hc.
  - intros d c g [<-|[]] [].
Qed.
Lemma d4_moment M c b i : is_moment Zring nosimp [d4 M] c b i -> b = 0%nat /\ c = 5%nat /\ i = 1%nat.
Proof.
  intros (d & H1 & H2 & H3 & H4 & _). destruct b as [|[|b]]; try discriminate. injection H1 as <-. split; [reflexivity|].
  destruct H2 as [<-|[]]. destruct i as [|[|[|i]]]; cbn in H4, H3; try discriminate; [now split|lia].
Qed.
Lemma d4_ordered M : ordered Zring nosimp [d4 M].
Proof. intros r c b i Hr Hm. apply d4_moment in Hm as (-> & -> & ->). unfold conserved in Hr. cbn in Hr. destruct r as [|[|r]]; try discriminate. cbn. lia. Qed.
Lemma d4_is M : is_moment Zring nosimp [d4 M] 5 0 1.
Proof. exists (d4 M). repeat split; [cbn; tauto|cbn; lia|]. intros j Hj. destruct j as [|[|j]]; try discriminate; lia. Qed.
Lemma halves (x u a b : Z) : (x * x + x = 2 * a)%Z -> (u * u - u = 2 * b)%Z -> (((x - u) * (x - u) + (x - u)) / 2 = (x * x + x) / 2 - u * x + (u * u - u) / 2)%Z.
Proof.
  intros Ha Hb. rewrite Ha, Hb. replace ((x - u) * (x - u) + (x - u))%Z with ((a - u * x + b) * 2)%Z by lia.
  rewrite Z.div_mul by lia. now rewrite !(Z.mul_comm 2), !Z.div_mul by lia.
Qed.
Lemma even_next (x : Z) : exists a, (x * x + x = 2 * a)%Z.
Proof. destruct (Z.Even_or_Odd x) as [[k ->]|[k ->]]; [exists (2 * k * k + k)%Z|exists (2 * k * k + 3 * k + 1)%Z]; lia. Qed.
Lemma halves_row (x u : Z) : (((x - u) * (x - u) + (x - u)) / 2 = 1 * ((x * x + x) / 2) + ((u * u - u) / 2 * 1 + (- u * x + 0)))%Z.
Proof. destruct (even_next x) as [p Hp]. destruct (even_next (- u)) as [q Hq]. rewrite (halves x u p q Hp) by lia. lia. Qed.
Lemma shift_row (x u : Z) : (x - u = - u * 1 + (1 * x + 0))%Z.
Proof. lia. Qed.
(* (X - u)^2 + (X - u) over 2 is (X^2 + X)/2 - u X + (u^2 - u)/2 *)
Lemma d4_closed M : translation_closed Zring 1 (nv Zring (d4 M)) (pol Zring (d4 M)).
Proof.
  intros [|u [|? ?]] Hu; try discriminate. exists (mat2 [[1; (u * u - u) / 2; - u]; [0; 1; 0]; [0; - u; 1]]%Z).
  intros i [|x [|? ?]] Hi Hx; try discriminate. destruct i as [|[|[|i]]]; [| | |cbn in Hi; lia].
  - exact (halves_row x u).
  - reflexivity.
  - exact (shift_row x u).
Qed.
Definition gz : vec Zring := fun k => nth k [-299; 169; 143]%Z 0%Z.
Example C64_moving_example : exists a, let ds := [d4 None] in let u := vrel Zring [Var 5] (fun _ => 13%Z) in let f' := pull_fun Zring (algo_of Zring a) fz in
  bu ds = Some a /\ mom Zring ds fz 0 1 = 13%Z /\ u 0%nat = 13%Z /\
  (forall i, (i < 3)%nat -> mom Zring ds gz 0 i = eqv Zring (d4 None) i (fun _ => 13%Z)) /\
  momu Zring ds u f' 0 0 = (- (1042) + 2 * 845)%Z /\ momu Zring ds u f' 0 1 = 13%Z /\ momu Zring ds u f' 0 2 = (-143)%Z /\
  pullf (Some a) fz 3 = Some [95; -28; -54]%Z /\ pullf (bz ds) fz 3 = Some [-633; 336; 310]%Z /\ pullf (bu [d4 (Some Mz)]) fz 3 = Some [-633; 336; 310]%Z.
Proof.
  destruct (built_ex (bu [d4 None])) as [a Ea]; [vm_compute; reflexivity|]. exists a. cbv zeta.
  assert (Eg : forall i, (i < 3)%nat -> mom Zring [d4 None] gz 0 i = eqv Zring (d4 None) i (fun _ => 13%Z)) by (intros [|[|[|i]]] Hi; [vm_compute; reflexivity..|lia]).
  pose proof (C64_moving Zring (zinv cands) nosimp [Var 5] 1 1%Z [d4 None] a (zinv_ok cands) (fun _ _ => eq_refl) (d4_ok None) (d4_ordered None) Ea) as H.
  specialize (H ltac:(intros [|[|j]] c Hc; cbn in Hc |- *; tauto)).
  specialize (H ltac:(intros d t [<-|[]] Ht; cbn in Ht; destruct Ht as [<-|[<-|[<-|[]]]]; intros c Hc; cbn in Hc; lia)).
  specialize (H ltac:(intros d x [<-|[]] [<-|[<-|[<-|[]]]]; reflexivity)).
  specialize (H ltac:(intros d [<-|[]]; reflexivity) ltac:(intros d [<-|[]]; apply d4_closed) ltac:(intros d [<-|[]]; reflexivity)).
  specialize (H fz (fun _ => 13%Z) gz).
  specialize (H ltac:(intros c b i d Hm Hd w; apply d4_moment in Hm as (-> & -> & ->); injection Hd as <-; reflexivity)).
  specialize (H ltac:(intros c b i Hm; apply d4_moment in Hm as (-> & -> & ->); reflexivity)).
  specialize (H ltac:(intros [|[|b]] d i Hd Hi; try discriminate; injection Hd as <-; now apply Eg)). cbv zeta in H. destruct H as [H1 H2].
  split; [exact Ea|]. split; [reflexivity|]. split; [reflexivity|]. split; [exact Eg|].
  split; [rewrite (H2 0%nat 0%nat (d4 None) eq_refl ltac:(cbn; lia) ltac:(intros c Hm; apply d4_moment in Hm; lia)); vm_compute; reflexivity|].
  split; [rewrite (H1 5%nat 0%nat 1%nat (d4_is None)); vm_compute; reflexivity|].
  split; [rewrite (H2 0%nat 2%nat (d4 None) eq_refl ltac:(cbn; lia) ltac:(intros c Hm; apply d4_moment in Hm; lia)); vm_compute; reflexivity|].
  rewrite <- Ea. repeat split; vm_compute; reflexivity.
Qed.
