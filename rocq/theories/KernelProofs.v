(* The kernels as local functions: independence of uninitialised variables, NumPy
   execution, conservation. *)
From Verif Require Import PyBase LinAlg SchemeModel SchemeProofs AlgoModel AlgoProofs RelVelProofs VelocityModel GridModel StorageModel GlobalModel GlobalProofs.

Section Kernel.
Variable K : arith.
Implicit Types a : algo K.

Lemma seqf_cong N (e e' : nat -> vec K -> K) lo hi :
  (forall k m m', (lo <= k < hi)%nat -> agree K N m m' -> e k m = e' k m') ->
  forall m m', agree K N m m' -> agree K N (seqf e lo hi m) (seqf e' lo hi m').
Proof.
  intros He m m' H. destruct (Nat.le_gt_cases hi lo) as [L|L]; [rewrite !seqf_nil by lia; exact H|].
  induction hi as [|h IH]; [lia|]. rewrite !seqf_step by lia.
  assert (A : agree K N (seqf e lo h m) (seqf e' lo h m')).
  { destruct (Nat.eq_dec lo h) as [->|N0]; [rewrite !seqf_nil by lia; exact H|].
    apply IH; [|lia]. intros k x x' Hk. apply He. lia. }
  intros i Hi. unfold updf. destruct (Nat.eqb_spec i h) as [->|N0]; [apply He; [lia|exact A]|apply A; exact Hi].
Qed.
(* also: entries of the range become equal even if they were not *)
Lemma seqf_cong_fill N (e e' : nat -> vec K -> K) lo hi m m' : (hi <= N)%nat ->
  (forall k x x', (lo <= k < hi)%nat -> e k x = e' k x') ->
  (forall i, (i < N)%nat -> (i < lo \/ hi <= i)%nat -> m i = m' i) ->
  agree K N (seqf e lo hi m) (seqf e' lo hi m').
Proof.
  intros HN He H i Hi. destruct (Nat.lt_ge_cases i lo) as [L|L]; [rewrite !seqf_out by lia; apply H; lia|].
  destruct (Nat.lt_ge_cases i hi) as [L'|L']; [rewrite !seqf_in by lia; apply He; lia|].
  rewrite !seqf_out by lia. apply H; lia.
Qed.

(* With a relative velocity: it is a function of the conserved moments and T is a
   function of its dim components. *)
Definition rel_ok a : Prop :=
  (forall rel m m', al_relvel a = Some rel -> agree K (al_nc a) m m' -> agree K (al_dim a) (rel m) (rel m')) /\
  (forall u u' i j, agree K (al_dim a) u u' -> (i < al_n a)%nat -> (j < al_n a)%nat -> al_Tu a u i j = al_Tu a u' i j).

Lemma mvmul_cong n (A B : mat K) f g i : (forall j, (j < n)%nat -> A i j = B i j) -> agree K n f g ->
  mvmul n A f i = mvmul n B g i.
Proof. intros HA H. apply sum_ext. intros j Hj. rewrite (HA j Hj), (H j Hj). reflexivity. Qed.

Lemma Mu_cong a u u' i j : rel_ok a -> agree K (al_dim a) u u' -> (i < al_n a)%nat -> al_Mu a u i j = al_Mu a u' i j.
Proof.
  intros [_ HT] H Hi. apply sum_ext. intros k Hk. rewrite (HT u u' i k) by assumption. reflexivity.
Qed.
Lemma vopp_agree d (u u' : vec K) : agree K d u u' -> agree K d (vopp u) (vopp u').
Proof. intros H i Hi. unfold vopp. rewrite (H i Hi). reflexivity. Qed.
Lemma invMu_cong a u u' i j : rel_ok a -> agree K (al_dim a) u u' -> (j < al_n a)%nat -> al_invMu a u i j = al_invMu a u' i j.
Proof.
  intros [_ HT] H Hi. apply sum_ext. intros k Hk.
  rewrite (HT (vopp u) (vopp u') k j); [reflexivity|apply vopp_agree; exact H|assumption|assumption].
Qed.

(* two cells with the same shifted values, the same moments and the same velocity *)
Definition vsim a (v v' : view K) : Prop :=
  agree K (al_n a) (vf v) (vf v') /\ agree K (al_n a) (vm v) (vm v') /\
  (al_relvel a <> None -> agree K (al_dim a) (vu v) (vu v')).

Lemma f2m_sim a v v' : eq_ok K a -> rel_ok a -> agree K (al_n a) (vf v) (vf v') ->
  vsim a (run (f2m_local a vf) v) (run (f2m_local a vf) v').
Proof.
  intros (Hn & _) HR Hf. unfold f2m_local. destruct (al_relvel a) as [rel|] eqn:R.
  - rewrite !run_app. rewrite !run_TM, !run_TU. cbn [vf vm vu vfn].
    set (c := seqf (fun k _ => mvmul (al_n a) (al_M a) (vf v) k) 0 (al_nc a) (vm v)).
    set (c' := seqf (fun k _ => mvmul (al_n a) (al_M a) (vf v') k) 0 (al_nc a) (vm v')).
    assert (C : agree K (al_nc a) c c').
    { apply seqf_cong_fill; [lia| |lia]. intros k x x' Hk. apply mvmul_ext. exact Hf. }
    assert (U : agree K (al_dim a) (seqf (fun k _ => rel c k) 0 (al_dim a) (vu v)) (seqf (fun k _ => rel c' k) 0 (al_dim a) (vu v'))).
    { apply seqf_cong_fill; [lia| |lia]. intros k x x' Hk. apply (proj1 HR rel c c' R C). lia. }
    split; [exact Hf|]. split; [|intros _; exact U]. cbn [vm].
    apply seqf_cong_fill; [lia| |].
    + intros k x x' Hk. apply mvmul_cong; [|exact Hf]. intros j Hj. apply Mu_cong; [exact HR|exact U|lia].
    + intros i Hi Hi'. apply C. lia.
  - rewrite !run_TM. split; [exact Hf|]. cbn [vm]. split; [|congruence].
    apply seqf_cong_fill; [lia| |lia]. intros k x x' Hk. apply mvmul_ext. exact Hf.
Qed.
Lemma source_sim a v v' : source_ok K a -> vsim a v v' -> vsim a (run (with_source a) v) (run (with_source a) v').
Proof.
  intros Hs (H1 & H2 & H3).
  destruct (with_source_spec K a v Hs) as (A1 & _ & A2 & A3).
  destruct (with_source_spec K a v' Hs) as (B1 & _ & B2 & B3).
  split; [rewrite A1, B1; exact H1|]. split; [|rewrite A2, B2; exact H3].
  eapply agree_trans; [exact A3|]. eapply agree_trans; [apply half_source_agree; [exact Hs|exact H2]|].
  apply agree_sym. exact B3.
Qed.
Lemma relaxation_sim a v v' : eq_ok K a -> rel_ok a -> vsim a v v' ->
  vsim a (run (relaxation_local a) v) (run (relaxation_local a) v').
Proof.
  intros (Hn & He & Hs & _) HR (H1 & H2 & H3). unfold relaxation_local.
  destruct (al_relvel a) as [rel|] eqn:R; rewrite !run_TM; (split; [exact H1|]); (split; [|rewrite R; exact H3]); cbn [vm].
  - apply seqf_cong; [|exact H2]. intros k m m' Hk Hm. cbn [vm vu].
    pose proof (agree_le K _ _ _ _ Hn Hm) as Hc.
    rewrite (Hm k) by lia. rewrite (Hs _ _ Hc k) by lia.
    rewrite (mvmul_cong (al_n a) (al_Tu a (vu v)) (al_Tu a (vu v')) (al_eq a m) (al_eq a m') k); [reflexivity| |].
    + intros j Hj. apply (proj2 HR); [apply H3; congruence|lia|lia].
    + apply He. exact Hc.
  - apply seqf_cong; [|exact H2]. intros k m m' Hk Hm. cbn [vm].
    pose proof (agree_le K _ _ _ _ Hn Hm) as Hc.
    rewrite (Hm k) by lia. rewrite (Hs _ _ Hc k) by lia. rewrite (He _ _ Hc k) by lia. reflexivity.
Qed.
Lemma restore_sim a v v' : eq_ok K a -> rel_ok a -> al_relvel a <> None -> vsim a v v' ->
  vsim a (run (restore_conserved_moments a vf) v) (run (restore_conserved_moments a vf) v').
Proof.
  intros (Hn & _) HR HN (H1 & H2 & H3). unfold restore_conserved_moments. rewrite !run_TM.
  split; [exact H1|]. split; [|exact H3]. cbn [vm].
  apply seqf_cong_fill; [lia| |intros; apply H2; assumption].
  intros k x x' Hk. cbn [vf vu]. apply mvmul_cong; [|exact H1]. intros j Hj. apply Mu_cong; [exact HR|apply H3; exact HN|lia].
Qed.
Lemma m2f_sim a v v' : rel_ok a -> vsim a v v' ->
  agree K (al_n a) (vfn (run (m2f_local a) v)) (vfn (run (m2f_local a) v')).
Proof.
  intros HR (H1 & H2 & H3). unfold m2f_local. destruct (al_relvel a) as [rel|] eqn:R; rewrite !run_TFn; cbn [vfn vm vu].
  - apply seqf_cong_fill; [lia| |lia]. intros k x x' Hk. apply mvmul_cong; [|exact H2].
    intros j Hj. apply invMu_cong; [exact HR|apply H3; congruence|lia].
  - apply seqf_cong_fill; [lia| |lia]. intros k x x' Hk. apply mvmul_ext. exact H2.
Qed.

(* the new distributions only depend on the shifted old ones *)
Lemma pull_sim a v v' : eq_ok K a -> source_ok K a -> rel_ok a -> agree K (al_n a) (vf v) (vf v') ->
  agree K (al_n a) (vfn (run (pull_local a) v)) (vfn (run (pull_local a) v')).
Proof.
  intros He Hs HR Hf. unfold pull_local. rewrite !run_app.
  apply m2f_sim; [exact HR|]. apply source_sim; [exact Hs|].
  assert (A : vsim a (run (relaxation_local a) (run (with_source a) (run (f2m_local a vf) v)))
                     (run (relaxation_local a) (run (with_source a) (run (f2m_local a vf) v')))).
  { apply relaxation_sim; [exact He|exact HR|]. apply source_sim; [exact Hs|]. apply f2m_sim; assumption. }
  destruct (al_relvel a) eqn:R; [|exact A]. apply restore_sim; [exact He|exact HR|congruence|exact A].
Qed.
Definition fresh (f : vec K) : view K := mkView f (fun _ => 0%K) (fun _ => 0%K) (fun _ => 0%K).
Definition pull_fun a (f : vec K) : vec K := vfn (run (pull_local a) (fresh f)).
Lemma pull_computes a : eq_ok K a -> source_ok K a -> rel_ok a -> computes K (al_n a) (pull_fun a) (pull_local a).
Proof. intros He Hs HR v. apply (pull_sim a v (fresh (vf v)) He Hs HR). intros i _. reflexivity. Qed.
Lemma pull_fun_agree a f f' : eq_ok K a -> source_ok K a -> rel_ok a -> agree K (al_n a) f f' ->
  agree K (al_n a) (pull_fun a f) (pull_fun a f').
Proof. intros He Hs HR H. exact (pull_sim a (fresh f) (fresh f') He Hs HR H). Qed.

(* ---- NumPy ---- *)
Lemma assign_keeps t lo hi (e : view K -> vec K) : (forall k, match t k with TFn _ => False | _ => True end) ->
  Forall (keeps_fn K) (assign t lo hi e).
Proof. intros H. apply Forall_forall. intros s Hs. apply in_map_iff in Hs. destruct Hs as (k & <- & _). apply H. Qed.
Lemma assign_no_vf t lo hi (e : view K -> vec K) :
  (forall g g' fn m u k, e (mkView g fn m u) k = e (mkView g' fn m u) k) -> Forall (no_vf K) (assign t lo hi e).
Proof. intros H. apply Forall_forall. intros s Hs. apply in_map_iff in Hs. destruct Hs as (k & <- & _). intros g g' fn m u. apply H. Qed.

Lemma f2m_keeps a src : Forall (keeps_fn K) (f2m_local a src).
Proof.
  unfold f2m_local. destruct (al_relvel a); [|apply assign_keeps; intros; exact I].
  rewrite !Forall_app. repeat split; apply assign_keeps; intros; exact I.
Qed.
Lemma source_keeps a : Forall (keeps_fn K) (with_source a).
Proof. unfold with_source. destruct (al_source a); [constructor|]. apply assign_keeps; intros; exact I. Qed.
Lemma relaxation_keeps a : Forall (keeps_fn K) (relaxation_local a).
Proof. unfold relaxation_local. destruct (al_relvel a); apply assign_keeps; intros; exact I. Qed.
Lemma f2m_no_vf a : Forall (no_vf K) (f2m_local a vfn).
Proof.
  unfold f2m_local. destruct (al_relvel a); [|apply assign_no_vf; reflexivity].
  rewrite !Forall_app. repeat split; apply assign_no_vf; reflexivity.
Qed.
Lemma source_no_vf a : Forall (no_vf K) (with_source a).
Proof. unfold with_source. destruct (al_source a); [constructor|]. apply assign_no_vf. reflexivity. Qed.
Lemma relaxation_no_vf a : Forall (no_vf K) (relaxation_local a).
Proof. unfold relaxation_local. destruct (al_relvel a); apply assign_no_vf; reflexivity. Qed.
Lemma m2f_no_vf a : Forall (no_vf K) (m2f_local a).
Proof. unfold m2f_local. destruct (al_relvel a); apply assign_no_vf; reflexivity. Qed.

Lemma pull_numpy_any a (cell : Type) (nb : nat -> cell -> cell) (inn : cell -> bool) (F m u : field K cell) x : inn x = true ->
  exists fn mx ux, fst (numpy_run nb inn (pull_local a) (F, (m, u))) x =
    vfn (run (pull_local a) (mkView (fun k => F (nb k x) k) fn mx ux)).
Proof.
  intros Hx. unfold pull_local. rewrite app_assoc, app_assoc, app_assoc, app_assoc.
  set (p1 := ((((f2m_local a vf ++ with_source a) ++ relaxation_local a) ++ _) ++ with_source a)).
  assert (K1 : Forall (keeps_fn K) p1).
  { unfold p1. rewrite !Forall_app. repeat split; try apply f2m_keeps; try apply source_keeps; try apply relaxation_keeps.
    destruct (al_relvel a); [|constructor]. apply assign_keeps. intros; exact I. }
  set (loc := fun y => mkView (fun k => F (nb k y) k) (F y) (m y) (u y)).
  destruct (numpy_keeps K cell nb inn p1 K1 F m u loc) as (m' & u' & E & T & _).
  { intros y _. cbn. auto. } { reflexivity. }
  exists (F x), (m x), (u x). change (mkView _ _ _ _) with (loc x).
  unfold numpy_run. rewrite fold_left_app. fold (numpy_run (K:=K) nb inn p1 (F, (m, u))). rewrite E.
  destruct (numpy_no_vf K cell nb inn (m2f_local a) (m2f_no_vf a) (F, (m', u')) _ T x Hx) as (E1 & _).
  rewrite run_app. exact E1.
Qed.
Lemma pull_numpy a : numpy_right K (pull_local a).
Proof. intros nb inn F m u x Hx. apply pull_numpy_any. exact Hx. Qed.
Lemma base_numpy a : numpy_right K (base_local a).
Proof.
  intros nb inn F m u x Hx. unfold base_local.
  set (p2 := f2m_local a vfn ++ with_source a ++ relaxation_local a ++ with_source a ++ m2f_local a).
  assert (K2 : Forall (no_vf K) p2).
  { unfold p2. rewrite !Forall_app. repeat split; auto using f2m_no_vf, source_no_vf, relaxation_no_vf, m2f_no_vf. }
  set (loc := fun y => mkView (fun k => F (nb k y) k) (F y) (m y) (u y)).
  destruct (numpy_transport K (list Z) nb inn (al_n a) F m u loc) as (F' & E & T & _).
  { intros y _. cbn. auto. } { reflexivity. }
  exists (F x), (m x), (u x). change (mkView _ _ _ _) with (loc x).
  unfold numpy_run. rewrite fold_left_app. unfold transport_local.
  fold (numpy_run (K:=K) nb inn (assign TFn 0 (al_n a) vf) (F, (m, u))). rewrite E.
  destruct (numpy_no_vf K (list Z) nb inn p2 K2 (F', (m, u)) _ T x Hx) as (E1 & _).
  rewrite run_app. exact E1.
Qed.

End Kernel.

(* with the laws of the ring *)
Section KernelRing.
Variable K : ring.
Add Ring Kring_ker : (rth K).
Implicit Types a : algo K.

Notation rel_ok := (rel_ok K). Notation pull_fun := (pull_fun K). Notation fresh := (fresh K).
Lemma pull_fun_collide a f : eq_ok K a -> source_ok K a -> al_relvel a = None ->
  agree K (al_n a) (pull_fun a f) (collide K a f).
Proof. intros He Hs R. exact (pull_spec K a (fresh f) R He Hs). Qed.
(* ---- conservation in a cell ---- *)
Lemma collide_conserves a f i : eq_ok K a -> al_source a = [] -> is_id (al_n a) (mmul (al_n a) (al_M a) (al_invM a)) ->
  (i < al_nc a)%nat -> mvmul (al_n a) (al_M a) (collide K a f) i = mvmul (al_n a) (al_M a) f i.
Proof.
  intros He HS HI Hi. pose proof He as (Hn & _ & _ & Hid). unfold collide.
  rewrite mvmul_inverse by (exact HI || lia).
  rewrite (half_source_none K a _ HS i) by lia.
  rewrite (relax_agree K a _ (mvmul (al_n a) (al_M a) f) He) by (try lia; apply half_source_none; exact HS).
  unfold relax_formula. rewrite Hid by exact Hi. ring.
Qed.
Definition conserving a : Prop :=
  al_source a = [] /\ eq_ok K a /\ rel_ok a /\
  match al_relvel a with
  | None => is_id (al_n a) (mmul (al_n a) (al_M a) (al_invM a))
  | Some _ => frame_ok K a
  end.
Lemma source_ok_nil a : al_source a = [] -> source_ok K a.
Proof. intros H k g m m' HI. rewrite H in HI. destruct HI. Qed.
Lemma pull_conserves a f i : conserving a -> (i < al_nc a)%nat ->
  mvmul (al_n a) (al_M a) (pull_fun a f) i = mvmul (al_n a) (al_M a) f i.
Proof.
  intros (HS & He & HR & H) Hi. destruct (al_relvel a) as [rel|] eqn:R.
  - exact (pull_rel_conserves K a rel (fresh f) R HS (proj1 He) H i Hi).
  - rewrite <- (collide_conserves a f i He HS H Hi). apply mvmul_ext.
    apply pull_fun_collide; [exact He|apply source_ok_nil; exact HS|exact R].
Qed.

(* ---- equilibrium states ---- *)
Definition at_equilibrium a (f : vec K) : Prop :=
  agree K (al_n a) (mvmul (al_n a) (al_M a) f) (al_eq a (mvmul (al_n a) (al_M a) f)).

Lemma collide_equilibrium a f : eq_ok K a -> al_source a = [] -> is_id (al_n a) (mmul (al_n a) (al_invM a) (al_M a)) ->
  at_equilibrium a f -> agree K (al_n a) (collide K a f) f.
Proof.
  intros He HS HI HE i Hi. rewrite <- (mvmul_inverse K _ _ _ f i HI Hi). unfold collide. apply mvmul_ext. intros j Hj.
  rewrite (half_source_none K a _ HS j) by lia.
  rewrite (relax_agree K a _ (mvmul (al_n a) (al_M a) f) He) by (try lia; apply half_source_none; exact HS).
  unfold relax_formula. rewrite <- (HE j Hj). ring.
Qed.
Lemma pull_rel_equilibrium a rel f : al_relvel a = Some rel -> al_source a = [] -> eq_ok K a -> frame_ok K a ->
  (forall m i, (i < al_nc a)%nat -> al_s a m i = 0%K) -> at_equilibrium a f ->
  agree K (al_n a) (pull_fun a f) f.
Proof.
  intros R HS He HF H0 HE k Hk. pose proof He as (Hn & Hee & Hes & Hid).
  destruct (pull_rel_spec K a rel (fresh f) R HS Hn) as (u & w1 & w2 & W1 & W2 & U & E).
  unfold pull_fun. rewrite (E k Hk). change (vf (fresh f)) with f.
  destruct (f2m_rel_spec K a rel vf (fresh f) R Hn) as (_ & _ & A1 & A2); [reflexivity|].
  rewrite <- W1 in A1, A2. rewrite <- U in A2. change (vf (fresh f)) with f in A1, A2.
  pose proof (relaxation_rel_spec K a rel w1 R He H0) as A3. rewrite <- W2, <- U in A3.
  set (m0 := mvmul (al_n a) (al_M a) f) in *.
  assert (C : agree K (al_nc a) (vm w1) m0) by (intros j Hj; rewrite A1 by exact Hj; reflexivity).
  rewrite (mvmul_ext K _ _ _ (mvmul (al_n a) (al_Mu a u) f)).
  - unfold al_invMu. rewrite <- mvmul_assoc.
    rewrite (mvmul_ext K _ _ _ m0) by (intros i Hi; apply Tmu_Mu; [exact HF|exact Hi]).
    apply mvmul_inverse; [apply (proj2 (proj1 HF))|exact Hk].
  - intros i Hi. destruct (Nat.ltb_spec i (al_nc a)) as [L|L]; [reflexivity|].
    rewrite (A3 i Hi), A2 by lia. rewrite (mvmul_ext K _ _ _ _ (Hee _ _ C)).
    rewrite (mvmul_ext K _ _ (al_eq a m0) m0) by (apply agree_sym; exact HE).
    assert (EM : mvmul (al_n a) (al_Tu a u) m0 i = mvmul (al_n a) (al_Mu a u) f i).
    { unfold al_Mu, m0. rewrite mvmul_assoc. reflexivity. }
    rewrite EM. ring.
Qed.

(* ---- statements of the properties ---- *)
Lemma relaxation_facts a (v : view K) :
  al_relvel a = None -> eq_ok K a ->
  let m := vm v in let m' := vm (run (relaxation_local a) v) in
  (forall i, (i < al_nc a)%nat -> m' i = m i) /\
  (forall k, (k < al_n a)%nat -> al_s a m k = 0%K -> m' k = m k) /\
  (forall k, (k < al_n a)%nat -> al_s a m k = 1%K -> m' k = al_eq a m k).
Proof.
  intros R He m m'. destruct (relaxation_spec K a v R He) as (_ & _ & A). destruct He as (Hn & _ & _ & Hid).
  fold m m' in A.
  split; [|split]; intros k Hk; [|intros E|intros E]; (rewrite (A k) by lia); unfold relax_formula.
  - rewrite Hid by exact Hk. ring.
  - rewrite E. ring.
  - rewrite E. ring.
Qed.

Lemma equilibrium_facts a (v : view K) : eq_ok K a ->
  let v1 := run (equilibrium_local a) v in
  agree K (al_n a) (vm v1) (al_eq a (vm v)) /\
  agree K (al_n a) (vm (run (equilibrium_local a) v1)) (vm v1) /\
  (al_relvel a = None -> agree K (al_n a) (vm (run (relaxation_local a) v1)) (vm v1)).
Proof.
  intros He v1. destruct (equilibrium_spec K a v He) as (_ & _ & A1). fold v1 in A1.
  pose proof He as (Hn & Hee & _ & Hid).
  assert (C : agree K (al_nc a) (vm v1) (vm v)).
  { intros i Hi. rewrite A1 by lia. apply Hid. exact Hi. }
  split; [exact A1|]. split.
  - destruct (equilibrium_spec K a v1 He) as (_ & _ & A2). intros i Hi. rewrite (A2 i Hi), (A1 i Hi).
    apply Hee; [exact C|exact Hi].
  - intros R. destruct (relaxation_spec K a v1 R He) as (_ & _ & A2). intros i Hi. rewrite (A2 i Hi).
    unfold relax_formula. rewrite (Hee _ _ C i Hi), (A1 i Hi). ring.
Qed.

Lemma f2m_m2f a (v : view K) : al_relvel a = None -> inverse (al_n a) (al_M a) (al_invM a) ->
  agree K (al_n a) (vfn (run (f2m_local a vf ++ m2f_local a) v)) (vf v) /\
  agree K (al_n a) (vm (run (m2f_local a ++ f2m_local a vfn) v)) (vm v).
Proof.
  intros R [H1 H2]. rewrite !run_app. split; intros i Hi.
  - destruct (f2m_spec K a vf v R) as (_ & _ & A); [reflexivity|].
    destruct (m2f_spec K a (run (f2m_local a vf) v) R) as (_ & _ & B). rewrite (B i Hi).
    rewrite (mvmul_ext K _ _ _ _ A). apply mvmul_inverse; assumption.
  - destruct (m2f_spec K a v R) as (_ & _ & B).
    destruct (f2m_spec K a vfn (run (m2f_local a) v) R) as (_ & _ & A); [reflexivity|]. rewrite (A i Hi).
    rewrite (mvmul_ext K _ _ _ _ B). apply mvmul_inverse; assumption.
Qed.

(* the half step of the sources: entry k is computed with the new values of the
   entries before k and the old values of the others *)
Lemma half_source_facts a m : source_ok K a -> forall k, (k < al_n a)%nat ->
  half_source K a m k =
    match source_of a k with
    | None => m k
    | Some g => (m k + al_hdt a * g (fun j => if (j <? k)%nat then half_source K a m j else m j))%K
    end.
Proof.
  intros Hs k Hk. unfold half_source at 1. rewrite seqf_in by lia.
  destruct (source_of a k) as [g|] eqn:E; [|apply seqf_out; lia].
  rewrite seqf_out by lia. f_equal. f_equal. apply (Hs k); [apply source_of_in; exact E|].
  intros j Hj. destruct (Nat.ltb_spec j k) as [L|L]; [apply seqf_prefix; lia|apply seqf_out; lia].
Qed.
Definition decoupled a : Prop := forall k g m m', source_of a k = Some g ->
  (forall j, (j < al_n a)%nat -> (k <= j)%nat \/ source_of a j = None -> m j = m' j) -> g m = g m'.
Lemma half_source_decoupled a m : source_ok K a -> decoupled a -> forall k, (k < al_n a)%nat ->
  half_source K a m k =
    match source_of a k with None => m k | Some g => (m k + al_hdt a * g m)%K end.
Proof.
  intros Hs Hd k Hk. rewrite half_source_facts by assumption.
  destruct (source_of a k) as [g|] eqn:E; [|reflexivity]. f_equal. f_equal. apply (Hd k g _ _ E).
  intros j Hj Hor. destruct (Nat.ltb_spec j k) as [L|L]; [|reflexivity].
  destruct Hor as [C|C]; [lia|]. rewrite half_source_facts by assumption. rewrite C. reflexivity.
Qed.
End KernelRing.
