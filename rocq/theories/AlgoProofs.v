(* The statements of the kernels compute the mathematical formulas. *)
From Verif Require Import PyBase LinAlg AlgoModel.

(* Sequential assignment of the entries lo .. hi-1. *)
Definition seqf {A : Type} (e : nat -> (nat -> A) -> A) (lo hi : nat) (m : nat -> A) : nat -> A :=
  fold_left (fun m k => updf m k (e k m)) (seq lo (hi - lo)) m.

Lemma seqf_step {A} (e : nat -> (nat -> A) -> A) lo hi m : (lo <= hi)%nat ->
  seqf e lo (S hi) m = updf (seqf e lo hi m) hi (e hi (seqf e lo hi m)).
Proof.
  intros H. unfold seqf. replace (S hi - lo)%nat with (S (hi - lo)) by lia.
  rewrite seq_S, fold_left_app. cbn [fold_left]. replace (lo + (hi - lo))%nat with hi by lia. reflexivity.
Qed.
Lemma seqf_nil {A} (e : nat -> (nat -> A) -> A) lo hi m : (hi <= lo)%nat -> seqf e lo hi m = m.
Proof. intros H. unfold seqf. replace (hi - lo)%nat with 0%nat by lia. reflexivity. Qed.
Lemma updf_same {A} (m : nat -> A) k x : updf m k x k = x.
Proof. unfold updf. rewrite Nat.eqb_refl. reflexivity. Qed.
Lemma updf_other {A} (m : nat -> A) k x j : j <> k -> updf m k x j = m j.
Proof. intros H. unfold updf. destruct (Nat.eqb_spec j k); [contradiction|reflexivity]. Qed.

Lemma seqf_out {A} (e : nat -> (nat -> A) -> A) lo hi m j : (j < lo \/ hi <= j)%nat -> seqf e lo hi m j = m j.
Proof.
  intros H. destruct (Nat.le_gt_cases hi lo) as [L|L]; [rewrite seqf_nil by lia; reflexivity|].
  induction hi as [|h IH]; [lia|]. destruct (Nat.eq_dec lo h) as [->|N].
  - rewrite seqf_step by lia. rewrite updf_other by lia. rewrite seqf_nil by lia. reflexivity.
  - rewrite seqf_step by lia. rewrite updf_other by lia. apply IH; lia.
Qed.
(* The entry k is computed from the entries already stored and the old ones. *)
Lemma seqf_in {A} (e : nat -> (nat -> A) -> A) lo hi m k : (lo <= k < hi)%nat ->
  seqf e lo hi m k = e k (seqf e lo k m).
Proof.
  intros H. induction hi as [|h IH]; [lia|]. rewrite seqf_step by lia.
  destruct (Nat.eq_dec k h) as [->|N]; [apply updf_same|].
  rewrite updf_other by lia. apply IH. lia.
Qed.
Lemma seqf_prefix {A} (e : nat -> (nat -> A) -> A) lo hi k m j : (lo <= j < k)%nat -> (k <= hi)%nat ->
  seqf e lo k m j = seqf e lo hi m j.
Proof. intros H L. rewrite (seqf_in e lo hi), (seqf_in e lo k) by lia. reflexivity. Qed.

Lemma seqf_sim {A} (e : nat -> (nat -> A) -> A) lo hi m :
  (forall k m', (lo <= k < hi)%nat -> (forall j, (j < lo \/ k <= j)%nat -> m' j = m j) ->
     (forall j, (lo <= j < k)%nat -> m' j = e j m) -> e k m' = e k m) ->
  forall j, (lo <= j < hi)%nat -> seqf e lo hi m j = e j m.
Proof.
  intros He. induction j as [j IH] using lt_wf_ind. intros Hj.
  rewrite seqf_in by exact Hj. apply He; [exact Hj| |].
  - intros i Hi. apply seqf_out. exact Hi.
  - intros i Hi. rewrite (seqf_prefix e lo hi) by lia. apply IH; lia.
Qed.

Section Local.
Variable K : arith.
Open Scope ring_scope'.
Implicit Types a : algo K.

Lemma run_app (p q : list (stmt K)) v : run (p ++ q) v = run q (run p v).
Proof. apply fold_left_app. Qed.

Lemma run_TM_aux (e : view K -> vec K) l : forall v,
  run (map (fun k => (TM k, fun v => e v k)) l) v =
  mkView (vf v) (vfn v)
    (fold_left (fun m k => updf m k (e (mkView (vf v) (vfn v) m (vu v)) k)) l (vm v)) (vu v).
Proof.
  induction l as [|k t IH]; intros v; [destruct v; reflexivity|].
  cbn [map]. unfold run. cbn [fold_left]. fold (run (K:=K)).
  change (run (map (fun k0 => (TM k0, fun v0 => e v0 k0)) t) (exec v (TM k, fun v0 => e v0 k)) =
    mkView (vf v) (vfn v) (fold_left (fun m k0 => updf m k0 (e (mkView (vf v) (vfn v) m (vu v)) k0)) t
      (updf (vm v) k (e (mkView (vf v) (vfn v) (vm v) (vu v)) k))) (vu v)).
  rewrite IH. destruct v; reflexivity.
Qed.
Lemma run_TM (e : view K -> vec K) lo hi v :
  run (assign TM lo hi e) v =
  mkView (vf v) (vfn v) (seqf (fun k m => e (mkView (vf v) (vfn v) m (vu v)) k) lo hi (vm v)) (vu v).
Proof. apply run_TM_aux. Qed.

Lemma run_TFn_aux (e : view K -> vec K) l : forall v,
  run (map (fun k => (TFn k, fun v => e v k)) l) v =
  mkView (vf v) (fold_left (fun m k => updf m k (e (mkView (vf v) m (vm v) (vu v)) k)) l (vfn v)) (vm v) (vu v).
Proof.
  induction l as [|k t IH]; intros v; [destruct v; reflexivity|].
  change (run (map (fun k0 => (TFn k0, fun v0 => e v0 k0)) t) (exec v (TFn k, fun v0 => e v0 k)) =
    mkView (vf v) (fold_left (fun m k0 => updf m k0 (e (mkView (vf v) m (vm v) (vu v)) k0)) t
      (updf (vfn v) k (e (mkView (vf v) (vfn v) (vm v) (vu v)) k))) (vm v) (vu v)).
  rewrite IH. destruct v; reflexivity.
Qed.
Lemma run_TFn (e : view K -> vec K) lo hi v :
  run (assign TFn lo hi e) v =
  mkView (vf v) (seqf (fun k m => e (mkView (vf v) m (vm v) (vu v)) k) lo hi (vfn v)) (vm v) (vu v).
Proof. apply run_TFn_aux. Qed.

Lemma run_TU_aux (e : view K -> vec K) l : forall v,
  run (map (fun k => (TU k, fun v => e v k)) l) v =
  mkView (vf v) (vfn v) (vm v) (fold_left (fun m k => updf m k (e (mkView (vf v) (vfn v) (vm v) m) k)) l (vu v)).
Proof.
  induction l as [|k t IH]; intros v; [destruct v; reflexivity|].
  change (run (map (fun k0 => (TU k0, fun v0 => e v0 k0)) t) (exec v (TU k, fun v0 => e v0 k)) =
    mkView (vf v) (vfn v) (vm v) (fold_left (fun m k0 => updf m k0 (e (mkView (vf v) (vfn v) (vm v) m) k0)) t
      (updf (vu v) k (e (mkView (vf v) (vfn v) (vm v) (vu v)) k)))).
  rewrite IH. destruct v; reflexivity.
Qed.
Lemma run_TU (e : view K -> vec K) lo hi v :
  run (assign TU lo hi e) v =
  mkView (vf v) (vfn v) (vm v) (seqf (fun k m => e (mkView (vf v) (vfn v) (vm v) m) k) lo hi (vu v)).
Proof. apply run_TU_aux. Qed.

(* ---- independent formulas ---- *)
Definition agree (n : nat) (m m' : vec K) : Prop := forall i, (i < n)%nat -> m i = m' i.
Lemma agree_sym n m m' : agree n m m' -> agree n m' m.
Proof. intros H i Hi. symmetry. apply H. exact Hi. Qed.
Lemma agree_trans n m m' m'' : agree n m m' -> agree n m' m'' -> agree n m m''.
Proof. intros H H' i Hi. rewrite H by exact Hi. apply H'. exact Hi. Qed.
Lemma agree_le n k m m' : (k <= n)%nat -> agree n m m' -> agree k m m'.
Proof. intros L H i Hi. apply H. lia. Qed.

(* The equilibria, the relaxation parameters and the relative velocity are functions
   of the conserved moments; the equilibrium of a conserved moment is itself. *)
Definition eq_ok (a : algo K) : Prop :=
  (al_nc a <= al_n a)%nat /\
  (forall m m', agree (al_nc a) m m' -> agree (al_n a) (al_eq a m) (al_eq a m')) /\
  (forall m m', agree (al_nc a) m m' -> agree (al_n a) (al_s a m) (al_s a m')) /\
  (forall m i, (i < al_nc a)%nat -> al_eq a m i = m i).
(* A source is a function of the n moments. *)
Definition source_ok (a : algo K) : Prop :=
  forall k g m m', In (k, g) (al_source a) -> agree (al_n a) m m' -> g m = g m'.

Definition relax_formula (a : algo K) (m : vec K) : vec K := fun k =>
  (m k + al_s a m k * (al_eq a m k - m k))%K.
Definition half_source (a : algo K) (m : vec K) : vec K :=
  seqf (fun k m => match source_of a k with
                   | Some g => (m k + al_hdt a * g m)%K
                   | None => m k
                   end) 0 (al_n a) m.
Definition collide (a : algo K) (f : vec K) : vec K :=
  mvmul (al_n a) (al_invM a)
    (half_source a (relax_formula a (half_source a (mvmul (al_n a) (al_M a) f)))).

Lemma source_of_in a k g : source_of a k = Some g -> In (k, g) (al_source a).
Proof.
  unfold source_of. destruct (find _ _) as [[k' g']|] eqn:E; [|discriminate].
  apply find_some in E. destruct E as [E1 E2]. cbn in *. apply Nat.eqb_eq in E2. subst.
  intros [= <-]. apply in_rev. exact E1.
Qed.

Lemma half_source_agree a m m' : source_ok a -> agree (al_n a) m m' ->
  agree (al_n a) (half_source a m) (half_source a m').
Proof.
  intros Hs H i. induction i as [i IH] using lt_wf_ind. intros Hi.
  unfold half_source. rewrite (seqf_in _ 0 (al_n a) m), (seqf_in _ 0 (al_n a) m') by lia.
  assert (A : agree (al_n a)
    (seqf (fun k m0 => match source_of a k with Some g => (m0 k + al_hdt a * g m0)%K | None => m0 k end) 0 i m)
    (seqf (fun k m0 => match source_of a k with Some g => (m0 k + al_hdt a * g m0)%K | None => m0 k end) 0 i m')).
  { intros j Hj. destruct (Nat.lt_ge_cases j i) as [L|L].
    - rewrite !(seqf_prefix _ 0 (al_n a) i) by lia. apply IH; lia.
    - rewrite !seqf_out by lia. apply H. exact Hj. }
  destruct (source_of a i) as [g|] eqn:E.
  - rewrite (A i Hi). rewrite (Hs i g _ _ (source_of_in _ _ _ E) A). reflexivity.
  - apply A. exact Hi.
Qed.

Lemma relax_agree a m m' : eq_ok a -> agree (al_n a) m m' ->
  agree (al_n a) (relax_formula a m) (relax_formula a m').
Proof.
  intros (Hn & He & Hs & _) H i Hi. unfold relax_formula.
  pose proof (agree_le _ _ _ _ Hn H) as Hc.
  rewrite (H i Hi), (He _ _ Hc i Hi), (Hs _ _ Hc i Hi). reflexivity.
Qed.

Lemma collide_agree a f f' : eq_ok a -> source_ok a -> agree (al_n a) f f' ->
  forall k, collide a f k = collide a f' k.
Proof.
  intros He Hs H k. unfold collide. apply mvmul_ext. apply half_source_agree; [exact Hs|].
  apply relax_agree; [exact He|]. apply half_source_agree; [exact Hs|].
  intros i _. apply mvmul_ext. exact H.
Qed.

(* A property of a statement list: what it makes of the moments. *)
Lemma f2m_spec a src v : al_relvel a = None -> (forall w m, src (mkView (vf w) (vfn w) m (vu w)) = src w) ->
  let w := run (f2m_local a src) v in
  vf w = vf v /\ vfn w = vfn v /\ agree (al_n a) (vm w) (mvmul (al_n a) (al_M a) (src v)).
Proof.
  intros R Hsrc w. unfold w, f2m_local. rewrite R, run_TM. cbn [vf vfn vm].
  split; [reflexivity|]. split; [reflexivity|]. intros i Hi.
  rewrite seqf_sim with (lo := 0%nat) (hi := al_n a); [|intros; rewrite !Hsrc; reflexivity|lia].
  rewrite Hsrc. reflexivity.
Qed.

Lemma half_source_none a m : al_source a = [] -> agree (al_n a) (half_source a m) m.
Proof.
  intros H i Hi. unfold half_source.
  rewrite seqf_sim with (lo := 0%nat) (hi := al_n a); [|intros k m' Hk Ho _|lia].
  - unfold source_of. rewrite H. reflexivity.
  - unfold source_of. rewrite H. apply Ho. lia.
Qed.

Lemma with_source_spec a v : source_ok a ->
  let w := run (with_source a) v in
  vf w = vf v /\ vfn w = vfn v /\ vu w = vu v /\ agree (al_n a) (vm w) (half_source a (vm v)).
Proof.
  intros Hs. cbn zeta. unfold with_source. destruct (al_source a) as [|p t] eqn:E.
  - split; [reflexivity|]. split; [reflexivity|]. split; [reflexivity|]. apply agree_sym, half_source_none. exact E.
  - unfold source_term_local. rewrite run_TM. cbn [vf vfn vm vu].
    split; [reflexivity|]. split; [reflexivity|]. split; [reflexivity|]. intros i Hi. reflexivity.
Qed.


Lemma equilibrium_spec a v : eq_ok a ->
  let w := run (equilibrium_local a) v in
  vf w = vf v /\ vfn w = vfn v /\ agree (al_n a) (vm w) (al_eq a (vm v)).
Proof.
  intros (Hn & He & Hs & Hi). cbn zeta. unfold equilibrium_local. rewrite run_TM. cbn [vf vfn vm].
  split; [reflexivity|]. split; [reflexivity|]. intros i Hin.
  rewrite seqf_sim with (lo := 0%nat) (hi := al_n a); [reflexivity| |lia].
  intros k m' Hk Ho Hl. apply He; [|lia].
  intros j Hj. destruct (Nat.lt_ge_cases j k) as [L|L].
  - rewrite Hl by lia. rewrite Hi by exact Hj. reflexivity.
  - apply Ho. lia.
Qed.

Lemma m2f_spec a v : al_relvel a = None ->
  let w := run (m2f_local a) v in
  vf w = vf v /\ vm w = vm v /\ agree (al_n a) (vfn w) (mvmul (al_n a) (al_invM a) (vm v)).
Proof.
  intros R. cbn zeta. unfold m2f_local. rewrite R, run_TFn. cbn [vf vfn vm].
  split; [reflexivity|]. split; [reflexivity|]. intros i Hi.
  rewrite seqf_sim with (lo := 0%nat) (hi := al_n a); [reflexivity|reflexivity|lia].
Qed.

Lemma transport_spec a v :
  let w := run (transport_local a) v in
  vf w = vf v /\ vm w = vm v /\ agree (al_n a) (vfn w) (vf v).
Proof.
  cbn zeta. unfold transport_local. rewrite run_TFn. cbn [vf vfn vm].
  split; [reflexivity|]. split; [reflexivity|]. intros i Hi.
  rewrite seqf_sim with (lo := 0%nat) (hi := al_n a); [reflexivity|reflexivity|lia].
Qed.




(* ---- loops ---- *)
Section Loops.
Variable cell : Type.
Variable cell_eqb : cell -> cell -> bool.
Hypothesis cell_eqb_spec : forall x y, cell_eqb x y = true <-> x = y.
Variable nb : nat -> cell -> cell.
Notation field := (field K cell).

Lemma cell_dec : forall x y : cell, {x = y} + {x <> y}.
Proof using cell_eqb_spec.
  intros x y. destruct (cell_eqb x y) eqn:E; [left|right].
  - apply cell_eqb_spec. exact E.
  - intros H. apply cell_eqb_spec in H. congruence.
Qed.
Lemma cython_step_out (p : list (stmt K)) (f fnew : field) m u x y : y <> x ->
  fst (cython_cell cell_eqb nb p f (fnew, (m, u)) x) y = fnew y.
Proof using cell_eqb_spec.
  intros H. cbn. destruct (cell_eqb y x) eqn:E; [|reflexivity].
  apply cell_eqb_spec in E. contradiction.
Qed.
Lemma cython_fluid_spec fluid (p : list (stmt K)) (f : field) : forall cells st x,
  (In x cells -> fluid x = true -> exists fx m u, (NoDup cells -> fx = fst st x) /\
     fst (cython_loop_fluid cell_eqb nb fluid p cells f st) x =
       vfn (run p (mkView (fun k => f (nb k x) k) fx m u))) /\
  ((~ In x cells \/ fluid x = false) -> fst (cython_loop_fluid cell_eqb nb fluid p cells f st) x = fst st x).
Proof using cell_eqb_spec.
  induction cells as [|y t IH]; intros [fnew [m u]] x; [split; [intros []|reflexivity]|].
  change (cython_loop_fluid cell_eqb nb fluid p (y :: t) f (fnew, (m, u)))
    with (cython_loop_fluid cell_eqb nb fluid p t f
    (if fluid y then cython_cell cell_eqb nb p f (fnew, (m, u)) y else (fnew, (m, u)))).
  set (st := if fluid y then _ else _).
  assert (Hout : y <> x \/ fluid x = false -> fst st x = fnew x).
  { intros H. unfold st. destruct (fluid y) eqn:Fy; [|reflexivity].
    destruct H as [H|H]; [apply cython_step_out; congruence|].
    apply cython_step_out. intros ->. congruence. }
  destruct (IH st x) as [IH1 IH2]. split.
  - intros Hin Hf.
    destruct (cell_eqb x y) eqn:Exy.
    + apply cell_eqb_spec in Exy. subst y.
      assert (E : fst st x = vfn (run p (mkView (fun k => f (nb k x) k) (fnew x) m u))).
      { unfold st. rewrite Hf. cbn. rewrite (proj2 (cell_eqb_spec x x) eq_refl). reflexivity. }
      destruct (in_dec cell_dec x t) as [I|I].
      * destruct (IH1 I Hf) as (fx & m' & u' & _ & E2). exists fx, m', u'. split; [|exact E2].
        intros ND. inversion ND. contradiction.
      * exists (fnew x), m, u. split; [reflexivity|]. rewrite IH2 by (left; exact I). exact E.
    + assert (N : y <> x) by (intros ->; rewrite (proj2 (cell_eqb_spec x x) eq_refl) in Exy; discriminate).
      destruct Hin as [->|Hin]; [contradiction|].
      destruct (IH1 Hin Hf) as (fx & m' & u' & E1 & E2). exists fx, m', u'. split; [|exact E2].
      intros ND. inversion ND. rewrite E1 by assumption. apply Hout. left. exact N.
  - intros [H|H].
    + rewrite IH2 by (left; intros I; apply H; right; exact I). apply Hout. left. intros ->. apply H. left. reflexivity.
    + rewrite IH2 by (right; exact H). apply Hout. right. exact H.
Qed.

Lemma cython_loop_fluid_all p cells f st :
  cython_loop_fluid cell_eqb nb (fun _ => true) p cells f st = cython_loop (K:=K) cell_eqb nb p cells f st.
Proof. reflexivity. Qed.

(* ---- NumPy ---- *)
Definition keeps_fn (s : stmt K) : Prop := match fst s with TFn _ => False | _ => True end.
Definition no_vf (s : stmt K) : Prop :=
  forall g g' fn m u, snd s (mkView g fn m u) = snd s (mkView g' fn m u).

(* The array state at the cells of the range is the state of the local program,
   but for the shifted values. *)
Definition tracks (inner : cell -> bool) (st : field * (field * field)) (loc : cell -> view K) : Prop :=
  forall x, inner x = true ->
    fst st x = vfn (loc x) /\ fst (snd st) x = vm (loc x) /\ snd (snd st) x = vu (loc x).

Lemma numpy_keeps inner p : Forall keeps_fn p -> forall F m u loc,
  tracks inner (F, (m, u)) loc -> (forall x, inner x = true -> vf (loc x) = fun k => F (nb k x) k) ->
  exists m' u', numpy_run nb inner p (F, (m, u)) = (F, (m', u')) /\
    tracks inner (F, (m', u')) (fun x => run p (loc x)) /\
    (forall x, inner x = true -> vf (run p (loc x)) = fun k => F (nb k x) k).
Proof.
  intros Hp. induction Hp as [|s p Hs _ IH]; intros F m u loc HT HV.
  - exists m, u. split; [reflexivity|]. split; assumption.
  - assert (Hstep : exists m1 u1, numpy_stmt nb inner (F, (m, u)) s = (F, (m1, u1)) /\
      tracks inner (F, (m1, u1)) (fun x => exec (loc x) s) /\
      (forall x, inner x = true -> vf (exec (loc x) s) = fun k => F (nb k x) k)).
    { assert (HE : forall x, inner x = true -> view_at nb F F (m x) (u x) x = loc x).
      { intros x Hx. unfold view_at. destruct (HT x Hx) as (E1 & E2 & E3). cbn in E1, E2, E3.
        rewrite <- (HV x Hx), E1, E2, E3. destruct (loc x); reflexivity. }
      unfold keeps_fn in Hs. destruct s as [t e]. cbn in Hs. destruct t as [k|k|d]; [contradiction| |].
      - eexists; exists u. split; [reflexivity|]. split.
        + intros x Hx. destruct (HT x Hx) as (E1 & E2 & E3). cbn in *. rewrite Hx.
          split; [exact E1|]. split; [|exact E3]. rewrite (HE x Hx), E2. reflexivity.
        + intros x Hx. exact (HV x Hx).
      - exists m; eexists. split; [reflexivity|]. split.
        + intros x Hx. destruct (HT x Hx) as (E1 & E2 & E3). cbn in *. rewrite Hx.
          split; [exact E1|]. split; [exact E2|]. rewrite (HE x Hx), E3. reflexivity.
        + intros x Hx. exact (HV x Hx). }
    destruct Hstep as (m1 & u1 & E & HT1 & HV1).
    destruct (IH F m1 u1 _ HT1 HV1) as (m2 & u2 & E2 & H2). exists m2, u2.
    split; [|exact H2]. unfold numpy_run. cbn [fold_left].
    fold (numpy_run (K:=K) nb inner p (numpy_stmt nb inner (F, (m, u)) s)).
    change (numpy_run nb inner p (numpy_stmt nb inner (F, (m, u)) s) = (F, (m2, u2))).
    rewrite E. exact E2.
Qed.

Lemma numpy_no_vf inner p : Forall no_vf p -> forall st loc,
  tracks inner st loc -> tracks inner (numpy_run nb inner p st) (fun x => run p (loc x)).
Proof.
  intros Hp. induction Hp as [|s p Hs _ IH]; intros st loc HT; [exact HT|].
  change (tracks inner (numpy_run nb inner p (numpy_stmt nb inner st s)) (fun x => run p (exec (loc x) s))).
  apply IH. clear IH. destruct st as [F [m u]]. destruct s as [t e].
  assert (HE : forall x, inner x = true -> e (view_at nb F F (m x) (u x) x) = e (loc x)).
  { intros x Hx. unfold view_at. destruct (HT x Hx) as (E1 & E2 & E3). cbn in E1, E2, E3.
    rewrite E1, E2, E3. destruct (loc x) as [a b c d]. cbn. apply (Hs _ a). }
  intros x Hx. destruct (HT x Hx) as (E1 & E2 & E3). cbn in E1, E2, E3.
  destruct t as [k|k|d]; cbn; rewrite Hx; (split; [|split]); try assumption;
    rewrite (HE x Hx), ?E1, ?E2, ?E3; reflexivity.
Qed.

(* Cells out of the range are not written. *)
Lemma numpy_out inner (p : list (stmt K)) : forall st x, inner x = false -> fst (numpy_run nb inner p st) x = fst st x.
Proof.
  induction p as [|s p IH]; intros st x Hx; [reflexivity|].
  change (fst (numpy_run nb inner p (numpy_stmt nb inner st s)) x = fst st x). rewrite IH by exact Hx.
  destruct st as [F [m u]]. unfold numpy_stmt. destruct s as [[k|k|d] e]; cbn; [|reflexivity|reflexivity].
  rewrite Hx. reflexivity.
Qed.

(* The transport statements: F[k] := shifted F[k], k in turn. *)
Lemma numpy_transport inner n : forall (F m u : field) loc,
  tracks inner (F, (m, u)) loc -> (forall x, inner x = true -> vf (loc x) = fun k => F (nb k x) k) ->
  exists F', numpy_run nb inner (assign TFn 0 n vf) (F, (m, u)) = (F', (m, u)) /\
    tracks inner (F', (m, u)) (fun x => run (assign TFn 0 n vf) (loc x)) /\
    (forall y j, (n <= j)%nat -> F' y j = F y j).
Proof.
  intros F m u loc HT HV. induction n as [|n IH].
  - exists F. split; [reflexivity|]. split; [exact HT|reflexivity].
  - assert (EA : assign (K:=K) TFn 0 (S n) vf = assign TFn 0 n vf ++ [(TFn n, fun v => vf v n)]).
    { unfold assign. rewrite !Nat.sub_0_r, seq_S, map_app. reflexivity. }
    destruct IH as (F' & E & HT' & HO).
    rewrite EA. unfold numpy_run. rewrite fold_left_app.
    fold (numpy_run (K:=K) nb inner (assign TFn 0 n vf) (F, (m, u))). rewrite E. cbn [fold_left numpy_stmt fst snd].
    eexists. split; [reflexivity|]. split.
    + intros x Hx. rewrite run_app. set (w := run (assign TFn 0 n vf) (loc x)).
      destruct (HT' x Hx) as (E1 & E2 & E3). cbn in E1, E2, E3. fold w in E1, E2, E3.
      cbn. rewrite Hx. split; [|split; assumption].
      rewrite E1. f_equal.
      assert (W : vf w = vf (loc x)) by (unfold w; rewrite run_TFn; reflexivity).
      rewrite W, (HV x Hx). apply HO. lia.
    + intros y j Hj. destruct (inner y); [rewrite updf_other by lia|]; apply HO; lia.
Qed.
End Loops.
End Local.

(* with the laws of the ring *)
Section LocalRing.
Variable K : ring.
Add Ring Kring_algo : (rth K).
Open Scope ring_scope'.
Implicit Types a : algo K.
Notation run_app := (run_app K). Notation run_TM := (run_TM K). Notation agree_trans := (agree_trans K). Notation half_source_agree := (half_source_agree K). Notation relax_agree := (relax_agree K). Notation f2m_spec := (f2m_spec K). Notation with_source_spec := (with_source_spec K). Notation m2f_spec := (m2f_spec K). Notation transport_spec := (transport_spec K).
Notation agree := (agree K). Notation eq_ok := (eq_ok K). Notation source_ok := (source_ok K).
Notation relax_formula := (relax_formula K). Notation half_source := (half_source K). Notation collide := (collide K).
Lemma relaxation_spec a v : al_relvel a = None -> eq_ok a ->
  let w := run (relaxation_local a) v in
  vf w = vf v /\ vfn w = vfn v /\ agree (al_n a) (vm w) (relax_formula a (vm v)).
Proof.
  intros R (Hn & He & Hs & Hi). cbn zeta. unfold relaxation_local. rewrite R, run_TM. cbn [vf vfn vm].
  split; [reflexivity|]. split; [reflexivity|]. intros i Hin.
  rewrite seqf_sim with (lo := 0%nat) (hi := al_n a); [unfold relax_formula; ring| |lia].
  intros k m' Hk Ho Hl.
  assert (C : agree (al_nc a) m' (vm v)).
  { intros j Hj. destruct (Nat.lt_ge_cases j k) as [L|L].
    - rewrite Hl by lia. rewrite Hi by exact Hj. ring.
    - apply Ho. lia. }
  rewrite (He _ _ C k) by lia. rewrite (Hs _ _ C k) by lia. rewrite (Ho k) by lia. reflexivity.
Qed.
Lemma after_f2m a v m0 : al_relvel a = None -> eq_ok a -> source_ok a ->
  agree (al_n a) (vm v) m0 ->
  agree (al_n a) (vfn (run (with_source a ++ relaxation_local a ++ with_source a ++ m2f_local a) v))
    (mvmul (al_n a) (al_invM a) (half_source a (relax_formula a (half_source a m0)))).
Proof.
  intros R He Hs Hm. rewrite !run_app.
  set (v1 := run (with_source a) v). set (v2 := run (relaxation_local a) v1).
  set (v3 := run (with_source a) v2).
  destruct (with_source_spec a v Hs) as (_ & _ & _ & A1).
  destruct (relaxation_spec a v1 R He) as (_ & _ & A2).
  destruct (with_source_spec a v2 Hs) as (_ & _ & _ & A3).
  destruct (m2f_spec a v3 R) as (_ & _ & A4).
  fold v1 in A1. fold v2 in A2. fold v3 in A3.
  intros i Hi. rewrite (A4 i Hi). apply mvmul_ext.
  eapply agree_trans; [exact A3|]. apply half_source_agree; [exact Hs|].
  eapply agree_trans; [exact A2|]. apply relax_agree; [exact He|].
  eapply agree_trans; [exact A1|]. apply half_source_agree; [exact Hs|]. exact Hm.
Qed.
Lemma pull_spec a v : al_relvel a = None -> eq_ok a -> source_ok a ->
  agree (al_n a) (vfn (run (pull_local a) v)) (collide a (vf v)).
Proof.
  intros R He Hs. unfold pull_local. rewrite R. rewrite app_nil_l, run_app.
  destruct (f2m_spec a vf v R) as (_ & _ & A); [reflexivity|].
  apply after_f2m; assumption.
Qed.
Lemma base_spec a v : al_relvel a = None -> eq_ok a -> source_ok a ->
  agree (al_n a) (vfn (run (base_local a) v)) (collide a (vf v)).
Proof.
  intros R He Hs. unfold base_local. rewrite run_app, run_app.
  destruct (transport_spec a v) as (_ & _ & A1). set (v1 := run (transport_local a) v) in *.
  destruct (f2m_spec a vfn v1 R) as (_ & _ & A2); [reflexivity|].
  apply after_f2m; try assumption.
  eapply agree_trans; [exact A2|]. intros i _. apply mvmul_ext. exact A1.
Qed.
End LocalRing.
