(* C92: the values do not depend on the process grid nor on the back end, for an arithmetic
   without laws (rounded operations). *)
From Coq Require Import QArith.
From Verif Require Import PyBase VelocityModel VelocityProofs Velocity3Proofs StencilModel StencilProofs GridModel GridProofs StorageModel
  ExchangeProofs StorageProps LinAlg AlgoModel AlgoProofs RelVelProofs KernelProofs GlobalModel GlobalProofs TorusProofs AlgoProps GlobalProps
  GenModel GenProofs GenProps StepGenModel StepGenProofs StepGenProps
  DomainModel DomainProofs DomainProps BoundaryModel BoundaryProofs BoundaryProps BoundaryUpdProps
  VesselProofs VesselProps ChannelProps ParallelModel ParallelProofs ObstacleProofs ParallelProps ObstacleProps ParallelMassProps WholeModel WholeProps RoundProofs.
Require Import Lia.
Open Scope Z_scope.

(* The statements of a time step: indices below n, written before read, all of fnew. *)
Record kernel_ok (K : arith) (n : nat) (sp : list (sstmt K)) : Prop := {
  ko_bound : Forall (bounded K n) sp;
  ko_scope : scoped K [] sp;
  ko_all : complete K n sp }.
(* More for NumPy: mv is not in the statements, the relative velocity is not just one value. *)
Record kernel_numpy (K : arith) (sp : list (sstmt K)) : Prop := {
  kn_mv : Forall (fun s => nomv K (snd s)) sp;
  kn_view : Forall (not_view K) sp }.

(* ------------------------------------------------- one step, for any boundary conditions *)
Section Step.
Variables (K : arith) (n pos : nat) (axes : list axis) (vel : nat -> list Z) (sp : list (sstmt K)).
Hypothesis Hpos : (pos <= length axes)%nat.
Hypothesis F : GlobalProps.fits axes vel n.
Hypothesis NE : Forall (fun x => forall c, (c < ax_p x)%nat -> ax_lo x c < ax_hi x c) axes.
Hypothesis KO : kernel_ok K n sp.
Variable B : fields K -> fields K.
Definition cython_text := map (cy_stmt K pos (length axes) n vel) sp.
Definition numpy_text := map (np_stmt K pos (length axes) n vel) sp.

(* C63_cython_loop and C63_numpy_run only use the number of velocities of the scheme *)
Definition sized : salgo K := mkSalgo K n 0 0 (fun _ _ => 0%K) (fun _ _ => 0%K) (fun _ _ => Num (K := K) 0%K) (fun _ => Num (K := K) 0%K) (fun _ => Num (K := K) 0%K) None [] 0%K.

Lemma any_two_value L0 st c i : coords_ok axes c -> inner axes c i ->
  agree K n (fst (whole_two pos axes B cython_text L0 st) c i) (step_of K sp (fun j => B (fst st) c (shift_cell vel j i) j)).
Proof using Hpos F NE KO.
  intros Hc Hi k Hk. destruct KO as [KB KS KC]. pose proof (grid_proc K sized pos axes vel Hpos F NE c Hc) as G.
  unfold whole_two, field_of. cbn [fst]. unfold cython_text. rewrite <- (sizes_len axes c Hc).
  set (A := arrays3 K pos (B (fst st) c) (zero_field K) (snd st c)).
  pose proof (proj2 (ranges_inner axes c i Hc) Hi) as Hx.
  assert (Lx : length i = length (sizes_of axes c)) by (rewrite (sizes_len axes c Hc); exact (proj1 Hi)).
  destruct (C63_cython_loop K sized pos (map ax_h axes) (sizes_of axes c) vel _ G sp (map (sem K) sp) A L0 KB (sem_rel K sp)) as [C1 _].
  refine (eq_trans (C1 i k Lx Hk) _). rewrite <- cython_loop_fluid_all.
  destruct (cython_fluid_spec K (list Z) list_eqb list_eqb_spec (shift_cell vel) (fun _ => true) (map (sem K) sp) (elt K pos A 0) (nest (inner_ranges (map ax_h axes) (sizes_of axes c)))
     (elt K pos A 2, (L0, fun j => L0 (sa_n K sized + j)%nat)) i) as [H _].
  destruct (H (proj2 (nest_in _ i) Hx) eq_refl) as (fx & m & u & _ & E'). rewrite E'.
  apply (run_step K n); try assumption. intros j Hj. apply (read_elt K sized pos axes vel Hpos F _ c); assumption.
Qed.
Lemma any_one_value st c : kernel_numpy K sp -> coords_ok axes c ->
  whole_one_at pos axes B n numpy_text st c <> None /\
  forall i, inner axes c i -> agree K n (fst (whole_one pos axes B n numpy_text st) c i) (step_of K sp (fun j => B (fst st) c (shift_cell vel j i) j)).
Proof using Hpos F NE KO.
  intros [NM NV] Hc. destruct KO as [KB KS KC]. pose proof (grid_proc K sized pos axes vel Hpos F NE c Hc) as G.
  set (A := arrays3 K pos (B (fst st) c) (snd st c) (zero_field K)).
  assert (E : exists A' L, numpy K (ranges_of axes c) (fun _ => ins pos (Z.of_nat n) (sizes_of axes c)) numpy_text A = Some (A', L) /\
    forall i k, inner axes c i -> (k < n)%nat -> A' 0%nat (ins pos (Z.of_nat k) i) = step_of K sp (fun j => B (fst st) c (shift_cell vel j i) j) k).
  { unfold numpy_text. rewrite <- (sizes_len axes c Hc).
    destruct (C63_numpy_run K sized pos (map ax_h axes) (sizes_of axes c) vel _ G sp (map (sem K) sp) A (fun _ _ => 0%K) KB NM NV) as (A' & L & E1 & E2 & _).
    - apply (scoped_defined K sp []); [intros j []|exact KS].
    - apply sem_rel.
    - exists A', L. split; [exact E1|]. intros i k Hi Hk.
      assert (Lx : length i = length (sizes_of axes c)) by (rewrite (sizes_len axes c Hc); exact (proj1 Hi)).
      refine (eq_trans (proj1 (E2 i k Lx Hk)) _).
      rewrite (numpy_step_of K n) by (try assumption; apply in_cells_spec; now apply (ranges_inner axes c i Hc)).
      apply (step_agree K n); try assumption. intros j Hj. apply (read_elt K sized pos axes vel Hpos F _ c); assumption. }
  destruct E as (A' & L & E1 & E2). unfold whole_one, whole_one_at. fold A. rewrite E1. cbn [option_map fst]. split; [discriminate|].
  intros i Hi k Hk. unfold A in E1. rewrite ?E1. cbn [option_map fst]. unfold field_of. now apply E2.
Qed.
End Step.

(* ------------------------------------------------- runs *)
Section Run.
Variables (dimz : Z) (schemes : list (list Z)) (st : stencil) (r : list Z) (g : grid) (es : list DomainModel.elem) (labs : list Z) (conds : Z -> list (nat * method)).
Variables (D : dom) (ms : list (method * list blink)).
Hypothesis E : serial dimz schemes st r g es labs conds D ms.
Hypothesis HQ : quiet st r g ms.
Variables (K : arith) (qk : Q -> K) (sp : list (sstmt K)).
Notation n := (length (concat schemes)).
Hypothesis KO : kernel_ok K n sp.
(* the value after one step from what the boundary conditions of one process leave *)
Definition any_ref be (phi : Z -> list Q -> nat -> K) (G : list Z -> vec K) : list Z -> vec K :=
  fun y => step_of K sp (fun k => boundary_condition K qk g (velk st) (symk r) (feq_of st phi g) be ms (gfield g K G) k (before st g k (cell_of g y))).
Lemma any_ref_backend be be' phi G x : agree K n (any_ref be phi G x) (any_ref be' phi G x).
Proof using E HQ KO.
  destruct KO as [KB KS KC]. apply (step_agree K n); try assumption. intros j _.
  eapply (arrives_unique dimz schemes st r g es labs conds D ms E); apply (arrives_bc dimz schemes st r g es labs conds D ms E HQ).
Qed.
Section Procs.
Variables (pos : nat) (ps : list nat) (Ds : list nat -> dom) (mss : list nat -> list (method * list blink)).
Hypothesis Hpos : (pos <= dim g)%nat.
Hypothesis HP : parallel st g es labs conds ps Ds mss.
Hypothesis NE : Forall (fun x => forall c, (c < ax_p x)%nat -> ax_lo x c < ax_hi x c) (proc_axes g ps).
Notation PA := (proc_axes g ps).
Definition cy_one (phi : Z -> list Q -> nat -> K) L0 s := whole_two pos PA (pbc qk st (velk st) (symk r) phi g ps Cython mss) (cython_text K n pos PA (velk st) sp) L0 s.
Definition np_one (phi : Z -> list Q -> nat -> K) s := whole_one pos PA (pbc qk st (velk st) (symk r) phi g ps Numpy mss) n (numpy_text K n pos PA (velk st) sp) s.
(* t steps, phis t for the walls during the step t *)
Fixpoint cy_all (phis : nat -> Z -> list Q -> nat -> K) L0 t s := match t with O => s | Datatypes.S t => cy_one (phis t) (L0 t) (cy_all phis L0 t s) end.
Fixpoint np_all (phis : nat -> Z -> list Q -> nat -> K) t s := match t with O => s | Datatypes.S t => np_one (phis t) (np_all phis t s) end.
(* NumPy raises no error on any process *)
Definition np_ok (phi : Z -> list Q -> nat -> K) s := forall c, coords_ok PA c ->
  whole_one_at pos PA (pbc qk st (velk st) (symk r) phi g ps Numpy mss) n (numpy_text K n pos PA (velk st) sp) s c <> None.

Lemma any_fits : GlobalProps.fits PA (velk st) n.
Proof using E HP. exact (serial_fits _ _ _ _ _ _ _ _ _ _ E ps (proj1 HP)). Qed.
Lemma any_pos : (pos <= length PA)%nat.
Proof using Hpos. now rewrite pa_len. Qed.
Lemma any_bc be phi F G c i : ParallelProps.regular phi -> holds K PA n F G -> coords_ok PA c -> inner PA c i ->
  agree K n (step_of K sp (fun j => pbc qk st (velk st) (symk r) phi g ps be mss F c (shift_cell (velk st) j i) j)) (any_ref be phi G (globc PA c i)).
Proof using E HQ HP KO.
  intros Hphi HG Hc Hi. destruct KO as [KB KS KC]. apply (step_agree K n); try assumption.
  intros j Hj. eapply (pbc_ref dimz schemes st r g es labs conds D ms E); eassumption.
Qed.
Lemma cy_one_holds phi L0 s G : ParallelProps.regular phi -> holds K PA n (fst s) G -> holds K PA n (fst (cy_one phi L0 s)) (any_ref Cython phi G).
Proof using E HQ HP KO NE Hpos.
  intros Hphi HG c i Hc Hi. eapply agree_trans; [apply (any_two_value K n pos PA (velk st) sp any_pos any_fits NE KO); assumption|]. now apply any_bc.
Qed.
Lemma np_one_holds phi s G : kernel_numpy K sp -> ParallelProps.regular phi -> holds K PA n (fst s) G -> holds K PA n (fst (np_one phi s)) (any_ref Cython phi G) /\ np_ok phi s.
Proof using E HQ HP KO NE Hpos.
  intros N Hphi HG. split.
  - intros c i Hc Hi. destruct (any_one_value K n pos PA (velk st) sp any_pos any_fits NE KO (pbc qk st (velk st) (symk r) phi g ps Numpy mss) s c N Hc) as [_ H].
    eapply agree_trans; [now apply H|]. eapply agree_trans; [apply any_bc; eassumption|]. apply any_ref_backend.
  - intros c Hc. now apply (any_one_value K n pos PA (velk st) sp any_pos any_fits NE KO).
Qed.
End Procs.

(* One global state: every value after a step is what the statements compute from what arrives;
   every process grid, every order of the storage and both back ends give this state. *)
Theorem C92_rounded (phis : nat -> Z -> list Q -> nat -> K) (G0 : list Z -> vec K) : (forall t, ParallelProps.regular (phis t)) ->
  exists G : nat -> list Z -> vec K, G 0%nat = G0 /\
  (forall t x, exists f, (forall j, (j < n)%nat -> arrives st r g ms K qk (phis t) (G t) x j (f j)) /\ G (S t) x = step_of K sp f) /\
  forall ps Ds mss pos, parallel st g es labs conds ps Ds mss -> Forall (fun x => forall c, (c < ax_p x)%nat -> ax_lo x c < ax_hi x c) (proc_axes g ps) -> (pos <= dim g)%nat ->
  forall s, holds K (proc_axes g ps) n (fst s) G0 ->
  (forall L0 t, holds K (proc_axes g ps) n (fst (cy_all pos ps mss phis L0 t s)) (G t)) /\
  (kernel_numpy K sp -> forall t, holds K (proc_axes g ps) n (fst (np_all pos ps mss phis t s)) (G t) /\ np_ok pos ps mss (phis t) (np_all pos ps mss phis t s)).
Proof using E HQ KO.
  intros Hphis. exists (fix run t := match t with O => G0 | S t => any_ref Cython (phis t) (run t) end). split; [reflexivity|]. split.
  - intros t x. set (Gt := (fix run t := match t with O => G0 | S t => any_ref Cython (phis t) (run t) end) t).
    exists (fun k => boundary_condition K qk g (velk st) (symk r) (feq_of st (phis t) g) Cython ms (gfield g K Gt) k (before st g k (cell_of g x))).
    split; [|reflexivity]. intros j _. now apply (arrives_bc dimz schemes st r g es labs conds D ms E HQ).
  - intros ps Ds mss pos HP NE Hpos s HG. split.
    + intros L0 t. induction t as [|t IH]; [exact HG|]. cbn [cy_all]. now apply (cy_one_holds pos ps Ds mss Hpos HP NE).
    + intros N.
      assert (X : forall t, holds K (proc_axes g ps) n (fst (np_all pos ps mss phis t s)) ((fix run t := match t with O => G0 | S t => any_ref Cython (phis t) (run t) end) t)).
      { induction t as [|t IH]; [exact HG|]. cbn [np_all]. now apply (np_one_holds pos ps Ds mss Hpos HP NE). }
      intros t. split; [apply X|]. exact (proj2 (np_one_holds pos ps Ds mss Hpos HP NE (phis t) _ _ N (Hphis t) (X t))).
Qed.
(* Two process grids from the same data: the same values, bit for bit. *)
Theorem C92_process_grids (phis : nat -> Z -> list Q -> nat -> K) ps Ds mss pos ps' Ds' mss' pos' s s' L0 L0' : (forall t, ParallelProps.regular (phis t)) ->
  parallel st g es labs conds ps Ds mss -> parallel st g es labs conds ps' Ds' mss' ->
  Forall (fun x => forall c, (c < ax_p x)%nat -> ax_lo x c < ax_hi x c) (proc_axes g ps) -> Forall (fun x => forall c, (c < ax_p x)%nat -> ax_lo x c < ax_hi x c) (proc_axes g ps') ->
  (pos <= dim g)%nat -> (pos' <= dim g)%nat ->
  let same := glued (proc_axes g ps) (proc_axes g ps') n in
  same (fst s) (fst s') -> forall t,
  same (fst (cy_all pos ps mss phis L0 t s)) (fst (cy_all pos' ps' mss' phis L0' t s')) /\
  (kernel_numpy K sp -> same (fst (np_all pos ps mss phis t s)) (fst (np_all pos' ps' mss' phis t s')) /\
     same (fst (cy_all pos ps mss phis L0 t s)) (fst (np_all pos' ps' mss' phis t s'))).
Proof using E HQ KO.
  intros Hphis HP HP' NE NE' Hp Hp' same HG t.
  pose proof (serial_fits _ _ _ _ _ _ _ _ _ _ E ps (proj1 HP)) as Hf. pose proof (serial_fits _ _ _ _ _ _ _ _ _ _ E ps' (proj1 HP')) as Hf'.
  destruct (holds_ex K _ _ n (fst s) Hf) as [R R1].
  assert (Hn : map ax_n (proc_axes g ps) = map ax_n (proc_axes g ps')) by (unfold proc_axes; rewrite !map_map; reflexivity).
  assert (R2 : holds K (proc_axes g ps') n (fst s') R).
  { pose proof Hf as (Hd & Hok & Hv). pose proof Hf' as (Hd' & Hok' & Hv'). intros c' i' Hc' Hi' k Hk.
    assert (C : gcell (proc_axes g ps) (globc (proc_axes g ps') c' i')).
    { apply gcell_cell_ok. rewrite Hn. apply gcell_cell_ok. apply globc_gcell; assumption. }
    destruct (gcell_globc (proc_axes g ps) 0%nat Hd Hok _ C) as (c & i & Hc & Hi & Eg).
    rewrite <- (HG c i c' i' k Hc Hi Hc' Hi' Hk Eg). rewrite <- Eg. apply R1; assumption. }
  destruct (C92_rounded phis R Hphis) as (G & _ & _ & H).
  destruct (H ps Ds mss pos HP NE Hp s R1) as [A1 A2]. destruct (H ps' Ds' mss' pos' HP' NE' Hp' s' R2) as [B1 B2].
  assert (X : forall P P' R', holds K (proc_axes g ps) n P R' -> holds K (proc_axes g ps') n P' R' -> same P P').
  { intros P P' R' H1 H2 c i c' i' k Hc Hi Hc' Hi' Hk Eg. rewrite (H1 c i Hc Hi k Hk), Eg. symmetry. apply H2; assumption. }
  split; [eapply X; [apply A1|apply B1]|]. intros N. split; (eapply X; [|apply B2; exact N]); [now apply A2|apply A1].
Qed.
End Run.
Print Assumptions C92_rounded.
Print Assumptions C92_process_grids.

(* The statements of the algorithms pull and base are such lists, for every scheme. *)
Section Algorithms.
Variable K : arith.
Implicit Types (e : sym K) (t : term K).
Lemma reads_sub W (s : nat -> sym K) t : (forall i, In i (vars K t) -> reads K W (s i)) -> reads K W (tsub K s t).
Proof.
  induction t; cbn; intros H; [exact I|apply H; now left|now apply IHt|].
  split; [apply IHt1|apply IHt2]; intros i Hi; apply H, in_or_app; tauto.
Qed.
Lemma reads_sum W m (f : nat -> sym K) : (forall j, (j < m)%nat -> reads K W (f j)) -> reads K W (ysum K m f).
Proof.
  intros H. unfold ysum. assert (X : forall j, In j (seq 0 m) -> reads K W (f j)) by (intros j Hj; apply H; apply in_seq in Hj; lia).
  revert X. induction (seq 0 m) as [|j l IH]; cbn; intros X; [exact I|]. split; [apply X; now left|apply IH; intros i Hi; apply X; now right].
Qed.
Lemma reads_mv W m M (f : nat -> sym K) i : (forall j, (j < m)%nat -> reads K W (M i j)) -> (forall j, (j < m)%nat -> reads K W (f j)) -> reads K W (ymv K m M f i).
Proof. intros H1 H2. apply reads_sum. intros j Hj. split; auto. Qed.
Lemma scoped_app W p q : scoped K W p -> scoped K (rev (map fst p) ++ W) q -> scoped K W (p ++ q).
Proof.
  revert W. induction p as [|s p IH]; intros W H1 H2; [exact H2|]. destruct H1 as [H0 H1]. split; [exact H0|]. apply IH; [exact H1|].
  cbn [map rev] in H2. rewrite <- app_assoc in H2. exact H2.
Qed.
(* W' is W and moments or velocities *)
Definition ext (W W' : list target) : Prop := incl W W' /\ forall k, In (TFn k) W' -> In (TFn k) W.
Lemma ext_refl W : ext W W.
Proof. split; [apply incl_refl|auto]. Qed.
Lemma ext_trans W W' W2 : ext W W' -> ext W' W2 -> ext W W2.
Proof. intros [A1 A2] [B1 B2]. split; [eapply incl_tran; eassumption|auto]. Qed.
Lemma scoped_assign (tg : nat -> target) lo hi (e : nat -> sym K) : forall W, (forall k W', (lo <= k < hi)%nat -> incl W W' -> ((forall k j, tg k <> TFn j) -> ext W W') -> reads K W' (e k)) ->
  scoped K W (sassign K tg lo hi e).
Proof.
  unfold sassign. assert (G : forall l W, (forall k W', In k l -> incl W W' -> ((forall k j, tg k <> TFn j) -> ext W W') -> reads K W' (e k)) -> scoped K W (map (fun k => (tg k, e k)) l)).
  { induction l as [|k l IH]; intros W H; [exact I|]. split; cbn [fst snd].
    - apply H; [now left|apply incl_refl|intros _; apply ext_refl].
    - apply IH. intros k' W' Hk HI HE. apply H; [now right| |].
      + intros x Hx. apply HI. now right.
      + intros N. eapply ext_trans; [|exact (HE N)]. split; [intros x Hx; now right|]. intros j [X|Hj]; [now destruct (N k j)|exact Hj]. }
  intros W H. apply G. intros k W' Hk. apply H. apply in_seq in Hk. lia.
Qed.
Lemma assign_targets (tg : nat -> target) lo hi (e : nat -> sym K) x : In x (map fst (sassign K tg lo hi e)) <-> exists k, (lo <= k < hi)%nat /\ x = tg k.
Proof.
  unfold sassign. rewrite map_map. cbn. rewrite in_map_iff. split.
  - intros (k & <- & Hk). apply in_seq in Hk. exists k. split; [lia|reflexivity].
  - intros (k & Hk & ->). exists k. split; [reflexivity|]. apply in_seq. lia.
Qed.
Lemma ext_assign (tg : nat -> target) lo hi (e : nat -> sym K) W : (forall k j, tg k <> TFn j) -> ext W (rev (map fst (sassign K tg lo hi e)) ++ W).
Proof.
  intros N. split; [intros x Hx; apply in_or_app; now right|]. intros k Hk. apply in_app_iff in Hk as [Hk|Hk]; [|exact Hk].
  apply in_rev, assign_targets in Hk as (j & _ & X). symmetry in X. now apply N in X.
Qed.

Variable a : salgo K.
Hypothesis S : scheme_ok K a.
Notation n := (sa_n K a).
Notation nc := (sa_nc K a).
Definition ready (W : list target) : Prop := (forall k, (k < n)%nat -> In (TM k) W) /\ (sa_relvel K a <> None -> forall j, (j < sa_dim K a)%nat -> In (TU j) W).
Lemma ready_incl W W' : ready W -> incl W W' -> ready W'.
Proof. intros [A B] H. split; [intros k Hk; now apply H, A|intros N j Hj; now apply H, B]. Qed.
Lemma reads_Tu W i j : (forall d, (d < sa_dim K a)%nat -> In (TU d) W) -> (i < n)%nat -> (j < n)%nat -> reads K W (yTu K a i j) /\ reads K W (yTmu K a i j).
Proof using S. intros H Hi Hj. split; apply reads_sub; intros d Hd; apply H; exact (so_Tu K a S i j Hi Hj d Hd). Qed.
Lemma reads_Mu W i j : (forall d, (d < sa_dim K a)%nat -> In (TU d) W) -> (i < n)%nat -> (j < n)%nat -> reads K W (yMu K a i j) /\ reads K W (yinvMu K a i j).
Proof using S. intros H Hi Hj. split; apply reads_sum; intros k Hk; (split; [|]); try exact I; now apply reads_Tu. Qed.
Lemma scoped_f2m W (src : nat -> sym K) : (forall W' k, ext W W' -> (k < n)%nat -> reads K W' (src k)) ->
  scoped K W (sf2m K a src) /\ ready (rev (map fst (sf2m K a src)) ++ W) /\ ext W (rev (map fst (sf2m K a src)) ++ W).
Proof using S.
  intros Hs. pose proof (so_nc K a S) as Hn. unfold sf2m, ready. destruct (sa_relvel K a) as [rel|] eqn:R.
  - set (p1 := sassign K TM 0 nc (ymv K n (yM K a) src)). set (p2 := sassign K TU 0 (sa_dim K a) (fun j => tsub K YMom (rel j))). set (p3 := sassign K TM nc n (ymv K n (yMu K a) src)).
    assert (E1 : ext W (rev (map fst p1) ++ W)) by (apply ext_assign; discriminate).
    assert (E2 : ext (rev (map fst p1) ++ W) (rev (map fst p2) ++ rev (map fst p1) ++ W)) by (apply ext_assign; discriminate).
    assert (E3 : ext (rev (map fst p2) ++ rev (map fst p1) ++ W) (rev (map fst p3) ++ rev (map fst p2) ++ rev (map fst p1) ++ W)) by (apply ext_assign; discriminate).
    assert (EQ : rev (map fst (p1 ++ p2 ++ p3)) ++ W = rev (map fst p3) ++ rev (map fst p2) ++ rev (map fst p1) ++ W) by (rewrite !map_app, !rev_app_distr, <- !app_assoc; reflexivity).
    assert (M1 : forall k, (k < nc)%nat -> In (TM k) (rev (map fst p1) ++ W)) by (intros k Hk; apply in_or_app; left; rewrite <- in_rev; apply assign_targets; exists k; split; [lia|reflexivity]).
    assert (M2 : forall j, (j < sa_dim K a)%nat -> In (TU j) (rev (map fst p2) ++ rev (map fst p1) ++ W)) by (intros j Hj; apply in_or_app; left; rewrite <- in_rev; apply assign_targets; exists j; split; [lia|reflexivity]).
    assert (M3 : forall k, (nc <= k < n)%nat -> In (TM k) (rev (map fst p3) ++ rev (map fst p2) ++ rev (map fst p1) ++ W)) by (intros k Hk; apply in_or_app; left; rewrite <- in_rev; apply assign_targets; exists k; split; [lia|reflexivity]).
    rewrite EQ. split; [|split; [split|]].
    + apply scoped_app; [|apply scoped_app].
      * apply scoped_assign. intros k W' Hk _ HE. apply reads_mv; intros j Hj; [exact I|]. apply Hs; [apply HE; discriminate|exact Hj].
      * apply scoped_assign. intros k W' Hk HI _. apply reads_sub. intros i Hi. apply HI, M1. exact (so_rel K a S rel k R ltac:(lia) i Hi).
      * apply scoped_assign. intros k W' Hk HI HE. apply reads_mv; intros j Hj.
        -- apply reads_Mu; [intros d Hd; now apply HI, M2|lia|exact Hj].
        -- apply Hs; [|exact Hj]. eapply ext_trans; [exact E1|]. eapply ext_trans; [exact E2|]. apply HE. discriminate.
    + intros k Hk. destruct (Nat.lt_ge_cases k nc) as [L|L]; [|apply M3; lia]. apply (proj1 E3), (proj1 E2). now apply M1.
    + intros _ j Hj. apply (proj1 E3). now apply M2.
    + eapply ext_trans; [exact E1|]. eapply ext_trans; [exact E2|exact E3].
  - split; [|split; [split; [|congruence]|apply ext_assign; discriminate]].
    + apply scoped_assign. intros k W' Hk _ HE. apply reads_mv; intros j Hj; [exact I|]. apply Hs; [apply HE; discriminate|exact Hj].
    + intros k Hk. apply in_or_app. left. rewrite <- in_rev. apply assign_targets. exists k. split; [lia|reflexivity].
Qed.
Lemma reads_eq W k : ready W -> (k < n)%nat -> reads K W (yeq K a k).
Proof using S. intros [H _] Hk. apply reads_sub. intros i Hi. apply H. pose proof (so_eq K a S k Hk i Hi). pose proof (so_nc K a S). lia. Qed.
Lemma reads_s W k : ready W -> (k < n)%nat -> reads K W (ys K a k).
Proof using S. intros [H _] Hk. apply reads_sub. intros i Hi. apply H. pose proof (so_s K a S k Hk i Hi). pose proof (so_nc K a S). lia. Qed.
Lemma scoped_relaxation W : ready W -> scoped K W (srelaxation K a).
Proof using S.
  intros H. apply scoped_assign. intros k W' Hk HI _. pose proof (ready_incl _ _ H HI) as H'. cbn. split; split.
  - split; [exact I|apply reads_s; [exact H'|lia]].
  - apply (proj1 H'). lia.
  - apply reads_s; [exact H'|lia].
  - destruct (sa_relvel K a) eqn:R; [|apply reads_eq; [exact H'|lia]]. apply reads_mv; intros j Hj; [|now apply reads_eq].
    apply reads_Tu; [apply (proj2 H'); congruence|lia|exact Hj].
Qed.
Lemma scoped_source W : ready W -> scoped K W (swith_source K a).
Proof using S.
  intros H. unfold swith_source. assert (X : scoped K W (ssource K a)); [|destruct (sa_source K a); [exact I|exact X]].
  apply scoped_assign. intros k W' Hk HI _. pose proof (ready_incl _ _ H HI) as H'. unfold ssource_of.
  destruct (find _ (rev (sa_source K a))) as [[i g]|] eqn:E; [|apply (proj1 H'); lia].
  apply find_some in E as [E _]. apply in_rev in E. cbn. split; [apply (proj1 H'); lia|]. split; [exact I|]. apply reads_sub. intros j Hj. apply (proj1 H'). exact (so_src K a S i g E j Hj).
Qed.
Lemma scoped_m2f W : ready W -> scoped K W (sm2f K a).
Proof using S.
  intros H. unfold sm2f. destruct (sa_relvel K a) eqn:R; apply scoped_assign; intros k W' Hk HI _; pose proof (ready_incl _ _ H HI) as H'; apply reads_mv; intros j Hj; try exact I; try now apply (proj1 H').
  apply reads_Mu; [apply (proj2 H'); congruence|lia|exact Hj].
Qed.
Lemma scoped_restore W : ready W -> sa_relvel K a <> None -> (forall k, ~ In (TFn k) W) -> scoped K W (srestore K a).
Proof using S.
  intros H R N. pose proof (so_nc K a S). apply scoped_assign. intros k W' Hk HI HE. pose proof (ready_incl _ _ H HI) as H'. apply reads_mv; intros j Hj.
  - apply reads_Mu; [now apply (proj2 H')|lia|exact Hj].
  - intros X. apply (N j). now apply HE; [discriminate|].
Qed.
Lemma ext_source W : ext W (rev (map fst (swith_source K a)) ++ W).
Proof. unfold swith_source. pose proof (ext_assign TM 0 n (fun k => match ssource_of K a k with Some g => yadd K (YMom k) (ymul K (YNum (sa_hdt K a)) (tsub K YMom g)) | None => YMom k end) W) as H. destruct (sa_source K a); [apply ext_refl|apply H; discriminate]. Qed.
Lemma ext_relaxation W : ext W (rev (map fst (srelaxation K a)) ++ W).
Proof. apply ext_assign. discriminate. Qed.
Lemma all_m2f : complete K n (sm2f K a).
Proof. intros k Hk. unfold sm2f. destruct (sa_relvel K a); apply assign_targets; exists k; (split; [lia|reflexivity]). Qed.

Theorem C92_pull : kernel_ok K n (spull K a).
Proof using S.
  constructor.
  - apply (parts_bounded K a true), parts_pull; [exact S|discriminate].
  - destruct (scoped_f2m [] YOld) as (A1 & A2 & A3); [intros W' k [_ HE] _ X; exact (HE k X)|]. rewrite app_nil_r in A2, A3. set (W1 := rev (map fst (sf2m K a YOld))) in *.
    pose proof (ext_source W1) as E2. set (W2 := rev (map fst (swith_source K a)) ++ W1) in *. pose proof (ready_incl _ _ A2 (proj1 E2)) as R2.
    pose proof (ext_relaxation W2) as E3. set (W3 := rev (map fst (srelaxation K a)) ++ W2) in *. pose proof (ready_incl _ _ R2 (proj1 E3)) as R3.
    assert (N3 : forall k, ~ In (TFn k) W3) by (intros k Hk; apply (proj2 A3 k), (proj2 E2 k), (proj2 E3 k); exact Hk).
    unfold spull. apply scoped_app; [exact A1|]. rewrite app_nil_r. fold W1. apply scoped_app; [now apply scoped_source|]. fold W2. apply scoped_app; [now apply scoped_relaxation|]. fold W3.
    assert (X : forall p, scoped K W3 p -> scoped K W3 (p ++ swith_source K a ++ sm2f K a)).
    { intros p Hp. apply scoped_app; [exact Hp|]. assert (R4 : ready (rev (map fst p) ++ W3)) by (apply (ready_incl _ _ R3); intros x Hx; apply in_or_app; now right).
      apply scoped_app; [now apply scoped_source|]. apply scoped_m2f. apply (ready_incl _ _ R4). intros x Hx. apply in_or_app. now right. }
    apply X. destruct (sa_relvel K a) eqn:R; [|exact I]. apply scoped_restore; [exact R3|congruence|exact N3].
  - intros k Hk. unfold spull. rewrite !map_app, !in_app_iff. do 5 right. now apply all_m2f.
Qed.
Theorem C92_base : kernel_ok K n (sbase K a).
Proof using S.
  constructor.
  - apply (parts_bounded K a true), parts_base; [exact S|discriminate].
  - unfold sbase. assert (A0 : scoped K [] (stransport K a)).
    { unfold stransport, sassign. rewrite Nat.sub_0_r. assert (G : forall l W, NoDup l -> (forall k, In k l -> ~ In (TFn k) W) -> scoped K W (map (fun k => (TFn k, YOld k)) l)).
      { induction l as [|k l IH]; intros W ND H; [exact I|]. inversion ND as [|? ? N1 N2]; subst. split; [apply H; now left|]. apply IH; [exact N2|]. intros j Hj [X|X]; [|apply (H j); [now right|exact X]]. cbn in X. injection X as ->. contradiction. }
      apply G; [apply seq_NoDup|]. intros k _ []. }
    apply scoped_app; [exact A0|]. rewrite app_nil_r. set (W0 := rev (map fst (stransport K a))).
    assert (T0 : forall k, (k < n)%nat -> In (TFn k) W0) by (intros k Hk; unfold W0; rewrite <- in_rev; apply assign_targets; exists k; split; [lia|reflexivity]).
    destruct (scoped_f2m W0 YNew) as (A1 & A2 & A3); [intros W' k [HI _] Hk; apply HI; now apply T0|].
    apply scoped_app; [exact A1|]. set (W1 := rev (map fst (sf2m K a YNew)) ++ W0) in *.
    pose proof (ready_incl _ _ A2 (proj1 (ext_source W1))) as R2. apply scoped_app; [now apply scoped_source|]. set (W2 := rev (map fst (swith_source K a)) ++ W1) in *.
    pose proof (ready_incl _ _ R2 (proj1 (ext_relaxation W2))) as R3. apply scoped_app; [now apply scoped_relaxation|]. set (W3 := rev (map fst (srelaxation K a)) ++ W2) in *.
    pose proof (ready_incl _ _ R3 (proj1 (ext_source W3))) as R4. apply scoped_app; [now apply scoped_source|now apply scoped_m2f].
  - intros k Hk. unfold sbase. rewrite !map_app, !in_app_iff. do 5 right. now apply all_m2f.
Qed.
Theorem C92_numpy : numpy_ok K a -> kernel_numpy K (spull K a) /\ kernel_numpy K (sbase K a).
Proof using S.
  intros N. split; constructor.
  - apply (parts_nomv K a false); [reflexivity|]. apply parts_pull; [exact S|intros _; apply (no_s K a N)].
  - now apply view_pull.
  - apply (parts_nomv K a false); [reflexivity|]. apply parts_base; [exact S|intros _; apply (no_s K a N)].
  - now apply view_base.
Qed.
End Algorithms.
Print Assumptions C92_pull.
Print Assumptions C92_base.
Print Assumptions C92_numpy.

(* What SymPy does with the right-hand sides (other order, factors, common subexpressions kept
   in place) does not matter as long as no symbol is added. *)
Section Rearranged.
Variable K : arith.
Fixpoint leaves (e : sym K) : list (sym K) := match e with
  | YNum _ => []
  | YUn _ e => leaves e
  | YBin _ e1 e2 => leaves e1 ++ leaves e2
  | _ => [e]
  end.
Definition rearranged (sp sp' : list (sstmt K)) : Prop := Forall2 (fun s s' => fst s = fst s' /\ incl (leaves (snd s')) (leaves (snd s))) sp sp'.
Lemma leaves_ok (P : sym K -> Prop) (C1 : forall c, P (YNum c)) (CU : forall o e, P (YUn o e) <-> P e) (CB : forall o e1 e2, P (YBin o e1 e2) <-> P e1 /\ P e2) e :
  P e <-> forall l, In l (leaves e) -> P l.
Proof.
  induction e; cbn; try (split; [intros H l [<-|[]]; exact H|intros H; apply H; now left]).
  - split; [intros _ l []|intros _; apply C1].
  - rewrite CU. exact IHe.
  - rewrite CB, IHe1, IHe2. split; [intros [H1 H2] l Hl; apply in_app_iff in Hl as [Hl|Hl]; auto|]. intros H. split; intros l Hl; apply H, in_or_app; tauto.
Qed.
Theorem C92_rearranged n sp sp' : rearranged sp sp' -> kernel_ok K n sp -> kernel_ok K n sp'.
Proof.
  intros H [KB KS KC]. constructor.
  - clear KS KC. induction H as [|s s' sp sp' [H1 H2] H IH]; [constructor|]. inversion KB as [|? ? [B1 B2] B3]; subst. constructor; [|now apply IH].
    split; [now rewrite <- H1|]. apply (leaves_ok (sbound K n)); [intros; exact I|intros; reflexivity|intros; reflexivity|]. intros l Hl.
    apply (proj1 (leaves_ok (sbound K n) (fun _ => I) (fun _ _ => iff_refl _) (fun _ _ _ => iff_refl _) (snd s)) B2). now apply H2.
  - clear KB KC. revert KS. generalize (@nil target) as W. induction H as [|s s' sp sp' [H1 H2] H IH]; intros W KS; [exact I|]. destruct KS as [S1 S2]. split; [|rewrite <- H1; now apply IH].
    apply (leaves_ok (reads K W)); [intros; exact I|intros; reflexivity|intros; reflexivity|]. intros l Hl.
    apply (proj1 (leaves_ok (reads K W) (fun _ => I) (fun _ _ => iff_refl _) (fun _ _ _ => iff_refl _) (snd s)) S1). now apply H2.
  - intros k Hk. assert (X : map fst sp' = map fst sp) by (clear - H; induction H as [|s s' sp sp' [H1 _] H IH]; cbn; congruence). rewrite X. now apply KC.
Qed.
End Rearranged.
Print Assumptions C92_rearranged.
