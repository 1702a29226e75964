(* Property C57: several processes compute what one process computes, with boundary
   conditions on the sides of the box and on solid elements. *)
From Coq Require Import QArith Qcanon Lqa.
From Verif Require Import PyBase VelocityModel VelocityProofs Velocity3Proofs StencilModel StencilProofs GridModel GridProofs StorageModel
  ExchangeProofs StorageProps LinAlg AlgoModel AlgoProofs RelVelProofs KernelProofs GlobalModel GlobalProofs TorusProofs DomainModel DomainProofs DomainProps
  GeometryModel GeometryProps BoundaryModel BoundaryProofs BoundaryProps BoundaryUpdProps AlgoProps GlobalProps VesselProofs VesselProps ChannelProps
  ParallelModel ParallelProofs ObstacleProofs.
Open Scope Z_scope.

(* The box g with the solid elements es on one process: labs are the labels of the
   elements, D is the domain, ms are the links of the conditions.  The user's labels are
   not -2 (on the box) and not 999, the marks of the code. *)
Record serial dimz schemes st r g (es : list DomainModel.elem) labs conds D ms : Prop := {
  e_nn : nonneg schemes;
  e_build : build_stencil dimz schemes = Some st;
  e_sym : stencil_get_symmetric st None = Some r;
  e_vel : g_vel g = map vel_list (sunique st);
  e_dim : Z.of_nat (dim g) = dimz /\ (dim g <= 3)%nat;
  e_wf : wf_grid g;
  e_fun : forall lab s m m', In (s, m) (conds lab) -> In (s, m') (conds lab) -> m = m';
  e_lab : length (g_lab g) = (2 * dim g)%nat;
  e_marks : ~ In (-2) (g_lab g) /\ ~ In valin (g_lab g);
  e_obst : forall e, In e es -> obstacle g labs e;
  e_thick : thick g es;
  e_labs : ~ In valin labs;
  e_dom : domain_init g es = Some D;
  e_bound : boundary st g D conds (labels_of g labs) = Some ms
}.
(* The same box and elements on the process grid ps. *)
Definition parallel st g es labs conds ps (Ds : list nat -> dom) (mss : list nat -> list (method * list blink)) : Prop :=
  Forall ax_ok (proc_axes g ps) /\
  forall c, coords_ok (proc_axes g ps) c ->
    domain_init (local_grid g ps c) es = Some (Ds c) /\
    boundary st (local_grid g ps c) (Ds c) conds (labels_of (local_grid g ps c) labs) = Some (mss c).

Section C57.
Variables (dimz : Z) (schemes : list (list Z)) (st : stencil) (r : list Z) (g : grid) (es : list DomainModel.elem) (labs : list Z) (conds : Z -> list (nat * method)).
Variables (D : dom) (ms : list (method * list blink)).
Hypothesis E : serial dimz schemes st r g es labs conds D ms.
Notation n := (length (concat schemes)).

Lemma in_labels lab : In lab (labels_of g labs) <-> In lab (g_lab g) \/ In lab labs.
Proof using. unfold labels_of, union1d. now rewrite unique_in, in_app_iff, unique_in. Qed.
Lemma serial_setting : setting dimz schemes st r g D conds (labels_of g labs) ms.
Proof using E.
  destruct E as [E1 E2 E3 E4 Ed E5 E6 E7 E8 Eo Et El E9 E10]. split; try assumption.
  - apply (joins_ok g es D); [assumption| |assumption]. intros e He. split; apply (Eo e He).
  - rewrite in_labels. intros [C|C]; [exact (proj2 E8 C)|exact (El C)].
Qed.
Lemma lab_ok i : (i < 2 * dim g)%nat -> (g_lab g)@i <> -2.
Proof using E. intros H C. apply (proj1 (e_marks _ _ _ _ _ _ _ _ _ _ E)). rewrite <- C. apply nth_In. now rewrite (e_lab _ _ _ _ _ _ _ _ _ _ E). Qed.

Section P.
Variable ps : list nat.
Hypothesis Hok : Forall ax_ok (proc_axes g ps).
Variable c : list nat.
Hypothesis Hc : coords_ok (proc_axes g ps) c.
Notation lg := (local_grid g ps c).
Lemma in_llabels lab : In lab (labels_of lg labs) -> lab = -2 \/ In lab (labels_of g labs).
Proof using E.
  rewrite in_labels. unfold labels_of, union1d. rewrite unique_in, in_app_iff, unique_in. cbn [local_grid g_lab]. intros [H|H]; [|now right; right].
  apply in_map_iff in H. destruct H as (i & <- & Hi). apply in_seq in Hi. unfold local_label.
  assert (X : In (g_lab g)@i (g_lab g)) by (apply nth_In; rewrite (e_lab _ _ _ _ _ _ _ _ _ _ E); lia).
  destruct (Nat.even i); destruct (_ =? _); auto.
Qed.
Section D.
Variables (Dc : dom).
Hypothesis HD : domain_init lg es = Some Dc.
Lemma plain_part : part_of g D ps c Dc.
Proof using E Hok Hc HD.
  apply (obstacles_part g ps Hok (e_wf _ _ _ _ _ _ _ _ _ _ E) c Hc labs es); try assumption; [apply lab_ok|apply E|apply E|apply E].
Qed.
Lemma plain_labels : same_labels g ps c Dc (labels_of g labs) (labels_of lg labs).
Proof using E Hok Hc HD.
  split; [intros lab H; now apply in_llabels|].
  intros k i Hk Li Hi lab Hlab.
  destruct (obstacles_part g ps Hok (e_wf _ _ _ _ _ _ _ _ _ _ E) c Hc labs es D Dc lab_ok (e_obst _ _ _ _ _ _ _ _ _ _ E)
    (e_thick _ _ _ _ _ _ _ _ _ _ E) (e_dom _ _ _ _ _ _ _ _ _ _ E) HD) as (_ & _ & H).
  specialize (H k i Hk Hi). fold lab in H. destruct H as [C|H].
  - exfalso. rewrite <- C in Hlab. exact (s_val _ _ _ _ _ _ _ _ _ serial_setting Hlab).
  - unfold labels_of, union1d. rewrite unique_in, in_app_iff, unique_in. now apply in_app_iff.
Qed.
Lemma plain_joins : joins lg Dc.
Proof using E Hok Hc HD.
  intros k v x Hk Hx Hf.
  assert (Hi : interior lg x = true).
  { destruct (interior lg x) eqn:Hi; [reflexivity|]. exfalso. apply Hf. exact (proj2 plain_part k x Hi). }
  assert (W : wf_grid lg).
  { apply lg_wf; try assumption; [apply (e_wf _ _ _ _ _ _ _ _ _ _ E)|]. intros d Hd. pose proof (proj1 (lg_interior g ps c x) Hi d Hd). lia. }
  refine (joins_ok lg es Dc W _ HD k v x Hk Hx Hf). intros e He. pose proof (e_obst _ _ _ _ _ _ _ _ _ _ E e He) as [_ O1 O2 O3 _].
  split; [now apply bounds_ser|now apply dist_ser].
Qed.
Lemma plain_setting msc : boundary st lg Dc conds (labels_of lg labs) = Some msc -> setting dimz schemes st r lg Dc conds (labels_of lg labs) msc.
Proof using E Hok Hc HD.
  intros HB. pose proof E as [E1 E2 E3 E4 Ed E5 E6 E7 E8 Eo Et El E9 E10]. split; try assumption.
  - apply plain_joins.
  - intros C. apply in_llabels in C. destruct C as [C|C]; [discriminate|]. exact (s_val _ _ _ _ _ _ _ _ _ serial_setting C).
Qed.
Lemma same_bvel lab k tab : bvel st g D lab k = Some tab -> exists t, bvel st lg Dc lab k = Some t.
Proof using.
  unfold bvel. destruct (nth_error _ _); [|discriminate]. destruct (VelocityModel.get_symmetric _ _); try discriminate.
  destruct (nth_error _ _); [|discriminate]. destruct (_ <? _); [discriminate|]. eauto.
Qed.
Lemma bounds_exist : exists msc, boundary st lg Dc conds (labels_of lg labs) = Some msc.
Proof using E.
  pose proof (e_bound _ _ _ _ _ _ _ _ _ _ E) as B. unfold boundary in *. destruct (mapM (label_links st g D conds) _) as [ls|] eqn:HL; [|discriminate].
  enough (exists r, mapM (label_links st lg Dc conds) (labels_of lg labs) = Some r) as [ls' ->] by (cbn; eauto).
  apply mapM_total. intros lab Hlab. unfold label_links. destruct ((lab =? -1) || (lab =? -2)) eqn:E12; [eauto|].
  apply in_llabels in Hlab. destruct Hlab as [->|Hlab]; [discriminate|].
  apply In_nth_error in Hlab. destruct Hlab as [i Hi]. destruct (mapM_nth _ _ _ HL _ _ Hi) as (y & _ & Hy). unfold label_links in Hy.
  rewrite E12 in Hy. destruct (bv_table st g D lab) as [tab|] eqn:ET; [|discriminate].
  assert (exists t, bv_table st lg Dc lab = Some t) as [t Et].
  { apply mapM_total. intros k Hk. unfold bv_table in ET. apply In_nth_error in Hk. destruct Hk as [j Hj].
    destruct (mapM_nth _ _ _ ET _ _ Hj) as (z & _ & Hz). eapply same_bvel; eauto. }
  rewrite Et. destruct (mapM (scheme_links st tab lab) (conds lab)) as [u|] eqn:EU; [|discriminate].
  enough (exists r, mapM (scheme_links st t lab) (conds lab) = Some r) as [u' ->] by (cbn; eauto).
  assert (Lt : length t = length tab).
  { unfold bv_table in *. apply mapM_spec in ET, Et. apply Forall2_length in ET, Et. congruence. }
  apply mapM_total. intros [s m] Hs. apply In_nth_error in Hs. destruct Hs as [j Hj]. destruct (mapM_nth _ _ _ EU _ _ Hj) as (z & _ & Hz).
  unfold scheme_links in *. cbn [fst snd] in *. destruct (nth_error (sv st) s) as [vs|]; [|discriminate].
  destruct (mapM (velocity_links st tab lab s) _) as [w|] eqn:EW; [|discriminate].
  enough (exists r, mapM (velocity_links st t lab s) (numbered vs) = Some r) as [w' ->] by (cbn; eauto).
  apply mapM_total. intros iv Hiv. apply In_nth_error in Hiv. destruct Hiv as [q Hq]. destruct (mapM_nth _ _ _ EW _ _ Hq) as (z' & _ & Hz').
  unfold velocity_links in *. destruct (nth_error (sunum2index st) _) as [idx|]; [|discriminate]. destruct (nth_error (snv_ptr st) s); [|discriminate].
  destruct (nth_error tab (Z.to_nat idx)) eqn:EN; [|discriminate]. destruct (nth_error t (Z.to_nat idx)) eqn:EN'; [eauto|].
  apply nth_error_None in EN'. assert (nth_error tab (Z.to_nat idx) <> None) by congruence. apply nth_error_Some in H. lia.
Qed.
End D.
End P.
Lemma vel_facts k : (k < n)%nat -> length (velk st k) = dim g /\ In (velk st k) (g_vel g).
Proof using E.
  intros Hk. pose proof (e_nn _ _ _ _ _ _ _ _ _ _ E) as Hn. pose proof (build_facts dimz schemes st Hn (e_build _ _ _ _ _ _ _ _ _ _ E)) as BF.
  assert (L : length (concat (sv st)) = n) by (rewrite <- (b_v _ _ _ BF), <- concat_map, map_length; reflexivity).
  unfold velk, get_all_velocities. destruct (nth_error (concat (sv st)) k) as [v|] eqn:Ev; [|apply nth_error_None in Ev; lia].
  rewrite (nth_error_nth _ _ _ (map_nth_error vel_list k _ Ev)). apply nth_error_In in Ev. apply in_concat in Ev. destruct Ev as (vs & Hvs & Hv).
  pose proof (b_vin _ _ _ BF vs v Hvs Hv) as Hu. split.
  - destruct (proj1 (Forall_forall _ _) (b_uwf _ _ _ BF) v Hu) as [Wv Dv]. apply wf_dim in Wv. destruct Wv as [Wv _].
    change (vel_list v) with (vcoords v). pose proof (proj1 (e_dim _ _ _ _ _ _ _ _ _ _ E)). lia.
  - rewrite (e_vel _ _ _ _ _ _ _ _ _ _ E). apply in_map. exact Hu.
Qed.
Lemma vel_le k d : (k < n)%nat -> (d < dim g)%nat -> Z.abs (velk st k)@d <= (g_h g)@d.
Proof using E. intros Hk Hd. apply (proj2 (proj2 (e_wf _ _ _ _ _ _ _ _ _ _ E))); [|exact Hd]. now apply vel_facts. Qed.
Lemma serial_fits ps : Forall ax_ok (proc_axes g ps) -> fits (proc_axes g ps) (velk st) n.
Proof using E.
  intros Hok. split; [rewrite pa_len; apply (e_dim _ _ _ _ _ _ _ _ _ _ E)|]. split; [exact Hok|]. intros k Hk. rewrite pa_len. split; [now apply vel_facts|].
  intros d Hd. rewrite pa_nth by exact Hd. now apply vel_le.
Qed.
Lemma before_shift g' k i : (k < n)%nat -> dim g' = dim g -> length i = dim g -> shift_cell (velk st) k i = before st g' k i.
Proof using E.
  intros Hk Hg Li. unfold shift_cell. apply (cell_ext g').
  - rewrite map2_length; [congruence|]. rewrite Li. symmetry. now apply vel_facts.
  - apply shift_len.
  - intros d Hd. rewrite Hg in Hd. unfold before. rewrite shift_nth, nth_opp by (rewrite Hg; exact Hd).
    rewrite (map2_nth _ 0 0); [lia|rewrite Li; symmetry; now apply vel_facts|lia].
Qed.
(* ---- one step ---- *)
Section Step.
Variables (K : arith) (qk : Q -> K) (a : algo K).
Hypothesis Hna : al_n a = n.
Hypothesis HA : algo_ok K a.
Hypothesis HQ : quiet st r g ms.
Definition cell_of (y : list Z) : cell := map (fun d => y@d + (g_h g)@d) (DomainModel.axes g).
Definition ref_step (be : backend) (phi : Z -> list Q -> nat -> K) (G : list Z -> vec K) : list Z -> vec K :=
  fun y => pull_fun K a (fun k => boundary_condition K qk g (velk st) (symk r) (feq_of st phi g) be ms (gfield g K G) k (before st g k (cell_of y))).
Definition regular (phi : Z -> list Q -> nat -> K) : Prop := forall lab x y k, Forall2 Qeq x y -> phi lab x k = phi lab y k.
Variables (ps : list nat) (Ds : list nat -> dom) (mss : list nat -> list (method * list blink)).
Hypothesis HP : parallel st g es labs conds ps Ds mss.
Notation PA := (proc_axes g ps).
Lemma cell_of_glob c i : coords_ok PA c -> length i = dim g -> cell_of (globc PA c i) = ser g ps c i.
Proof using E.
  intros Hc Li. apply (cell_ext g); [unfold cell_of, DomainModel.axes; now rewrite map_length, seq_length|apply ser_len|].
  intros d Hd. unfold cell_of. rewrite nth_axes by exact Hd. rewrite ser_glob; try assumption; [apply Z.sub_add|]. apply (e_dim _ _ _ _ _ _ _ _ _ _ E).
Qed.
Lemma pbc_ref be phi F G c i k : regular phi -> holds K PA n F G -> coords_ok PA c -> inner PA c i -> (k < n)%nat ->
  pbc qk st (velk st) (symk r) phi g ps be mss F c (shift_cell (velk st) k i) k =
  boundary_condition K qk g (velk st) (symk r) (feq_of st phi g) be ms (gfield g K G) k (before st g k (cell_of (globc PA c i))).
Proof using E HQ HP.
  intros Hphi HF Hc Hi Hk. destruct HP as [Hok HPc]. destruct (HPc c Hc) as [HD HB].
  apply inner_lg in Hi; [|exact Hok|exact Hc]. destruct Hi as [Li Hi].
  rewrite (before_shift (local_grid g ps c)); [|exact Hk|apply lg_dim|exact Li]. rewrite cell_of_glob by assumption. unfold pbc.
  apply (pbc_value dimz schemes st r g D conds (labels_of g labs) ms serial_setting ps (proj2 (e_dim _ _ _ _ _ _ _ _ _ _ E)) Hok c Hc (Ds c)
    (labels_of (local_grid g ps c) labs) (mss c) (plain_setting ps Hok c Hc (Ds c) HD (mss c) HB) (plain_part ps Hok c Hc (Ds c) HD)
    (plain_labels ps Hok c Hc (Ds c) HD)); try assumption. apply vel_le.
Qed.
Lemma two_ref be phi m0 u0 s G : regular phi -> holds K PA n (fst s) G ->
  holds K PA n (fst (two_step_bc PA (velk st) (pbc qk st (velk st) (symk r) phi g ps be mss) (pull_local a) m0 u0 s)) (ref_step be phi G).
Proof using E HQ HP Hna HA.
  intros Hphi HG c i Hc Hi k Hk. destruct HA as (He & Hs & HR).
  assert (Hd : (length PA <= 3)%nat) by (rewrite pa_len; apply (e_dim _ _ _ _ _ _ _ _ _ _ E)).
  set (B := pbc qk st (velk st) (symk r) phi g ps be mss).
  assert (E1 : agree K (al_n a) (fst (two_step_bc PA (velk st) B (pull_local a) m0 u0 s) c i)
     (pull_fun K a (fun k => B (fst s) c (shift_cell (velk st) k i) k))).
  { unfold two_step_bc. cbn [fst]. rewrite <- cython_loop_fluid_all.
    destruct (cython_fluid_spec K (list Z) list_eqb list_eqb_spec (shift_cell (velk st)) (fun _ => true) (pull_local a)
      (B (fst s) c) (loop_cells PA c) (snd s c, (m0, u0)) i) as [H _].
    destruct (H (proj2 (loop_spec PA Hd c i Hc) Hi) eq_refl) as (fx & mx & ux & _ & E0).
    refine (agree_trans K _ _ _ _ (fun j _ => f_equal (fun f => f j) E0) _).
    apply (pull_computes K a He Hs HR). }
  rewrite <- Hna in Hk. rewrite (E1 k Hk). unfold ref_step. apply (pull_fun_agree K a); try assumption.
  intros j Hj. apply pbc_ref; try assumption. now rewrite <- Hna.
Qed.
Lemma one_ref be phi s G : regular phi -> holds K PA n (fst s) G ->
  holds K PA n (fst (one_step_bc PA (velk st) (pbc qk st (velk st) (symk r) phi g ps be mss) (pull_local a) s)) (ref_step be phi G).
Proof using E HQ HP Hna HA.
  intros Hphi HG c i Hc Hi k Hk. destruct HA as (He & Hs & HR).
  assert (Hd : (length PA <= 3)%nat) by (rewrite pa_len; apply (e_dim _ _ _ _ _ _ _ _ _ _ E)).
  set (B := pbc qk st (velk st) (symk r) phi g ps be mss).
  assert (E2 : agree K (al_n a) (fst (one_step_bc PA (velk st) B (pull_local a) s) c i)
     (pull_fun K a (fun k => B (fst s) c (shift_cell (velk st) k i) k))).
  { destruct (pull_numpy K a (shift_cell (velk st)) (in_loop PA c) (B (fst s) c) (fst (snd s) c) (snd (snd s) c) i
      (proj2 (in_loop_spec PA 0%nat Hd c i Hc) Hi)) as (fn & mx & ux & E0).
    unfold one_step_bc. cbn [fst].
    refine (agree_trans K _ _ _ _ (fun j _ => f_equal (fun f => f j) E0) _).
    apply (pull_computes K a He Hs HR). }
  rewrite <- Hna in Hk. rewrite (E2 k Hk). unfold ref_step. apply (pull_fun_agree K a); try assumption.
  intros j Hj. apply pbc_ref; try assumption. now rewrite <- Hna.
Qed.
End Step.
End C57.
Arguments regular {K}.

(* ---- runs ---- phis: the functions of the boundary values, one for each time step *)
Definition two_run {K : arith} qk (a : algo K) st r g ps be mss m0 u0 phis s : fields K * fields K :=
  fold_left (fun s phi => two_step_bc (proc_axes g ps) (velk st) (pbc qk st (velk st) (symk r) phi g ps be mss) (pull_local a) m0 u0 s) phis s.
Definition one_run {K : arith} qk (a : algo K) st r g ps be mss phis s : fields K * (fields K * fields K) :=
  fold_left (fun s phi => one_step_bc (proc_axes g ps) (velk st) (pbc qk st (velk st) (symk r) phi g ps be mss) (pull_local a) s) phis s.

Theorem C57_parallel_is_serial : forall (K : arith) (qk : Q -> K) (a : algo K) dimz schemes st r g es labs conds D ms ps Ds mss ps' Ds' mss',
  serial dimz schemes st r g es labs conds D ms ->
  parallel st g es labs conds ps Ds mss -> parallel st g es labs conds ps' Ds' mss' ->
  (* no condition of the serial domain reads a value written by a condition *)
  quiet st r g ms ->
  al_n a = length (concat schemes) -> algo_ok K a ->
  forall be (F F' Fn Fn' : fields K) m0 u0 m0' u0' x x' phis, Forall regular phis ->
  let G := glued (proc_axes g ps) (proc_axes g ps') (al_n a) in
  G F F' ->
  G (fst (two_run qk a st r g ps be mss m0 u0 phis (F, Fn))) (fst (two_run qk a st r g ps' be mss' m0' u0' phis (F', Fn'))) /\
  G (fst (one_run qk a st r g ps be mss phis (F, x))) (fst (one_run qk a st r g ps' be mss' phis (F', x'))) /\
  G (fst (two_run qk a st r g ps be mss m0 u0 phis (F, Fn))) (fst (one_run qk a st r g ps' be mss' phis (F', x'))).
Proof.
  intros K qk a dimz schemes st r g es labs conds D ms ps Ds mss ps' Ds' mss' E HP HP' HQ Hna HA be F F' Fn Fn' m0 u0 m0' u0' x x' phis Hphis G HG.
  pose proof (serial_fits _ _ _ _ _ _ _ _ _ _ E ps (proj1 HP)) as Hf. pose proof (serial_fits _ _ _ _ _ _ _ _ _ _ E ps' (proj1 HP')) as Hf'.
  unfold G in *. rewrite Hna in *. set (n := length (concat schemes)) in *.
  destruct (holds_ex K _ _ n F Hf) as [R R1].
  assert (Hn : map ax_n (proc_axes g ps) = map ax_n (proc_axes g ps')) by (unfold proc_axes; rewrite !map_map; reflexivity).
  assert (R2 : holds K (proc_axes g ps') n F' R).
  { pose proof Hf as (Hd & Hok & Hv). pose proof Hf' as (Hd' & Hok' & Hv'). intros c' i' Hc' Hi' k Hk.
    assert (C : gcell (proc_axes g ps) (globc (proc_axes g ps') c' i')).
    { apply gcell_cell_ok. rewrite Hn. apply gcell_cell_ok. apply globc_gcell; assumption. }
    destruct (gcell_globc (proc_axes g ps) 0%nat Hd Hok _ C) as (c & i & Hc & Hi & Eg).
    rewrite <- (HG c i c' i' k Hc Hi Hc' Hi' Hk Eg). rewrite <- Eg. apply R1; assumption. }
  assert (T : forall ps Ds mss s m0 u0, parallel st g es labs conds ps Ds mss -> holds K (proc_axes g ps) n (fst s) R ->
    holds K (proc_axes g ps) n (fst (two_run qk a st r g ps be mss m0 u0 phis s)) (fold_left (fun G phi => ref_step st r g ms K qk a be phi G) phis R)).
  { intros ps0 Ds0 mss0 s v0 w0 HP0. generalize R s. clear - E HP0 HQ Hna HA Hphis. induction Hphis as [|phi phis Hphi Hphis IH]; intros R s HR; [exact HR|].
    unfold two_run. cbn [fold_left]. apply IH. eapply two_ref; eassumption. }
  assert (O : forall ps Ds mss s, parallel st g es labs conds ps Ds mss -> holds K (proc_axes g ps) n (fst s) R ->
    holds K (proc_axes g ps) n (fst (one_run qk a st r g ps be mss phis s)) (fold_left (fun G phi => ref_step st r g ms K qk a be phi G) phis R)).
  { intros ps0 Ds0 mss0 s HP0. generalize R s. clear - E HP0 HQ Hna HA Hphis. induction Hphis as [|phi phis Hphi Hphis IH]; intros R s HR; [exact HR|].
    unfold one_run. cbn [fold_left]. apply IH. eapply one_ref; eassumption. }
  assert (X : forall P P' R', holds K (proc_axes g ps) n P R' -> holds K (proc_axes g ps') n P' R' -> glued (proc_axes g ps) (proc_axes g ps') n P P').
  { intros P P' R' H1 H2 c i c' i' k Hc Hi Hc' Hi' Hk Eg. rewrite (H1 c i Hc Hi k Hk), Eg. symmetry. apply H2; assumption. }
  split; [|split]; eapply X; eauto.
Qed.
Print Assumptions C57_parallel_is_serial.

(* ---- the processes exist ---- *)
Definition dom_at g es ps c : dom := match domain_init (local_grid g ps c) es with Some D => D | None => mkDom (fun _ => false) (fun _ _ => link0) end.
Definition links_at st g es labs conds ps c : list (method * list blink) :=
  match boundary st (local_grid g ps c) (dom_at g es ps c) conds (labels_of (local_grid g ps c) labs) with Some ms => ms | None => [] end.
Theorem C57_exists dimz schemes st r g es labs conds D ms ps : serial dimz schemes st r g es labs conds D ms -> Forall ax_ok (proc_axes g ps) ->
  (* no element ends a little to the left of a process *)
  (es = [] \/ forall c, coords_ok (proc_axes g ps) c -> wf_grid (local_grid g ps c) /\ forall e, In e es -> forall d, (d < dim g)%nat ->
     let x := ((g_x0 (local_grid g ps c))@@d)%Q in (x - 2 * g_dx g < (e_hi e)@@d)%Q \/ ((e_hi e)@@d <= x - inject_Z (2 * (g_h g)@d + 2) * g_dx g)%Q) ->
  parallel st g es labs conds ps (dom_at g es ps) (links_at st g es labs conds ps).
Proof.
  intros E Hok HF. split; [exact Hok|]. intros c Hc.
  assert (X : exists Dc, domain_init (local_grid g ps c) es = Some Dc).
  { pose proof (lg_exists g ps Hok c Hc (e_wf _ _ _ _ _ _ _ _ _ _ E)) as X. destruct HF as [->|HF]; [exact X|].
    destruct (HF c Hc) as [W HF']. apply C15_exists; try assumption. intros e He d Hd. rewrite lg_dim in Hd. rewrite lg_h by exact Hd. now apply HF'. }
  destruct X as [Dc HD].
  assert (ED : dom_at g es ps c = Dc) by (unfold dom_at; now rewrite HD).
  destruct (bounds_exist _ _ _ _ _ _ _ _ _ _ E ps c Dc) as [msc HB].
  assert (EB : links_at st g es labs conds ps c = msc) by (unfold links_at; now rewrite ED, HB).
  rewrite ED, EB. split; assumption.
Qed.
Print Assumptions C57_exists.

(* ---- the links ---- the link b of the process c is the link b' of the serial domain *)
Record same_link g ps (c : list nat) (b b' : blink) : Prop := {
  l_k : b_k b = b_k b';
  l_lab : b_lab b = b_lab b';
  l_dis : b_dist b = b_dist b';
  l_nor : b_norm b = b_norm b';
  l_len : length (b_cell b) = dim g /\ length (b_cell b') = dim g;
  l_cell : forall d, (d < dim g)%nat -> (b_cell b')@d = (b_cell b)@d + ax_lo (proc_axis g ps d) (nth d c 0%nat)
}.
Lemma same_tr g ps c b b' : same_link g ps c b b' -> b' = tr g ps c b.
Proof.
  intros [H1 H2 H3 H4 [H5 H5'] H6]. unfold tr. destruct b' as [k' x' lab' t' nrm']. cbn [b_k b_cell b_lab b_dist b_norm] in *. rewrite H1, H2, H3, H4. f_equal.
  apply (cell_ext g); [exact H5'|apply ser_len|]. intros d Hd. rewrite ser_nth by exact Hd. now apply H6.
Qed.
Lemma tr_same g ps c b : length (b_cell b) = dim g -> same_link g ps c b (tr g ps c b).
Proof.
  intros L. split; try reflexivity; [split; [exact L|apply ser_len]|]. intros d Hd. cbn [tr b_cell]. now rewrite ser_nth.
Qed.
Theorem C57_links dimz schemes st r g es labs conds D ms ps Ds mss :
  serial dimz schemes st r g es labs conds D ms -> parallel st g es labs conds ps Ds mss ->
  (* the links of the processes are links of the serial domain *)
  (forall c m b, coords_ok (proc_axes g ps) c -> has (mss c) m b -> exists b', has ms m b' /\ same_link g ps c b b' /\
     (* the user's function is called at the same point *)
     forall d, (d < dim g)%nat -> (bcoord st (local_grid g ps c) b d == bcoord st g b' d)%Q) /\
  (* all of them; and each link belongs to one process *)
  (forall m b', has ms m b' -> exists c b, coords_ok (proc_axes g ps) c /\ has (mss c) m b /\ same_link g ps c b b') /\
  (forall c1 c2 m1 m2 b1 b2 b', coords_ok (proc_axes g ps) c1 -> coords_ok (proc_axes g ps) c2 ->
     has (mss c1) m1 b1 -> has (mss c2) m2 b2 -> same_link g ps c1 b1 b' -> same_link g ps c2 b2 b' -> c1 = c2).
Proof.
  intros E [Hok HP]. pose proof (serial_setting _ _ _ _ _ _ _ _ _ _ E) as S. pose proof (e_dim _ _ _ _ _ _ _ _ _ _ E) as [_ Hdim].
  assert (LO : forall c, coords_ok (proc_axes g ps) c -> forall m b, has (mss c) m b -> has ms m (tr g ps c b) /\
    exists i, length i = dim g /\ interior (local_grid g ps c) i = true /\ b_cell b = before st (local_grid g ps c) (b_k b) i /\ (b_k b < length (concat schemes))%nat).
  { intros c Hc. destruct (HP c Hc) as [HD HB]. intros m b. eapply (link_out dimz schemes st r g D conds (labels_of g labs) ms S ps Hdim Hok c Hc (Ds c)).
    - eapply plain_setting; eassumption.
    - eapply plain_part; eassumption.
    - eapply plain_labels; eassumption. }
  split; [|split].
  - intros c m b Hc Hb. destruct (LO c Hc m b Hb) as [H (i & Li & Hi & Ec & Hk)]. exists (tr g ps c b). split; [exact H|]. split; [|apply bcoord_tr]. apply tr_same.
    rewrite Ec. unfold before. rewrite shift_len. apply lg_dim.
  - intros m b' Hb'. destruct (link_facts _ _ _ _ _ _ _ _ _ S m b' Hb') as (_ & Hx & Lb & _).
    set (x := shift g (b_cell b') (velk st (b_k b'))) in *.
    assert (Hx' : interior g x = true).
    { destruct (interior g x) eqn:C; [reflexivity|]. rewrite <- Hx. symmetry.
      refine (solid_out_init g es D _ (e_dom _ _ _ _ _ _ _ _ _ _ E) x C). intros e He. apply (e_obst _ _ _ _ _ _ _ _ _ _ E e He). }
    clear Hx. rename Hx' into Hx.
    set (y := map (fun d => x@d - (g_h g)@d) (DomainModel.axes g)).
    assert (C : gcell (proc_axes g ps) y).
    { split; [unfold y, DomainModel.axes; now rewrite map_length, seq_length, pa_len|]. rewrite pa_len. intros d Hd. rewrite pa_nth by exact Hd.
      unfold y. rewrite nth_axes by exact Hd. pose proof (proj1 (interior_spec g x) Hx d Hd). cbn [proc_axis ax_n]. lia. }
    destruct (gcell_globc (proc_axes g ps) 0%nat ltac:(rewrite pa_len; exact Hdim) Hok y C) as (c & i & Hc & Hi & Ey).
    apply inner_lg in Hi; [|exact Hok|exact Hc]. destruct Hi as [Li Hi].
    assert (Ex : ser g ps c i = x).
    { apply (cell_ext g); [apply ser_len|apply shift_len|]. intros d Hd. pose proof (f_equal (fun z : list Z => z@d) Ey) as X. cbv beta in X.
      rewrite ser_glob in X by assumption. unfold y in X. rewrite nth_axes in X by exact Hd. lia. }
    destruct (HP c Hc) as [HD HB].
    destruct (link_in dimz schemes st r g D conds (labels_of g labs) ms S ps Hdim Hok c Hc (Ds c) (labels_of (local_grid g ps c) labs) (mss c)
      (plain_setting _ _ _ _ _ _ _ _ _ _ E ps Hok c Hc (Ds c) HD (mss c) HB) (plain_part _ _ _ _ _ _ _ _ _ _ E ps Hok c Hc (Ds c) HD)
      (plain_labels _ _ _ _ _ _ _ _ _ _ E ps Hok c Hc (Ds c) HD) m b' i Hb' Li Hi) as (b & Hb & Et & Ec).
    { rewrite Ex. unfold before, x. symmetry. apply shift_back'. exact Lb. }
    exists c, b. split; [exact Hc|]. split; [exact Hb|]. rewrite <- Et. apply tr_same. rewrite Ec. unfold before. rewrite shift_len. apply lg_dim.
  - intros c1 c2 m1 m2 b1 b2 b' Hc1 Hc2 H1 H2 S1 S2.
    destruct (LO c1 Hc1 m1 b1 H1) as [_ (i1 & L1 & I1 & E1 & _)]. destruct (LO c2 Hc2 m2 b2 H2) as [_ (i2 & L2 & I2 & E2 & _)].
    apply same_tr in S1, S2. assert (Ek : b_k b1 = b_k b2) by (rewrite S1 in S2; injection S2; auto).
    assert (Es : ser g ps c1 i1 = ser g ps c2 i2).
    { assert (X : ser g ps c1 (b_cell b1) = ser g ps c2 (b_cell b2)) by (rewrite S1 in S2; injection S2; auto).
      rewrite E1, E2, <- Ek in X. unfold before in X. rewrite !ser_shift in X. apply (cell_ext g); try apply ser_len. intros d Hd.
      pose proof (f_equal (fun z : list Z => z@d) X) as Y. cbv beta in Y. rewrite !shift_nth in Y by exact Hd. lia. }
    assert (Eg : globc (proc_axes g ps) c1 i1 = globc (proc_axes g ps) c2 i2).
    { apply (cell_ext g); [rewrite <- (pa_len g ps); apply globc_length; rewrite ?pa_len; assumption|rewrite <- (pa_len g ps); apply globc_length; rewrite ?pa_len; assumption|].
      intros d Hd. rewrite !ser_glob by assumption. now rewrite Es. }
    pose proof (serial_fits _ _ _ _ _ _ _ _ _ _ E ps Hok) as Hf.
    eapply (globc_inj (proc_axes g ps) (velk st) (length (concat schemes)) (proj1 Hf) Hok (fits_len _ _ _ Hf)); try exact Eg; try assumption; apply inner_lg; auto.
Qed.
Print Assumptions C57_links.

(* ---- conditions that only read fluid cells ---- *)
Theorem C57_quiet dimz schemes st r g es labs conds D ms :
  serial dimz schemes st r g es labs conds D ms -> (forall m b, has ms m b -> simple m) -> quiet st r g ms.
Proof.
  intros E HS m b p Hb Hp C. apply ParallelProofs.written_has in C. destruct C as (m' & b' & Hb' & Ek).
  apply (C19_not_read _ _ _ _ _ _ _ _ _ (serial_setting _ _ _ _ _ _ _ _ _ _ E) m b m' b' (HS m b Hb) Hb Hb').
  unfold key in Ek. rewrite Ek. destruct (HS m b Hb) as [ -> | [ -> | -> ] ]; destruct Hp as [<-|[]]; reflexivity.
Qed.
Print Assumptions C57_quiet.

(* ---- examples ---- a box of nx x 2 cells, velocities (-1, 1) and (1, -1) *)
Definition xgrid (nx : Z) (lab : list Z) : grid := mkGrid [nx; 2] [1; 1] lab [[-1; 1]; [1; -1]] [0; 0]%Q 1%Q.
Definition xst : stencil := dst [6; 8].
Definition xD nx lab : dom := dD (xgrid nx lab).
Definition xms nx lab conds : list (method * list blink) := match boundary xst (xgrid nx lab) (xD nx lab) conds (labels_of (xgrid nx lab) []) with Some ms => ms | None => [] end.
Definition xconds (lab : Z) : list (nat * method) := [(0%nat, if lab =? 1 then MBounceBack else MAnti)].
Definition nconds (lab : Z) : list (nat * method) := [(0%nat, if lab =? 1 then MNeumannY else MNeumannX)].
Lemma xserial nx lab conds : In nx [2; 4] -> In lab [[2; 2; 1; 1]; [2; 2; -1; -1]] -> In (conds 1) [[(0%nat, MBounceBack)]; [(0%nat, MNeumannY)]] -> 
  conds = xconds \/ conds = nconds ->
  serial 2 [[6; 8]] xst [1; 0] (xgrid nx lab) [] [] conds (xD nx lab) (xms nx lab conds).
Proof.
  intros Hnx Hlab _ Hcd. split.
  - intros s x [<-|[]] Hx. cbn in Hx. lia.
  - reflexivity.
  - reflexivity.
  - reflexivity.
  - split; [reflexivity|]. cbn. lia.
  - split; [reflexivity|]. split.
    + intros d Hd. cbn in Hd. destruct d as [|[|d]]; [| |lia]; cbn; destruct Hnx as [<-|[<-|[]]]; lia.
    + intros v d [<-|[<-|[]]] Hd; cbn in Hd; (destruct d as [|[|d]]; [| |lia]); cbn; lia.
  - destruct Hcd as [-> | ->]; intros lb s m1 m2 [E1|[]] [E2|[]]; congruence.
  - destruct Hlab as [<-|[<-|[]]]; reflexivity.
  - destruct Hlab as [<-|[<-|[]]]; split; cbn; unfold valin; intuition discriminate.
  - intros e [].
  - intros es1 e es2 C. destruct es1; discriminate.
  - intros [].
  - destruct Hnx as [<-|[<-|[]]], Hlab as [<-|[<-|[]]]; reflexivity.
  - destruct Hnx as [<-|[<-|[]]], Hlab as [<-|[<-|[]]], Hcd as [-> | ->]; vm_compute; reflexivity.
Qed.
Lemma xok nx lab ps : In (nx, ps) [(2, [1; 1]%nat); (2, [2; 1]%nat); (4, [1; 1]%nat); (4, [2; 1]%nat)] -> Forall ax_ok (proc_axes (xgrid nx lab) ps).
Proof.
  assert (O : forall n p h, In (n, p, h) [(4, 2%nat, 1); (4, 1%nat, 1); (2, 1%nat, 1); (2, 2%nat, 1)] -> ax_ok (mkAxis n p h)).
  { intros n p h [E|[E|[E|[E|[]]]]]; injection E as <- <- <-; (split; [cbn; lia|split; [cbn; lia|split; [cbn; lia|]]]);
      intros [|[|c]] Hc; cbn in Hc; try lia; vm_compute; discriminate. }
  intros [E|[E|[E|[E|[]]]]]; injection E as <- <-; repeat constructor; apply O; cbn; auto.
Qed.
(* the values 100 x + 10 y + k at the cells (x, y) of the box *)
Definition xF nx lab ps : fields Zring := fun c i k => let y := globc (proc_axes (xgrid nx lab) ps) c i in 100 * y@0 + 10 * y@1 + Z.of_nat k.
Definition xrun nx lab conds ps phis : fields Zring :=
  fst (two_run (K := Zring) (fun _ => 0) a_ex xst [1; 0] (xgrid nx lab) ps Cython (links_at xst (xgrid nx lab) [] [] conds ps) (fun _ => 0) (fun _ => 0) phis (xF nx lab ps, xF nx lab ps)).
Lemma xglued nx lab ps ps' : glued (proc_axes (xgrid nx lab) ps) (proc_axes (xgrid nx lab) ps') 2 (xF nx lab ps) (xF nx lab ps').
Proof. intros c i c' i' k Hc Hi Hc' Hi' Hk E. unfold xF. now rewrite E. Qed.
(* bounce back below and above, anti bounce back left and right, with a value on the walls *)
Example C57_example :
  let lab := [2; 2; 1; 1] in
  let phis := [fun lab (x : list Q) k => lab * Z.of_nat k] : list (Z -> list Q -> nat -> Zring) in
  serial 2 [[6; 8]] xst [1; 0] (xgrid 4 lab) [] [] xconds (xD 4 lab) (xms 4 lab xconds) /\
  parallel xst (xgrid 4 lab) [] [] xconds [2; 1]%nat (dom_at (xgrid 4 lab) [] [2; 1]%nat) (links_at xst (xgrid 4 lab) [] [] xconds [2; 1]%nat) /\
  quiet xst [1; 0] (xgrid 4 lab) (xms 4 lab xconds) /\ Forall regular phis /\ algo_ok Zring a_ex /\
  length (concat (map snd (links_at xst (xgrid 4 lab) [] [] xconds [2; 1]%nat [0; 0]%nat))) = 5%nat /\
  length (concat (map snd (xms 4 lab xconds))) = 10%nat /\
  xrun 4 lab xconds [2; 1]%nat phis [1; 0]%nat [2; 1] 0%nat = xrun 4 lab xconds [1; 1]%nat phis [0; 0]%nat [4; 1] 0%nat /\
  xrun 4 lab xconds [2; 1]%nat phis [1; 0]%nat [2; 1] 0%nat <> xF 4 lab [2; 1]%nat [1; 0]%nat [2; 1] 0%nat.
Proof.
  cbv zeta. assert (E : serial 2 [[6; 8]] xst [1; 0] (xgrid 4 [2; 2; 1; 1]) [] [] xconds (xD 4 [2; 2; 1; 1]) (xms 4 [2; 2; 1; 1] xconds)).
  { apply xserial; cbn; auto. }
  split; [exact E|]. split; [eapply C57_exists; [exact E|apply xok; cbn; auto|now left]|].
  split; [eapply C57_quiet; [exact E|]|].
  { intros m b (L & HL & _). apply (in_map fst) in HL. vm_compute in HL. unfold simple. intuition. }
  split; [repeat constructor; intros lab x y k _; reflexivity|].
  split; [apply algo_ok_ex|]. split; [vm_compute; reflexivity|]. split; [vm_compute; reflexivity|]. split; [vm_compute; reflexivity|]. vm_compute. discriminate.
Qed.

(* A Neumann condition reads the layer of ghost cells in the corners: if the process of
   the corner is not wider than the velocity, it is another process that writes there. *)
Theorem C57_neumann_refuted : exists dimz schemes st r g es labs conds D ms ps ps' (a : algo Zring) (F F' : fields Zring) c i c' i' k,
  serial dimz schemes st r g es labs conds D ms /\
  parallel st g es labs conds ps (dom_at g es ps) (links_at st g es labs conds ps) /\ parallel st g es labs conds ps' (dom_at g es ps') (links_at st g es labs conds ps') /\
  al_n a = length (concat schemes) /\ algo_ok Zring a /\
  glued (proc_axes g ps) (proc_axes g ps') (al_n a) F F' /\
  coords_ok (proc_axes g ps) c /\ inner (proc_axes g ps) c i /\ coords_ok (proc_axes g ps') c' /\ inner (proc_axes g ps') c' i' /\
  (k < al_n a)%nat /\ globc (proc_axes g ps) c i = globc (proc_axes g ps') c' i' /\
  let phi := fun (_ : Z) (_ : list Q) (_ : nat) => 0 in
  fst (two_run (K := Zring) (fun _ => 0) a st r g ps Cython (links_at st g es labs conds ps) (fun _ => 0) (fun _ => 0) [phi] (F, F)) c i k <>
  fst (two_run (K := Zring) (fun _ => 0) a st r g ps' Cython (links_at st g es labs conds ps') (fun _ => 0) (fun _ => 0) [phi] (F', F')) c' i' k.
Proof.
  exists 2, [[6; 8]], xst, [1; 0], (xgrid 2 [2; 2; 1; 1]), [], [], nconds, (xD 2 [2; 2; 1; 1]), (xms 2 [2; 2; 1; 1] nconds), [2; 1]%nat, [1; 1]%nat,
    a_ex, (xF 2 [2; 2; 1; 1] [2; 1]%nat), (xF 2 [2; 2; 1; 1] [1; 1]%nat), [1; 0]%nat, [1; 1], [0; 0]%nat, [2; 1], 0%nat.
  assert (E : serial 2 [[6; 8]] xst [1; 0] (xgrid 2 [2; 2; 1; 1]) [] [] nconds (xD 2 [2; 2; 1; 1]) (xms 2 [2; 2; 1; 1] nconds)).
  { apply xserial; cbn; auto. }
  split; [exact E|]. split; [eapply C57_exists; [exact E|apply xok; cbn; auto|now left]|]. split; [eapply C57_exists; [exact E|apply xok; cbn; auto|now left]|].
  split; [reflexivity|]. split; [apply algo_ok_ex|]. split; [apply xglued|].
  split; [repeat constructor|]. split; [split; [reflexivity|intros [|[|d]] Hd; cbn in Hd; try lia; vm_compute; split; (discriminate || reflexivity)]|].
  split; [repeat constructor|]. split; [split; [reflexivity|intros [|[|d]] Hd; cbn in Hd; try lia; vm_compute; split; (discriminate || reflexivity)]|].
  split; [cbn; lia|]. split; [reflexivity|]. vm_compute. discriminate.
Qed.
Print Assumptions C57_neumann_refuted.
