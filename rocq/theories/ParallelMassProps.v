(* Properties C54 and C55 on several processes: the conserved quantities of closed vessels
   and of channels do not change, for any process grid. *)
From Coq Require Import QArith Qcanon Lqa.
From Verif Require Import PyBase VelocityModel VelocityProofs Velocity3Proofs StencilModel StencilProofs GridModel GridProofs StorageModel
  ExchangeProofs StorageProps LinAlg AlgoModel AlgoProofs RelVelProofs KernelProofs GlobalModel GlobalProofs TorusProofs DomainModel DomainProofs DomainProps
  BoundaryModel BoundaryProofs BoundaryProps BoundaryUpdProps AlgoProps GlobalProps VesselProofs VesselProps ChannelProps
  ParallelModel ParallelProofs ObstacleProofs ParallelProps ObstacleProps.
From Coq Require Import Sorting.Permutation.
Open Scope Z_scope.

(* The sum of q over the fluid cells of all the processes cs. *)
Definition fluid_total {K : ring} g ps (Ds : list nat -> dom) (cs : list (list nat)) (q : vec K -> K) (F : fields K) : K :=
  sumL cs (fun c => sumL (filter (d_ioo (Ds c)) (loop_cells (proc_axes g ps) c)) (fun i => q (F c i))).

Lemma sumL_filter (K : ring) {A} (p : A -> bool) l (f : A -> K) : sumL (filter p l) f = sumL l (fun x => if p x then f x else r0).
Proof.
  induction l as [|x l IH]; [reflexivity|]. cbn [filter]. unfold sumL in *. cbn [fold_right]. destruct (p x); cbn [fold_right]; rewrite IH; [reflexivity|].
  symmetry. apply (Radd_0_l (rth K)).
Qed.
Lemma wrapg_len g x : length (wrapg g x) = dim g.
Proof. unfold wrapg, DomainModel.axes. now rewrite map_length, seq_length. Qed.
Lemma wrapg_nth g x d : (d < dim g)%nat -> (wrapg g x)@d = (x@d - (g_h g)@d) mod (g_n g)@d.
Proof. intros H. unfold wrapg. now rewrite nth_axes. Qed.
Lemma cell_of_len g y : length (cell_of g y) = dim g.
Proof. unfold cell_of, DomainModel.axes. now rewrite map_length, seq_length. Qed.
Lemma cell_of_nth g y d : (d < dim g)%nat -> (cell_of g y)@d = y@d + (g_h g)@d.
Proof. intros H. unfold cell_of. now rewrite nth_axes. Qed.
Lemma wrapg_cell g y : length y = dim g -> (forall d, (d < dim g)%nat -> 0 <= y@d < (g_n g)@d) -> wrapg g (cell_of g y) = y.
Proof.
  intros L H. apply (cell_ext g); [apply wrapg_len|exact L|]. intros d Hd. rewrite wrapg_nth, cell_of_nth by exact Hd. specialize (H d Hd).
  rewrite Z.mod_small by lia. lia.
Qed.
Lemma cell_wrapg g x : length x = dim g -> interior g x = true -> cell_of g (wrapg g x) = x.
Proof.
  intros L H. apply (cell_ext g); [apply cell_of_len|exact L|]. intros d Hd. rewrite cell_of_nth, wrapg_nth by exact Hd.
  pose proof (proj1 (interior_spec g x) H d Hd). rewrite Z.mod_small by lia. lia.
Qed.
Lemma wrapg_wrap g x : wf_grid g -> wrapg g (wrap g x) = wrapg g x.
Proof.
  intros W. apply (cell_ext g); try apply wrapg_len. intros d Hd. rewrite !wrapg_nth, wrap_nth by exact Hd.
  replace ((g_h g)@d + (x@d - (g_h g)@d) mod (g_n g)@d - (g_h g)@d) with ((x@d - (g_h g)@d) mod (g_n g)@d) by lia. 
  destruct (Z.eq_dec (g_n g)@d 0) as [->|N]; [now rewrite !Zmod_0_r|]. now apply Z.mod_mod.
Qed.

Section Total.
Variables (dimz : Z) (schemes : list (list Z)) (st : stencil) (r : list Z) (g : grid) (es : list DomainModel.elem) (labs : list Z) (conds : Z -> list (nat * method)).
Variables (D : dom) (ms : list (method * list blink)).
Hypothesis E : serial dimz schemes st r g es labs conds D ms.
Variables (ps : list nat) (Ds : list nat -> dom) (mss : list nat -> list (method * list blink)).
Hypothesis HP : parallel st g es labs conds ps Ds mss.
Variable cs : list (list nat).
Hypothesis Hnd : NoDup cs.
Hypothesis Hcs : forall c, In c cs <-> coords_ok (proc_axes g ps) c.
Notation n := (length (concat schemes)).
Notation PA := (proc_axes g ps).

Lemma fluid_inside x : In x (fluid_cells g D) -> length x = dim g /\ d_ioo D x = true /\ interior g x = true.
Proof using E.
  intros H. destruct (fluid_in g es D (e_wf _ _ _ _ _ _ _ _ _ _ E)) with (x := x) as (A & B & C & _); auto.
  - intros e He. split; apply (e_obst _ _ _ _ _ _ _ _ _ _ E e He).
  - apply (e_dom _ _ _ _ _ _ _ _ _ _ E).
Qed.
Lemma fluid_perm : Permutation (filter (d_ioo D) (map (cell_of g) (all_cells (map ax_n PA)))) (fluid_cells g D).
Proof using E.
  clear Hcs Hnd. assert (A : forall y, In y (all_cells (map ax_n PA)) <-> length y = dim g /\ forall d, (d < dim g)%nat -> 0 <= y@d < (g_n g)@d).
  { intros y. rewrite all_cells_in, <- gcell_cell_ok. unfold gcell. rewrite pa_len. split; intros [L H]; (split; [exact L|]); intros d Hd; specialize (H d Hd);
      rewrite pa_nth in * by exact Hd; exact H. }
  apply NoDup_Permutation.
  - apply NoDup_filter. assert (X : forall l, NoDup l -> (forall y, In y l -> In y (all_cells (map ax_n PA))) -> NoDup (map (cell_of g) l)).
    { induction 1 as [|y l Hy Hl IH]; intros HG; [constructor|]. cbn [map]. constructor; [|apply IH; intros z Hz; apply HG; now right].
      intros C. apply in_map_iff in C. destruct C as (z & Ez & Hz). apply Hy. pose proof (proj1 (A y) (HG y (or_introl eq_refl))) as [Ly By].
      pose proof (proj1 (A z) (HG z (or_intror Hz))) as [Lz Bz]. rewrite <- (wrapg_cell g y Ly By), <- Ez, (wrapg_cell g z Lz Bz). exact Hz. }
    apply X; [apply all_cells_NoDup|auto].
  - apply NoDup_filter. apply array_cells_NoDup.
  - intros x. unfold fluid_cells. rewrite filter_In, in_map_iff. split.
    + intros [(y & <- & Hy) Hf]. apply A in Hy. destruct Hy as [Ly By]. apply filter_In. split; [|exact Hf]. apply array_cells_in.
      split; [apply cell_of_len|]. intros d Hd. rewrite cell_of_nth by exact Hd. specialize (By d Hd). unfold DomainModel.total.
      pose proof (proj1 (proj2 (e_wf _ _ _ _ _ _ _ _ _ _ E)) d Hd). lia.
    + intros Hx. pose proof (fluid_inside x Hx) as (L & Hf & Hi). split; [|exact Hf]. exists (wrapg g x). split; [now apply cell_wrapg|].
      apply A. split; [apply wrapg_len|]. intros d Hd. rewrite wrapg_nth by exact Hd. pose proof (proj1 (interior_spec g x) Hi d Hd). apply Z.mod_pos_bound. lia.
Qed.
(* the cells of the processes are the cells of the serial domain *)
Lemma fluid_total_ref (K : ring) (q : vec K -> K) F G : (forall f f', agree K n f f' -> q f = q f') -> holds K PA n F G ->
  fluid_total g ps Ds cs q F = sumL (fluid_cells g D) (fun x => q (G (wrapg g x))).
Proof using E HP Hnd Hcs.
  intros Hq HF. pose proof (serial_fits _ _ _ _ _ _ _ _ _ _ E ps (proj1 HP)) as Hf. pose proof Hf as (Hd & Hok & _).
  rewrite <- (sumL_perm K _ _ _ fluid_perm), sumL_filter, sumL_map.
  rewrite <- (sumL_perm K _ _ _ (owner_perm PA (velk st) n Hd Hok (fits_len _ _ _ Hf) cs Hnd Hcs)), sumL_flat_map.
  unfold fluid_total. apply sumL_ext. intros c Hc. apply Hcs in Hc. rewrite sumL_filter, sumL_map. apply sumL_ext. intros i Hi.
  apply loop_spec in Hi; [|exact Hd|exact Hc]. pose proof (proj1 (inner_lg g ps Hok c Hc i) Hi) as [Li Hin].
  assert (Ec : cell_of g (globc PA c i) = ser g ps c i) by (eapply cell_of_glob; eassumption).
  assert (Ei : d_ioo (Ds c) i = d_ioo D (cell_of g (globc PA c i))).
  { eapply (C57_cells _ _ _ _ _ _ _ _ _ _ ps Ds mss E HP); try eassumption; [apply cell_of_len|]. intros d Hd'. rewrite Ec. now apply ser_nth. }
  rewrite Ei. destruct (d_ioo D _); [|reflexivity]. apply Hq. intros k Hk. rewrite (HF c i Hc Hi k Hk).
  rewrite wrapg_cell; [reflexivity| |].
  - rewrite <- (pa_len g ps). apply globc_length; try assumption. now rewrite pa_len.
  - intros d Hd'. assert (C : gcell PA (globc PA c i)) by (apply globc_gcell; assumption). destruct C as [_ C]. rewrite pa_len in C. specialize (C d Hd').
    now rewrite pa_nth in C by exact Hd'.
Qed.

(* ---- the runs ---- *)
Section Run.
Variables (K : ring) (qk : Q -> K) (a : algo K) (be : backend) (i : nat).
Hypothesis Hna : al_n a = n.
Hypothesis HC : conserving K a.
Hypothesis HA : algo_ok K a.
Hypothesis HQ : quiet st r g ms.
Variable good : (Z -> list Q -> nat -> K) -> Prop.
Notation q := (fun f : vec K => mvmul (al_n a) (al_M a) f i).
Hypothesis Hstep : forall phi G, good phi ->
  sumL (fluid_cells g D) (fun x => q (ref_step st r g ms K qk a be phi G (wrapg g x))) = sumL (fluid_cells g D) (fun x => q (G (wrapg g x))).
Lemma run_total m0 u0 phis F Fn x : Forall (fun phi => regular phi /\ good phi) phis ->
  fluid_total g ps Ds cs q (fst (two_run qk a st r g ps be mss m0 u0 phis (F, Fn))) = fluid_total g ps Ds cs q F /\
  fluid_total g ps Ds cs q (fst (one_run qk a st r g ps be mss phis (F, x))) = fluid_total g ps Ds cs q F.
Proof using E HP Hnd Hcs Hna HA HQ Hstep.
  intros Hphis. pose proof (serial_fits _ _ _ _ _ _ _ _ _ _ E ps (proj1 HP)) as Hf. destruct (holds_ex K _ _ n F Hf) as [R R1].
  set (R' := fold_left (fun G phi => ref_step st r g ms K qk a be phi G) phis R).
  assert (Hq : forall f f', agree K n f f' -> q f = q f') by (intros f f' H; apply mvmul_ext; now rewrite Hna).
  assert (S : sumL (fluid_cells g D) (fun x => q (R' (wrapg g x))) = sumL (fluid_cells g D) (fun x => q (R (wrapg g x)))).
  { unfold R'. clear R1. revert R R'. induction Hphis as [|phi phis [_ Hphi] _ IH]; intros R R'; [reflexivity|]. cbn [fold_left]. rewrite IH. now apply Hstep. }
  assert (T : forall s, holds K PA n (fst s) R -> holds K PA n (fst (two_run qk a st r g ps be mss m0 u0 phis s)) R').
  { unfold R'. clear R1 S. generalize R. clear R R'. induction Hphis as [|phi phis [Hphi _] _ IH]; intros R s HR; [exact HR|].
    unfold two_run. cbn [fold_left]. apply IH. eapply two_ref; eassumption. }
  assert (O : forall s, holds K PA n (fst s) R -> holds K PA n (fst (one_run qk a st r g ps be mss phis s)) R').
  { unfold R'. clear R1 S T. generalize R. clear R R'. induction Hphis as [|phi phis [Hphi _] _ IH]; intros R s HR; [exact HR|].
    unfold one_run. cbn [fold_left]. apply IH. eapply one_ref; eassumption. }
  rewrite (fluid_total_ref K q F R Hq R1), <- S. split; apply (fluid_total_ref K q _ R' Hq); auto.
Qed.
Lemma ref_pulled phi G x : (i < al_nc a)%nat -> In x (fluid_cells g D) -> q (ref_step st r g ms K qk a be phi G (wrapg g x)) =
  sum n (fun k => (al_M a i k * boundary_condition K qk g (velk st) (symk r) (feq_of st phi g) be ms (gfield g K G) k (before st g k x))%K).
Proof using E Hna HC.
  intros Hi Hx. destruct (fluid_inside x Hx) as (L & _ & Hx'). unfold ref_step. rewrite (pull_conserves K a _ i HC Hi), cell_wrapg by assumption.
  unfold mvmul. now rewrite Hna.
Qed.
End Run.
Lemma all_bounce_quiet : (forall lab s m, In lab (labels_of g labs) -> lab <> -1 -> lab <> -2 -> (exists num x, l_flag (d_link D num x) = lab) -> (s < length schemes)%nat ->
  In (s, m) (conds lab) -> m = MBounceBack) -> quiet st r g ms.
Proof using E.
  intros H. eapply C57_quiet; [exact E|]. intros m b Hb.
  apply (boundary_links dimz schemes st (e_nn _ _ _ _ _ _ _ _ _ _ E) (e_build _ _ _ _ _ _ _ _ _ _ E) g D conds _ ms (e_bound _ _ _ _ _ _ _ _ _ _ E)) in Hb.
  destruct Hb as (lab & s & vs & j & v & num & w & x & H1 & H2 & H3 & H4 & H5 & _ & _ & _ & _ & H6 & _).
  left. apply (H lab s m H1 H2 H3); [eauto| |exact H4].
  rewrite <- (b_v _ _ _ (build_facts dimz schemes st (e_nn _ _ _ _ _ _ _ _ _ _ E) (e_build _ _ _ _ _ _ _ _ _ _ E))), map_length.
  apply nth_error_Some. congruence.
Qed.
End Total.

(* phi gives the same equilibrium to opposite velocities: the walls are at rest *)
Definition at_rest {K : ring} (r : list Z) (nv : nat) (phi : Z -> list Q -> nat -> K) : Prop :=
  forall lab x k, (k < nv)%nat -> phi lab x (symk r k) = phi lab x k.

Lemma vessel_quiet dimz schemes st r g es labs conds D ms :
  serial dimz schemes st r g es labs conds D ms -> vessel dimz schemes st r g es D conds (labels_of g labs) ms -> quiet st r g ms.
Proof.
  intros E V. eapply all_bounce_quiet; [exact E|]. intros lab s m Hl H1 H2 _ Hs Hm. destruct (v_conds _ _ _ _ _ _ _ _ _ _ V lab Hl) as (_ & _ & HB).
  exact (e_fun _ _ _ _ _ _ _ _ _ _ E lab s m MBounceBack Hm (HB s Hs)).
Qed.
Lemma vessel_step dimz schemes st r g es labs conds D ms :
  serial dimz schemes st r g es labs conds D ms -> vessel dimz schemes st r g es D conds (labels_of g labs) ms ->
  forall (K : ring) (qk : Q -> K) (a : algo K) be i, al_n a = length (concat schemes) -> conserving K a -> (i < al_nc a)%nat ->
  (forall k, (k < al_n a)%nat -> al_M a i (symk r k) = al_M a i k) -> forall phi G, at_rest r (al_n a) phi ->
  let q := fun f : vec K => mvmul (al_n a) (al_M a) f i in
  sumL (fluid_cells g D) (fun x => q (ref_step st r g ms K qk a be phi G (wrapg g x))) = sumL (fluid_cells g D) (fun x => q (G (wrapg g x))).
Proof.
  intros E V K qk a be i Hna HC Hi Hev phi G Hphi q. unfold q. rewrite Hna in Hev, Hphi.
  rewrite (sumL_ext K _ _ _ (fun y Hy => ref_pulled _ _ _ _ _ _ _ _ _ _ E K qk a be i Hna HC phi G y Hi Hy)).
  rewrite (walls_sum _ _ _ _ _ _ _ _ _ _ V K qk (feq_of st phi g)) by (try exact Hev; intros b k Hk; apply Hphi; exact Hk).
  apply sumL_ext. intros y Hy. unfold mvmul. rewrite Hna. reflexivity.
Qed.
Theorem C54_parallel dimz schemes st r g es labs conds D ms ps Ds mss cs :
  serial dimz schemes st r g es labs conds D ms -> parallel st g es labs conds ps Ds mss ->
  (* cs: all the processes *)
  NoDup cs -> (forall c, In c cs <-> coords_ok (proc_axes g ps) c) ->
  (* bounce back everywhere *)
  vessel dimz schemes st r g es D conds (labels_of g labs) ms ->
  forall (K : ring) (qk : Q -> K) (a : algo K) be i m0 u0 phis F Fn x,
  al_n a = length (concat schemes) ->
  al_source a = [] -> eq_ok K a -> rel_ok K a -> frame_ok K a -> (i < al_nc a)%nat ->
  (forall k, (k < al_n a)%nat -> al_M a i (symk r k) = al_M a i k) ->
  Forall (fun phi => regular phi /\ at_rest r (al_n a) phi) phis ->
  let mass F := fluid_total g ps Ds cs (fun f => mvmul (al_n a) (al_M a) f i) F in
  mass (fst (two_run qk a st r g ps be mss m0 u0 phis (F, Fn))) = mass F /\
  mass (fst (one_run qk a st r g ps be mss phis (F, x))) = mass F.
Proof.
  intros E HP Hnd Hcs V K qk a be i m0 u0 phis F Fn x Hna HS He HR HF Hi Hev Hphis mass.
  assert (HC : conserving K a).
  { split; [exact HS|]. split; [exact He|]. split; [exact HR|]. destruct (al_relvel a); [exact HF|exact (proj1 (proj1 HF))]. }
  assert (HA : algo_ok K a) by (split; [exact He|]; split; [now apply source_ok_nil|exact HR]).
  apply (run_total dimz schemes st r g es labs conds D ms E ps Ds mss HP cs Hnd Hcs K qk a be i Hna HA (vessel_quiet _ _ _ _ _ _ _ _ _ _ E V) (at_rest r (al_n a))); [|exact Hphis].
  intros phi G Hphi. now apply (vessel_step _ _ _ _ _ _ _ _ _ _ E V).
Qed.
Print Assumptions C54_parallel.

Lemma channel_quiet dimz schemes st r g labs conds D ms :
  serial dimz schemes st r g [] labs conds D ms -> channel dimz schemes st r g D conds (labels_of g labs) ms -> quiet st r g ms.
Proof.
  intros E C. pose proof (c_box _ _ _ _ _ _ _ _ _ C) as PB.
  eapply all_bounce_quiet; [exact E|]. intros lab s m Hl H1 H2 (num & z & Hz) Hs Hm.
    assert (W : wall conds (labels_of g labs) (length schemes) lab).
    { pose proof (e_lab _ _ _ _ _ _ _ _ _ _ E) as L.
      destruct (domain_labelled g (g_lab g)) with (es := @nil elem) (D := D) (k := num) (c := z) as [[_ X]|X].
      - intros j Hj. apply nth_In. lia.
      - intros e y dv [].
      - apply (p_dom _ _ _ _ _ _ _ _ _ PB).
      - exfalso. rewrite Hz in X. rewrite X in Hl. exact (s_val _ _ _ _ _ _ _ _ _ (p_set _ _ _ _ _ _ _ _ _ PB) Hl).
      - rewrite Hz in X. apply In_nth with (d := 0) in X. destruct X as (j & Hj & <-).
        destruct (Nat.Even_or_Odd j) as [[d Ed]|[d Ed]]; (destruct (p_sides _ _ _ _ _ _ _ _ _ PB d ltac:(lia)) as [W1 W2];
          [unfold periodic; rewrite <- Ed; apply Z.eqb_neq in H1; rewrite H1; now rewrite ?andb_false_r|rewrite Ed; assumption]). }
    destruct W as (_ & _ & _ & HB). exact (e_fun _ _ _ _ _ _ _ _ _ _ E lab s m MBounceBack Hm (HB s Hs)).
Qed.
Lemma channel_step dimz schemes st r g labs conds D ms :
  serial dimz schemes st r g [] labs conds D ms -> channel dimz schemes st r g D conds (labels_of g labs) ms ->
  forall (K : ring) (qk : Q -> K) (a : algo K) be i, al_n a = length (concat schemes) -> conserving K a -> (i < al_nc a)%nat ->
  (forall k, (k < al_n a)%nat -> al_M a i (symk r k) = al_M a i k) -> forall phi G, at_rest r (al_n a) phi ->
  let q := fun f : vec K => mvmul (al_n a) (al_M a) f i in
  sumL (fluid_cells g D) (fun x => q (ref_step st r g ms K qk a be phi G (wrapg g x))) = sumL (fluid_cells g D) (fun x => q (G (wrapg g x))).
Proof.
  intros E C K qk a be i Hna HC Hi Hev phi G Hphi q. unfold q. pose proof (c_box _ _ _ _ _ _ _ _ _ C) as PB. rewrite Hna in Hev, Hphi.
  rewrite (sumL_ext K _ _ _ (fun y Hy => ref_pulled _ _ _ _ _ _ _ _ _ _ E K qk a be i Hna HC phi G y Hi Hy)).
  assert (EX : fluid_cells g D = inner_cells g).
  { unfold fluid_cells, inner_cells. apply filter_ext. apply (plain_domain g D (p_dom _ _ _ _ _ _ _ _ _ PB)). }
  rewrite EX.
  rewrite (chan_sum_of _ _ _ _ _ _ _ _ _ C K qk (feq_of st phi g) ltac:(intros b k Hk; apply Hphi; exact Hk) be (gfield g K G) (fun y => G (wrapg g y))
    ltac:(intros k c _; unfold gfield; now rewrite wrapg_wrap by apply (p_grid _ _ _ _ _ _ _ _ _ PB)) (al_M a i) Hev).
  apply sumL_ext. intros y Hy. unfold mvmul. rewrite Hna. reflexivity.
Qed.
Theorem C55_parallel_mass dimz schemes st r g labs conds D ms ps Ds mss cs :
  serial dimz schemes st r g [] labs conds D ms -> parallel st g [] labs conds ps Ds mss ->
  NoDup cs -> (forall c, In c cs <-> coords_ok (proc_axes g ps) c) ->
  (* bounce back on the walls, the other sides are periodic *)
  channel dimz schemes st r g D conds (labels_of g labs) ms ->
  forall (K : ring) (qk : Q -> K) (a : algo K) be i m0 u0 phis F Fn x,
  al_n a = length (concat schemes) ->
  al_source a = [] -> eq_ok K a -> rel_ok K a -> frame_ok K a -> (i < al_nc a)%nat ->
  (forall k, (k < al_n a)%nat -> al_M a i (symk r k) = al_M a i k) ->
  Forall (fun phi => regular phi /\ at_rest r (al_n a) phi) phis ->
  let mass F := fluid_total g ps Ds cs (fun f => mvmul (al_n a) (al_M a) f i) F in
  mass (fst (two_run qk a st r g ps be mss m0 u0 phis (F, Fn))) = mass F /\
  mass (fst (one_run qk a st r g ps be mss phis (F, x))) = mass F.
Proof.
  intros E HP Hnd Hcs C K qk a be i m0 u0 phis F Fn x Hna HS He HR HF Hi Hev Hphis mass.
  assert (HC : conserving K a).
  { split; [exact HS|]. split; [exact He|]. split; [exact HR|]. destruct (al_relvel a); [exact HF|exact (proj1 (proj1 HF))]. }
  assert (HA : algo_ok K a) by (split; [exact He|]; split; [now apply source_ok_nil|exact HR]).
  apply (run_total dimz schemes st r g [] labs conds D ms E ps Ds mss HP cs Hnd Hcs K qk a be i Hna HA (channel_quiet _ _ _ _ _ _ _ _ _ E C) (at_rest r (al_n a))); [|exact Hphis].
  intros phi G Hphi. now apply (channel_step _ _ _ _ _ _ _ _ _ E C).
Qed.
Print Assumptions C55_parallel_mass.

(* ---- examples ---- the line of ObstacleProps: the cells 3 and 4 are solid, two processes *)
Definition bb (lab : Z) : list (nat * method) := [(0%nat, MBounceBack)].
Definition mms : list (method * list blink) := match boundary sst (sline 6) (sD 6 wall34) bb (labels_of (sline 6) [5]) with Some ms => ms | None => [] end.
Lemma mserial : serial 1 [[1; 2]] sst [1; 0] (sline 6) wall34 [5] bb (sD 6 wall34) mms.
Proof.
  destruct wall34_serial as [E1 E2 E3 E4 Ed E5 E6 E7 E8 Eo Et El E9 E10]. split; try assumption.
  - intros lab s m m' [H|[]] [H'|[]]. congruence.
  - vm_compute. reflexivity.
Qed.
Lemma mvessel : vessel 1 [[1; 2]] sst [1; 0] (sline 6) wall34 (sD 6 wall34) bb (labels_of (sline 6) [5]) mms.
Proof.
  pose proof mserial as M. split.
  - exact (serial_setting _ _ _ _ _ _ _ _ _ _ M).
  - repeat constructor; cbn; intuition discriminate.
  - apply M.
  - intros e He. split; apply (e_obst _ _ _ _ _ _ _ _ _ _ M e He).
  - intros e c [<-|[]] C. discriminate.
  - apply M.
  - intros [|[|i]] Hi; cbn in Hi; [| |lia]; vm_compute; auto.
  - intros e x dv [<-|[]] _. vm_compute. auto.
  - intros lab Hl. vm_compute in Hl. split; [|split; [|intros [|s] Hs; [now left|cbn in Hs; lia]]]; destruct Hl as [<-|[<-|[]]]; discriminate.
Qed.
Definition mDs := dom_at (sline 6) wall34 [2%nat].
Definition mlinks := links_at sst (sline 6) wall34 [5] bb [2%nat].
Definition mrun := fst (two_run (K := Zring) (fun _ => 0) a_ex sst [1; 0] (sline 6) [2%nat] Cython mlinks (fun _ => 0) (fun _ => 0)
    [fun (_ : Z) (_ : list Q) (_ : nat) => 0; fun (_ : Z) (_ : list Q) (_ : nat) => 0] (sF 6 2, sF 6 2)).
Example C54_parallel_example :
  serial 1 [[1; 2]] sst [1; 0] (sline 6) wall34 [5] bb (sD 6 wall34) mms /\
  vessel 1 [[1; 2]] sst [1; 0] (sline 6) wall34 (sD 6 wall34) bb (labels_of (sline 6) [5]) mms /\
  parallel sst (sline 6) wall34 [5] bb [2%nat] mDs mlinks /\
  map (fun c => filter (d_ioo (mDs c)) (loop_cells (proc_axes (sline 6) [2%nat]) c)) [[0%nat]; [1%nat]] = [[[1]; [2]]; [[2]; [3]]] /\
  let q := fun f : vec Zring => mvmul (al_n a_ex) (al_M a_ex) f 0%nat in
  fluid_total (sline 6) [2%nat] mDs [[0%nat]; [1%nat]] q (sF 6 2) = 2004 /\
  fluid_total (sline 6) [2%nat] mDs [[0%nat]; [1%nat]] q mrun = 2004 /\
  (* the cells themselves change, the other moment too *)
  q (sF 6 2 [0%nat] [1]) = 1 /\ q (mrun [0%nat] [1]) = 1011 /\
  fluid_total (sline 6) [2%nat] mDs [[0%nat]; [1%nat]] (fun f => mvmul 2 (al_M a_ex) f 1%nat) mrun <>
  fluid_total (sline 6) [2%nat] mDs [[0%nat]; [1%nat]] (fun f => mvmul 2 (al_M a_ex) f 1%nat) (sF 6 2).
Proof.
  split; [apply mserial|]. split; [apply mvessel|]. split.
  - destruct sexists as [H1 H2]. split; [exact H1|]. intros c Hc. split; [apply H2; exact Hc|].
    assert (E : c = [0%nat] \/ c = [1%nat]).
    { pose proof (Forall2_length _ _ _ Hc) as L. destruct c as [|c0 [|c1 c]]; try discriminate. inversion Hc as [|? ? ? ? H0 H3]. cbn in H0.
      destruct c0 as [|[|c0]]; [auto|auto|lia]. }
    destruct E as [-> | ->]; vm_compute; reflexivity.
  - split; [vm_compute; reflexivity|]. cbv zeta. repeat (split; [vm_compute; reflexivity|]). vm_compute. discriminate.
Qed.
(* the box of ParallelProps, walls left and right, periodic below and above *)
Example C55_parallel_example :
  let g := xgrid 4 [2; 2; -1; -1] in
  let D := xD 4 [2; 2; -1; -1] in
  serial 2 [[6; 8]] xst [1; 0] g [] [] bb D (xms 4 [2; 2; -1; -1] bb) /\
  channel 2 [[6; 8]] xst [1; 0] g D bb (labels_of g []) (xms 4 [2; 2; -1; -1] bb) /\
  parallel xst g [] [] bb [2; 1]%nat (dom_at g [] [2; 1]%nat) (links_at xst g [] [] bb [2; 1]%nat) /\
  let mass := fluid_total g [2; 1]%nat (dom_at g [] [2; 1]%nat) [[0; 0]; [1; 0]]%nat (fun f : vec Zring => mvmul (al_n a_ex) (al_M a_ex) f 0%nat) in
  let F := xF 4 [2; 2; -1; -1] [2; 1]%nat in
  let F' := xrun 4 [2; 2; -1; -1] bb [2; 1]%nat [fun (_ : Z) (_ : list Q) (_ : nat) => 0] in
  mass F = 2488 /\ mass F' = 2488 /\ F' [0; 0]%nat [1; 1] 0%nat <> F [0; 0]%nat [1; 1] 0%nat.
Proof.
  cbv zeta.
  assert (E : serial 2 [[6; 8]] xst [1; 0] (xgrid 4 [2; 2; -1; -1]) [] [] bb (xD 4 [2; 2; -1; -1]) (xms 4 [2; 2; -1; -1] bb)).
  { destruct (xserial 4 [2; 2; -1; -1] xconds) as [E1 E2 E3 E4 Ed E5 E6 E7 E8 Eo Et El E9 E10]; try (cbn; auto; fail). split; try assumption.
    - intros lab s m m' [H|[]] [H'|[]]. congruence.
    - vm_compute. reflexivity. }
  split; [exact E|]. split.
  - split; [split|..].
    + exact (serial_setting _ _ _ _ _ _ _ _ _ _ E).
    + repeat constructor; cbn; intuition discriminate.
    + apply E.
    + split; [cbn; lia|]. intros [|[|d]] Hd; cbn in Hd |- *; lia.
    + apply E.
    + intros [|[|d]] Hd P; cbn in Hd; try lia; [|discriminate].
      split; (split; [vm_compute; auto|split; [discriminate|split; [discriminate|intros [|s] Hs; [now left|cbn in Hs; lia]]]]).
    + intros v d [<-|[<-|[]]] Hd; cbn in Hd; (destruct d as [|[|d]]; [| |lia]); cbn; lia.
    + intros [|[|d]] [|[|d']] Hd Hd' P P'; cbn in Hd, Hd'; try lia; discriminate.
  - split; [eapply C57_exists; [exact E|apply xok; cbn; auto|now left]|]. repeat (split; [vm_compute; reflexivity|]). vm_compute. discriminate.
Qed.
