(* Property C54: a vessel closed by bounce back walls at rest keeps its conserved
   quantities, for any number of time steps. *)
From Coq Require Import QArith Qcanon Lqa.
From Verif Require Import PyBase VelocityModel VelocityProofs PermuteProofs Velocity3Proofs StencilModel StencilProofs
  GridModel LinAlg GlobalModel GlobalProofs TorusProofs DomainModel DomainProofs DomainProps BoundaryModel BoundaryProofs
  BoundaryProps BoundaryUpdProps AlgoModel AlgoProofs RelVelProofs KernelProofs SimModel SimProofs AlgoProps SimProps VesselProofs.
From Coq Require Import Sorting.Permutation.
Open Scope Z_scope.

(* A vessel: walls on all the sides of the box, any elements inside, bounce back for
   all the labels and all the schemes. *)
Record vessel dimz schemes st r g (es : list elem) D conds labels ms : Prop := {
  v_set : setting dimz schemes st r g D conds labels ms;
  v_nodup : Forall (@NoDup Z) schemes;
  v_grid : wf_grid g;
  v_elems : forall e, In e es -> bounds_ok g e /\ distance_ok g e;
  v_inside : forall e c, In e es -> e_fluid e = true -> e_in e (point g c) = true -> interior g c = true;
  v_dom : domain_init g es = Some D;
  v_sides : forall i, (i < 2 * dim g)%nat -> In (g_lab g)@i labels;
  v_borders : forall e x dv, In e es -> (0 < e_alpha e x dv)%Q -> In (e_border e x dv) labels;
  v_conds : forall lab, In lab labels -> lab <> -1 /\ lab <> -2 /\ forall s, (s < length schemes)%nat -> In (s, MBounceBack) (conds lab)
}.
Section Vessel.
Variables (dimz : Z) (schemes : list (list Z)) (st : stencil) (r : list Z) (g : grid) (es : list elem) (D : dom).
Variables (conds : Z -> list (nat * method)) (labels : list Z) (ms : list (method * list blink)).
Hypothesis V : vessel dimz schemes st r g es D conds labels ms.
Let S : setting dimz schemes st r g D conds labels ms := v_set _ _ _ _ _ _ _ _ _ _ V.
Notation n := (length (concat schemes)).

Let ND : Forall (@NoDup Z) schemes := v_nodup _ _ _ _ _ _ _ _ _ _ V.
Let W : wf_grid g := v_grid _ _ _ _ _ _ _ _ _ _ V.
Let HE : forall e, In e es -> bounds_ok g e /\ distance_ok g e := v_elems _ _ _ _ _ _ _ _ _ _ V.
Let HDi : domain_init g es = Some D := v_dom _ _ _ _ _ _ _ _ _ _ V.
Let row_of := row_of dimz schemes st r g D conds labels ms S.
Let sym_facts := sym_facts dimz schemes st r g D conds labels ms S ND.
Let opp_vel := opp_vel dimz schemes st r g D conds labels ms S ND.
Let fluid_in := fluid_in g es D W HE HDi.
Let fluid_arr := fluid_arr g es D W HE HDi.

(* Every distribution which enters a fluid cell from a cell that is not fluid is
   written by a bounce back link. *)
Lemma closed x k : In x (fluid_cells g D) -> (k < n)%nat -> d_ioo D (before st g k x) = false ->
  exists b, has ms MBounceBack b /\ b_k b = k /\ b_cell b = before st g k x.
Proof.
  intros Hx Hk Hy. destruct (fluid_in x Hx) as (Lx & Hf & Hi & HB'). destruct (opp_vel k Hk) as (num & Hnum & w & Hw & Ew).
  pose proof V as [_ _ _ _ HI _ Hsides Hbord Hconds]. pose proof S as [Hn Hb Hr Hg HJ HB HF Hval].
  assert (Hz : vzero g (map Z.opp (velk st k)) = false).
  { destruct (vzero g _) eqn:C; [|reflexivity]. rewrite vzero_spec in C. exfalso.
    assert (before st g k x = x); [|congruence]. apply (cell_ext g); [apply shift_len|exact Lx|]. intros d Hd.
    unfold before. rewrite shift_nth, C by exact Hd. lia. }
  assert (Lk : flagged (d_link D num x)).
  { pose proof (C15_links g es D W HE HDi num _ x Hnum Hz Hi Hf) as C. unfold before in Hy. rewrite Hy in C. apply C.
    destruct (C15_targets g x (map Z.opp (velk st k))) as [T|T]; [|exact Hi|left; exact T|].
    - intros i Hi'. apply (Hconds _ (Hsides i Hi')).
    - destruct (interior g (shift g x (map Z.opp (velk st k)))) eqn:Ei; [now left|right]. split; [exact T|].
      intros e He Hfl. destruct (e_in e _) eqn:C2; [|reflexivity]. rewrite (HI e _ He Hfl C2) in Ei. discriminate. }
  assert (Fl : In (l_flag (d_link D num x)) labels).
  { destruct (domain_labelled g labels Hsides es D Hbord HDi num x) as [C|C]; [|exact C].
    exfalso. exact (flag_excl _ C Lk). }
  set (lab := l_flag (d_link D num x)) in *. destruct (Hconds lab Fl) as (N1 & N2 & HC).
  destruct (row_of k Hk) as (s & vs & i & v & Hs & Hi' & Ek & Hls).
  exists (mkB (row st s i) (shift g x (vel_list w)) lab (l_dist (d_link D num x)) (l_norm (d_link D num x))).
  split; [|split; [now symmetry|cbn; rewrite Ew; reflexivity]].
  apply (boundary_links dimz schemes st Hn Hb g D conds labels ms HB). exists lab, s, vs, i, v, num, w, x.
  repeat (split; [first [assumption|now apply HC|rewrite Ew, Ek; f_equal; eapply row_velk; eauto]|]).
  split; [apply array_cells_in; split; assumption|]. split; reflexivity.
Qed.

Section Step.
Variable K : ring.
Add Ring Kring_ves : (rth K).
Variable qk : Q -> K.
Variable feq : blink -> nat -> K.
Hypothesis Hrest : forall b k, (k < n)%nat -> feq b (symk r k) = feq b k.
Variable be : BoundaryModel.backend.
Notation bc := (boundary_condition K qk g (velk st) (symk r) feq be ms).

Definition src (k : nat) (x : cell) : option cell := if d_ioo D (before st g k x) then Some (before st g k x) else None.
Lemma src_ok k x y : (k < n)%nat -> In x (fluid_cells g D) -> src k x = Some y ->
  In y (fluid_cells g D) /\ src (symk r k) y = Some x.
Proof.
  intros Hk Hx H. unfold src in H. destruct (d_ioo D (before st g k x)) eqn:E; [|discriminate]. injection H as <-.
  destruct (opp_vel k Hk) as (num & Hnum & _). destruct (fluid_in x Hx) as (Lx & Hf & _).
  split; [apply fluid_arr; [exact Hx|eapply nth_error_In; eauto|exact E]|].
  assert (B : before st g (symk r k) (before st g k x) = x).
  { unfold before. destruct (sym_facts k Hk) as (_ & _ & ->). rewrite opp_opp. now apply shift_back. }
  unfold src. rewrite B, Hf. reflexivity.
Qed.
Lemma transport_walls (F : dfield K) k x : (k < n)%nat -> In x (fluid_cells g D) ->
  bc F k (before st g k x) = match src k x with Some y => F k y | None => F (symk r k) x end.
Proof.
  intros Hk Hx. destruct (fluid_in x Hx) as (Lx & Hf & _). unfold src.
  destruct (d_ioo D (before st g k x)) eqn:E.
  - apply pass_frame. apply (fluid_unwritten _ _ _ _ _ _ _ _ _ S). exact E.
  - destruct (closed x k Hx Hk E) as (b & Hb & Ek & Ec).
    destruct (C17_after_transport _ _ _ _ _ _ _ _ _ S K qk feq be F MBounceBack b Hb) as (_ & _ & T & _).
    specialize (T eq_refl). unfold btransport in T. rewrite Ek, Ec in T.
    assert (B : shift g (before st g k x) (velk st k) = x) by (unfold before; now apply shift_back).
    rewrite B in T. fold (before st g k x) in T. rewrite T, (Hrest b k Hk). ring.
Qed.
Lemma walls_sum (w : nat -> K) (F : dfield K) : (forall k, (k < n)%nat -> w (symk r k) = w k) ->
  sumL (fluid_cells g D) (fun x => sum n (fun k => (w k * bc F k (before st g k x))%K)) =
  sumL (fluid_cells g D) (fun x => sum n (fun k => (w k * F k x)%K)).
Proof.
  intros Hw. apply (reflect_sum cell (fluid_cells g D) n (symk r) src) with (F' := fun k x => bc F k (before st g k x)).
  - apply NoDup_filter. apply array_cells_NoDup.
  - intros k Hk. destruct (sym_facts k Hk) as (A & B & _). auto.
  - apply src_ok.
  - exact Hw.
  - intros k x Hk Hx. now apply transport_walls.
Qed.
End Step.
End Vessel.

(* U: the exchange of the ghost cells (there is no periodic side), which changes no
   fluid cell.  feq: the equilibrium of the values given at the walls; at rest it is
   the same for opposite velocities. *)
Definition wall_step (K : ring) (qk : Q -> K) (g : grid) (st : stencil) (r : list Z) feq be ms
    (U : field K cell -> field K cell) (F : field K cell) : field K cell :=
  fun x k => boundary_condition K qk g (velk st) (symk r) feq be ms (fun k c => U F c k) k x.

Theorem C54_closed_vessel dimz schemes st r g es D conds labels ms :
  vessel dimz schemes st r g es D conds labels ms ->
  forall (K : ring) (a : algo K) (qk : Q -> K) feq be U init init_moments params bk (s : sim K cell params) l i,
  al_n a = length (concat schemes) ->
  al_source a = [] -> eq_ok K a -> rel_ok K a -> frame_ok K a -> (i < al_nc a)%nat ->
  (* an even moment, walls at rest *)
  (forall k, (k < al_n a)%nat -> al_M a i (symk r k) = al_M a i k) ->
  (forall b k, (k < al_n a)%nat -> feq b (symk r k) = feq b k) ->
  (forall F x, d_ioo D x = true -> U F x = F x) ->
  s_need_init K cell params s = false ->
  Forall (fun o => match o with OStep _ _ _ | OReadM _ _ _ | OReadF _ _ _ | OF2m _ _ _ | OParam _ _ _ _ => True | _ => False end) l ->
  let B := wall_step K qk g st r feq be ms U in
  let s' := exec_ops K cell list_eqb a (before st g) (inner_cells g) B init init_moments params bk l s in
  let total F := sumL (fluid_cells g D) (fun x => mvmul (al_n a) (al_M a) (F x) i) in
  total (s_F K cell params s') = total (s_F K cell params s).
Proof.
  intros V K a qk feq be U init init_moments params bk s l i Hna HS He HR HF Hi Hev Hrest HU Hn0 Hl B s' total.
  assert (HC : conserving K a).
  { split; [exact HS|]. split; [exact He|]. split; [exact HR|]. destruct (al_relvel a); [exact HF|exact (proj1 (proj1 HF))]. }
  pose proof (source_ok_nil K a HS) as Hso. unfold s'. clear s'. revert s Hn0.
  induction Hl as [|o l Ho Hl IH]; intros s Hn0; [reflexivity|].
  unfold exec_ops. cbn [fold_left].
  change (fold_left _ l ?z) with (exec_ops K cell list_eqb a (before st g) (inner_cells g) B init init_moments params bk l z).
  rewrite IH by (apply need_apply; exact Hn0). clear IH.
  destruct o; try contradiction; try reflexivity.
  - (* a time step *)
    cbn [apply]. set (s1 := one_time_step _ _ _ _ _ _ _ _ _ _ _ s).
    assert (E : forall x, In x (fluid_cells g D) -> mvmul (al_n a) (al_M a) (s_F K cell params s1 x) i =
      sum (length (concat schemes)) (fun k => (al_M a i k * boundary_condition K qk g (velk st) (symk r) feq be ms (fun k c => U (s_F K cell params s) c k) k (before st g k x))%K)).
    { intros x Hx. destruct (fluid_in g es D (v_grid _ _ _ _ _ _ _ _ _ _ V) (v_elems _ _ _ _ _ _ _ _ _ _ V) (v_dom _ _ _ _ _ _ _ _ _ _ V) x Hx) as (Lx & Hf & Hint & _).
      assert (Hin : In x (inner_cells g)).
      { apply filter_In. split; [|exact Hint]. apply filter_In in Hx. apply Hx. }
      pose proof (proj1 (step_spec K cell list_eqb a (before st g) (inner_cells g) B init init_moments params bk list_eqb_spec He Hso HR s x Hn0) Hin) as A.
      fold s1 in A. rewrite (mvmul_ext K _ _ _ _ A), (pull_conserves K a _ i HC Hi). unfold mvmul. rewrite Hna. reflexivity. }
    unfold total. rewrite (sumL_ext K _ _ _ E).
    rewrite Hna in Hev, Hrest.
    rewrite (walls_sum _ _ _ _ _ _ _ _ _ _ V K qk feq Hrest be (al_M a i) (fun k c => U (s_F K cell params s) c k) Hev).
    apply sumL_ext. intros x Hx. destruct (fluid_in g es D (v_grid _ _ _ _ _ _ _ _ _ _ V) (v_elems _ _ _ _ _ _ _ _ _ _ V) (v_dom _ _ _ _ _ _ _ _ _ _ V) x Hx) as (_ & Hf & _).
    unfold mvmul. rewrite Hna. apply sum_ext. intros k Hk. now rewrite (HU _ x Hf).
  - cbn [apply]. unfold refresh. destruct (s_update _ _ _ s); reflexivity.
Qed.
Print Assumptions C54_closed_vessel.

(* Three fluid cells between a solid and the end of the box; D1Q3. *)
Definition tube_elems : list elem := [interval false (1 # 2) (11 # 3) 5].
Definition tube_D : dom := match domain_init (line [0; 0]) tube_elems with Some D => D | None => mkDom (fun _ => false) (fun _ _ => link0) end.
Definition tube_ms (m : method) : list (method * list blink) :=
  match boundary line_st (line [0; 0]) tube_D (fun _ => [(0%nat, m)]) [0; 5] with Some ms => ms | None => [] end.
Lemma tube_setting m : setting 1 [[0; 1; 2]] line_st [0; 2; 1] (line [0; 0]) tube_D (fun _ => [(0%nat, m)]) [0; 5] (tube_ms m).
Proof.
  split.
  - apply line_nonneg.
  - reflexivity.
  - reflexivity.
  - reflexivity.
  - apply (joins_ok (line [0; 0]) tube_elems tube_D); [apply line_wf| |reflexivity].
    intros e [<-|[]]; apply line_elem; first [discriminate|reflexivity|unfold Qle; cbn; lia].
  - destruct m; reflexivity.
  - intros lab s m1 m2 [E1|[]] [E2|[]]. congruence.
  - intros [C|[C|[]]]; discriminate.
Qed.
Lemma tube_vessel : vessel 1 [[0; 1; 2]] line_st [0; 2; 1] (line [0; 0]) tube_elems tube_D (fun _ => [(0%nat, MBounceBack)]) [0; 5] (tube_ms MBounceBack).
Proof.
  split.
  - apply tube_setting.
  - constructor; [|constructor]. repeat constructor; cbn; intuition discriminate.
  - apply line_wf.
  - intros e [<-|[]]; apply line_elem; first [discriminate|reflexivity|unfold Qle; cbn; lia].
  - intros e c [<-|[]] C. discriminate.
  - reflexivity.
  - intros [|[|i]] Hi; cbn in Hi |- *; auto. lia.
  - intros e x dv [<-|[]] _. right. left. reflexivity.
  - intros lab [<-|[<-|[]]]; (split; [discriminate|]; split; [discriminate|]; intros s Hs; cbn in Hs; assert (s = 0%nat) as -> by lia; now left).
Qed.
Definition a_tube : algo Zring := mkAlgo 3 1 1 (zm [[1; 1; 1]; [0; 1; 0]; [0; 0; 1]]) (zm [[1; -1; -1]; [0; 1; 0]; [0; 0; 1]])
  (fun _ => idm) (fun m k => if Nat.eqb k 0 then m 0%nat else 3 * m 0%nat) (fun _ k => nth k [0; 2; 5] 0) None [] 1.
Lemma a_tube_ok : eq_ok Zring a_tube /\ rel_ok Zring a_tube /\ frame_ok Zring a_tube.
Proof.
  split; [|split; [|split; [|split]]].
  - split; [cbn; lia|]. split; [|split].
    + intros m m' H k Hk. cbn. rewrite (H 0%nat) by (cbn; lia). reflexivity.
    + intros m m' H k Hk. reflexivity.
    + intros m [|i] Hi; [reflexivity|cbn in Hi; lia].
  - split; [intros rel m m' C; discriminate|]. intros u u' i j H Hi Hj. reflexivity.
  - split; intros [|[|[|i]]] [|[|[|j]]] Hi Hj; cbn in Hi, Hj; try lia; reflexivity.
  - intros u. split; intros [|[|[|i]]] [|[|[|j]]] Hi Hj; cbn in Hi, Hj; try lia; reflexivity.
  - intros u i j Hi Hj. cbn in Hi, Hj. assert (i = 0%nat) as -> by lia.
    destruct j as [|[|[|j]]]; try lia; reflexivity.
Qed.
Definition tube_sim : sim Zring cell unit := mkSim Zring cell unit
  (fun x k => 10 * x@0 + Z.of_nat k) (fun _ _ => 0) (fun _ _ => 0) (fun _ _ => 0) true false 0 0 (inr 1) tt.
Definition tube_run t := exec_ops Zring cell list_eqb a_tube (before line_st (line [0; 0])) (inner_cells (line [0; 0]))
  (wall_step Zring (fun _ => 0) (line [0; 0]) line_st [0; 2; 1] (fun _ _ => 0) Cython (tube_ms MBounceBack) (fun F => F))
  None true unit Two (repeat (OStep Zring cell unit) t) tube_sim.
Example C54_example :
  vessel 1 [[0; 1; 2]] line_st [0; 2; 1] (line [0; 0]) tube_elems tube_D (fun _ => [(0%nat, MBounceBack)]) [0; 5] (tube_ms MBounceBack) /\
  fluid_cells (line [0; 0]) tube_D = [[4]; [5]; [6]] /\
  eq_ok Zring a_tube /\ rel_ok Zring a_tube /\ frame_ok Zring a_tube /\
  map (fun x => mvmul 3 (al_M a_tube) (s_F _ _ _ tube_sim x) 0%nat) (fluid_cells (line [0; 0]) tube_D) = [123; 153; 183] /\
  map (fun x => mvmul 3 (al_M a_tube) (s_F _ _ _ (tube_run 3) x) 0%nat) (fluid_cells (line [0; 0]) tube_D) = [-9732; -12951; 23142].
Proof.
  split; [apply tube_vessel|]. split; [reflexivity|]. destruct a_tube_ok as (A & B & C). repeat (split; [assumption|]).
  split; [reflexivity|]. vm_compute. reflexivity.
Qed.

(* With Bouzidi's bounce back the mass changes when the wall is not half way. *)
Theorem C54_bouzidi_refuted : exists dimz schemes st r g D conds labels ms (F : dfield QcR),
  setting dimz schemes st r g D conds labels ms /\ (forall lab, In lab labels -> conds lab = [(0%nat, MBouzidi)]) /\
  let F' := btransport QcR g (velk st) (boundary_condition QcR Q2Qc g (velk st) (symk r) (fun _ _ => 0%Qc) Cython ms F) in
  sumL (fluid_cells g D) (fun x => sum 3%nat (fun k => F' k x)) <> sumL (fluid_cells g D) (fun x => sum 3%nat (fun k => F k x)).
Proof.
  exists 1, [[0; 1; 2]], line_st, [0; 2; 1], (line [0; 0]), tube_D, (fun _ => [(0%nat, MBouzidi)]), [0; 5], (tube_ms MBouzidi).
  exists (fun k c => Q2Qc (inject_Z (10 * Z.of_nat k + c@0))). split; [apply tube_setting|]. split; [reflexivity|].
  cbv zeta. intros C. apply (f_equal (fun q : Qc => this q)) in C. vm_compute in C. discriminate.
Qed.
Print Assumptions C54_bouzidi_refuted.
