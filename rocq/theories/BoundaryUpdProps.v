(* Properties C17-C20: the updates of the boundary conditions. *)
From Verif Require Import PyBase VelocityModel VelocityProofs PermuteProofs Velocity3Proofs StencilModel StencilProofs
  GridModel LinAlg GlobalModel GlobalProofs DomainModel DomainProofs DomainProps BoundaryModel BoundaryProofs BoundaryProps.
From Coq Require Import QArith Qcanon Lqa Sorting.Permutation.
Open Scope Z_scope.

(* The objects of a simulation.  symk r is the table of opposite velocities; a
   user's label is not 999, the mark of the cells without link; a label has one
   condition for each scheme; links join fluid cells to other cells (proved in
   C16_ends for domains). *)
Record setting (dimz : Z) (schemes : list (list Z)) (st : stencil) (r : list Z) (g : grid) (D : dom)
    (conds : Z -> list (nat * method)) (labels : list Z) (ms : list (method * list blink)) : Prop := {
  s_nn : nonneg schemes;
  s_build : build_stencil dimz schemes = Some st;
  s_sym : stencil_get_symmetric st None = Some r;
  s_vel : g_vel g = map vel_list (sunique st);
  s_joins : joins g D;
  s_bound : boundary st g D conds labels = Some ms;
  s_fun : forall lab s m m', In (s, m) (conds lab) -> In (s, m') (conds lab) -> m = m';
  s_val : ~ In valin labels
}.

Section Setting.
Variables (dimz : Z) (schemes : list (list Z)) (st : stencil) (r : list Z) (g : grid) (D : dom).
Variables (conds : Z -> list (nat * method)) (labels : list Z) (ms : list (method * list blink)).
Hypothesis S : setting dimz schemes st r g D conds labels ms.

Lemma link_facts m b : has ms m b ->
  d_ioo D (b_cell b) = false /\ d_ioo D (shift g (b_cell b) (velk st (b_k b))) = true /\
  length (b_cell b) = dim g /\ velk st (symk r (b_k b)) = map Z.opp (velk st (b_k b)).
Proof.
  destruct S as [Hn Hb Hr Hg HJ HB HF Hval]. intros H.
  apply (boundary_links dimz schemes st Hn Hb g D conds labels ms HB) in H.
  destruct H as (lab & s & vs & i & v & num & w & x & L1 & L2 & L3 & L4 & Hs & Hi & Hw & Ew & Hx & Hf & ->).
  cbn [b_k b_cell]. rewrite (row_velk st s vs i v Hs Hi).
  assert (Hk : nth_error (g_vel g) num = Some (vel_list w)) by (rewrite Hg; now apply map_nth_error).
  assert (Hfl : l_flag (d_link D num x) <> valin) by (intros C; apply Hval; congruence).
  destruct (HJ num (vel_list w) x Hk Hx Hfl) as [J1 J2]. apply array_cells_in in Hx. destruct Hx as [Lx Hx].
  rewrite Ew in *. rewrite shift_back by exact Lx. repeat split; auto using shift_len.
  destruct (C07_lemma dimz schemes st None Hn Hb ltac:(intros; discriminate)) as [_ T].
  destruct (T r Hr) as (_ & T2 & _). destruct (T2 s i vs v Hs Hi) as (j & u & Hj & Eu & En).
  unfold symk. pose proof (build_facts dimz schemes st Hn Hb) as BF.
  assert (Erow : row st s i = (length (concat (firstn s schemes)) + i)%nat).
  { unfold row. rewrite <- (b_v _ _ _ BF), firstn_map, <- concat_map. now rewrite map_length. }
  rewrite Erow. rewrite (nth_error_nth _ _ _ En), Nat2Z.id.
  assert (Erow' : row st s j = (length (concat (firstn s schemes)) + j)%nat).
  { unfold row. rewrite <- (b_v _ _ _ BF), firstn_map, <- concat_map. now rewrite map_length. }
  rewrite <- Erow'. rewrite (row_velk st s vs j u Hs Hj). change (vel_list u) with (vcoords u).
  rewrite Eu. apply sym_coords_opp.
Qed.
Lemma links_one m1 b1 m2 b2 : has ms m1 b1 -> has ms m2 b2 -> key b1 = key b2 -> m1 = m2 /\ b1 = b2.
Proof.
  destruct S as [Hn Hb Hr Hg HJ HB HF Hval]. intros H1 H2 E. unfold key in E. injection E as E1 E2.
  eapply C16_one_link; eauto.
Qed.
Lemma links_nodup : NoDup (map fst ms).
Proof. destruct S. eapply C16_points; eauto. Qed.
Lemma written_solid p : written (all_links ms) p -> d_ioo D (snd p) = false.
Proof.
  intros (b & Hb & <-). unfold all_links in Hb. apply in_concat in Hb. destruct Hb as (l & Hl & Hb).
  apply in_map_iff in Hl. destruct Hl as ([m l'] & E & Hl). cbn in E. subst l'.
  apply (link_facts m b). exists l. auto.
Qed.
Lemma fluid_unwritten p : d_ioo D (snd p) = true -> ~ written (all_links ms) p.
Proof. intros H C. apply written_solid in C. congruence. Qed.
Lemma transport_back K (F : dfield K) b m : has ms m b ->
  btransport K g (velk st) F (b_k b) (shift g (b_cell b) (velk st (b_k b))) = F (b_k b) (b_cell b).
Proof. intros H. unfold btransport. destruct (link_facts m b H) as (_ & _ & L & _). now rewrite shift_back'. Qed.

Section Ring.
Variable K : arith.
Variable qk : Q -> K.
Variable feq : blink -> nat -> K.
Notation bvalue := (bvalue K qk g (velk st) (symk r) feq).
Notation bc := (boundary_condition K qk g (velk st) (symk r) feq).

Lemma value_after be F m b : has ms m b ->
  (forall p, In p (loads g (velk st) (symk r) m b) -> d_ioo D (snd p) = true) ->
  btransport K g (velk st) (bc be ms F) (b_k b) (shift g (b_cell b) (velk st (b_k b))) = bvalue m F b.
Proof.
  intros H HL. rewrite (transport_back K _ b m H). apply pass_value; auto using links_nodup.
  - apply links_one.
  - intros p Hp. apply fluid_unwritten. now apply HL.
Qed.
End Ring.
End Setting.

(* --------------------------------------------------------------- C17 ----- *)
(* x is the fluid cell of a link, k the velocity that comes from the wall.  feq b
   is the equilibrium of the user's boundary value at the point of the link. *)
Theorem C17_after_transport dimz schemes st r g D conds labels ms :
  setting dimz schemes st r g D conds labels ms ->
  forall (K : arith) (qk : Q -> K) (feq : blink -> nat -> K) be (F : dfield K) m b, has ms m b ->
  let k := b_k b in
  let ks := symk r k in
  let v := velk st k in
  let x := shift g (b_cell b) v in
  let F' := btransport K g (velk st) (boundary_condition K qk g (velk st) (symk r) feq be ms F) in
  velk st ks = map Z.opp v /\ d_ioo D x = true /\
  (m = MBounceBack -> F' k x = (F ks x + (feq b k - feq b ks))%K) /\
  (m = MAnti -> F' k x = (- F ks x + (feq b k + feq b ks))%K) /\
  (m = MNeumann -> F' k x = F k x) /\
  (forall a, m = match a with 0%nat => MNeumannX | 1%nat => MNeumannY | _ => MNeumannZ end -> (a < dim g)%nat -> (a < 3)%nat ->
   forall y, length y = dim g -> (forall d, (d < dim g)%nat -> y@d = if Nat.eqb d a then x@d else x@d - v@d) ->
   d_ioo D y = true -> F' k x = F k y).
Proof.
  intros S K qk feq be F m b H k ks v x F'.
  destruct (link_facts _ _ _ _ _ _ _ _ _ S m b H) as (F1 & F2 & F3 & F4).
  pose proof (value_after _ _ _ _ _ _ _ _ _ S K qk feq be F m b H) as V. 
  split; [exact F4|]. split; [exact F2|]. split; [|split; [|split]].
  - intros ->. apply V. intros p [<-|[]]. exact F2.
  - intros ->. apply V. intros p [<-|[]]. exact F2.
  - intros ->. apply V. intros p [<-|[]]. exact F2.
  - intros a Hm Ha Ha3 y Ly Hy Hfl.
    assert (E : ahead_axis g (velk st) a b = y).
    { apply (cell_ext g); [apply shift_len|exact Ly|]. intros d Hd. unfold ahead_axis. rewrite shift_nth by exact Hd.
      unfold axes. rewrite Hy by exact Hd.
      assert (N : forall (f : nat -> Z), (map f (seq 0 (dim g)))@d = f d).
      { intros f. rewrite (nth_indep _ 0 (f 0%nat)) by (now rewrite map_length, seq_length). rewrite map_nth. now rewrite seq_nth. }
      rewrite N. unfold x. rewrite shift_nth by exact Hd. fold k. fold v. destruct (Nat.eqb d a); lia. }
    destruct a as [|[|[|a]]]; [| | |lia]; subst m;
      (etransitivity; [apply V; intros p [<-|[]]; cbn [iload0 snd]; now rewrite E|]);
      unfold bvalue, iload0, at_; cbn [fst snd]; now rewrite E.
Qed.
(* All other values are the ones of a transport without walls. *)
Theorem C17_elsewhere dimz schemes st r g D conds labels ms :
  setting dimz schemes st r g D conds labels ms ->
  forall (K : arith) (qk : Q -> K) (feq : blink -> nat -> K) be (F : dfield K) k x, length x = dim g ->
  (forall m b, has ms m b -> b_k b = k -> shift g (b_cell b) (velk st k) <> x) ->
  btransport K g (velk st) (boundary_condition K qk g (velk st) (symk r) feq be ms F) k x =
  F k (shift g x (map Z.opp (velk st k))).
Proof.
  intros S K qk feq be F k x Lx H. unfold btransport. apply pass_frame. intros (b & Hb & E).
  unfold all_links in Hb. apply in_concat in Hb. destruct Hb as (l & Hl & Hb).
  apply in_map_iff in Hl. destruct Hl as ([m l'] & El & Hl). cbn in El. subst l'.
  unfold key in E. injection E as E1 E2. apply (H m b); [exists l; auto|exact E1|]. rewrite E2. now apply shift_back.
Qed.
Print Assumptions C17_after_transport.
Print Assumptions C17_elsewhere.

(* --------------------------------------------------------------- C19 ----- *)
Definition simple (m : method) : Prop := m = MBounceBack \/ m = MAnti \/ m = MNeumann.
(* What is read by bounce back, anti bounce back and Neumann is written by no link
   of any condition. *)
Theorem C19_not_read dimz schemes st r g D conds labels ms :
  setting dimz schemes st r g D conds labels ms ->
  forall m b m' b', simple m -> has ms m b -> has ms m' b' ->
  iload0 g (velk st) (symk r) m b <> (b_k b', b_cell b').
Proof.
  intros S m b m' b' Hm Hb Hb' E.
  destruct (link_facts _ _ _ _ _ _ _ _ _ S m b Hb) as (_ & F2 & _).
  destruct (link_facts _ _ _ _ _ _ _ _ _ S m' b' Hb') as (F1 & _).
  assert (X : snd (iload0 g (velk st) (symk r) m b) = shift g (b_cell b) (velk st (b_k b))) by (destruct Hm as [ -> | [ -> | -> ] ]; reflexivity).
  rewrite E in X. cbn [snd] in X. congruence.
Qed.
(* The order of the links does not matter, and the two ways of running the update
   (a loop, or all right hand sides first) agree. *)
Theorem C19_order_partial dimz schemes st r g D conds labels ms :
  setting dimz schemes st r g D conds labels ms ->
  forall (K : arith) (qk : Q -> K) (feq : blink -> nat -> K) m L, In (m, L) ms -> simple m \/ m = MBouzidi ->
  forall be be' L' (F : dfield K) k y, Permutation L L' ->
  bupdate K qk g (velk st) (symk r) feq be m L' F k y = bupdate K qk g (velk st) (symk r) feq be' m L F k y.
Proof.
  intros S K qk feq m L HL Hm be be' L' F k y HP.
  assert (HO : one_writer L).
  { intros b b' Hb Hb' E. apply (links_one _ _ _ _ _ _ _ _ _ S m b m b'); auto; exists L; auto. }
  assert (PI : forall b, In b L <-> In b L').
  { intros b. split; apply Permutation_in; [exact HP|apply Permutation_sym; exact HP]. }
  assert (HO' : one_writer L').
  { intros b b' Hb Hb'. apply HO; now apply PI. }
  assert (HW : forall p, written L p <-> written L' p).
  { intros p. unfold written. split; intros (b & Hb & E); exists b; (split; [now apply PI|exact E]). }
  assert (HR : forall be1 b, In b L -> reads_copy be1 m = true \/ forall p, In p (loads g (velk st) (symk r) m b) -> ~ written L p).
  { intros be1 b Hb. destruct Hm as [Hm| ->]; [|left; now destruct be1]. right.
    intros p Hp C. destruct C as (b' & Hb' & E).
    apply (C19_not_read _ _ _ _ _ _ _ _ _ S m b m b' Hm); [exists L; auto|exists L; auto|].
    unfold key in E. rewrite E. destruct Hm as [ -> | [ -> | -> ] ]; destruct Hp as [<-|[]]; reflexivity. }
  destruct (written_dec L (k, y)) as [(b & Hb & E)|Hno].
  - unfold key in E. injection E as <- <-. rewrite !bupdate_value; auto.
    + now apply PI.
    + destruct (HR be b Hb) as [R|R]; [now left|right]. intros p Hp C. apply (R p Hp). now apply HW.
  - rewrite !bupdate_frame; auto. intros C. apply Hno. now apply HW.
Qed.
(* Nor does the order of the conditions, if they are all of this kind. *)
Theorem C19_conditions_order dimz schemes st r g D conds labels ms :
  setting dimz schemes st r g D conds labels ms ->
  (forall m L, In (m, L) ms -> simple m) ->
  forall (K : arith) (qk : Q -> K) (feq : blink -> nat -> K) be be' ms' (F : dfield K) k y, Permutation ms ms' ->
  boundary_condition K qk g (velk st) (symk r) feq be ms' F k y =
  boundary_condition K qk g (velk st) (symk r) feq be' ms F k y.
Proof.
  intros S HS K qk feq be be' ms' F k y HP.
  assert (PI : forall b, In b ms <-> In b ms').
  { intros b. split; apply Permutation_in; [exact HP|apply Permutation_sym; exact HP]. }
  assert (HH : forall m b, has ms' m b <-> has ms m b).
  { intros m b. unfold has. split; intros (L & HL & Hb); exists L; (split; [now apply PI|exact Hb]). }
  assert (HA : forall b, In b (all_links ms) <-> exists m, has ms m b).
  { intros b. unfold all_links. rewrite in_concat. split.
    - intros (l & Hl & Hb). apply in_map_iff in Hl. destruct Hl as ([m l'] & El & Hl). cbn in El. subst l'. exists m, l. auto.
    - intros (m & l & Hl & Hb). exists l. split; [|exact Hb]. change l with (snd (m, l)). now apply in_map. }
  assert (HA' : forall b, In b (all_links ms') <-> exists m, has ms m b).
  { intros b. unfold all_links. rewrite in_concat. split.
    - intros (l & Hl & Hb). apply in_map_iff in Hl. destruct Hl as ([m l'] & El & Hl). cbn in El. subst l'. exists m. apply HH. exists l. auto.
    - intros (m & H). apply HH in H. destruct H as (l & Hl & Hb). exists l. split; [|exact Hb]. change l with (snd (m, l)). now apply in_map. }
  assert (HW : forall p, written (all_links ms') p <-> written (all_links ms) p).
  { intros p. unfold written. split; intros (b & Hb & E); exists b; (split; [|exact E]); [apply HA; now apply HA'|apply HA'; now apply HA]. }
  assert (HR : forall m b, has ms m b -> forall p, In p (loads g (velk st) (symk r) m b) -> ~ written (all_links ms) p).
  { intros m b Hb p Hp (b' & Hb' & E). apply HA in Hb'. destruct Hb' as [m' Hb'].
    assert (Hm : simple m) by (destruct Hb as (L & HL & _); eapply HS; eauto).
    apply (C19_not_read _ _ _ _ _ _ _ _ _ S m b m' b' Hm Hb Hb').
    unfold key in E. rewrite E. destruct Hm as [ -> | [ -> | -> ] ]; destruct Hp as [<-|[]]; reflexivity. }
  destruct (written_dec (all_links ms) (k, y)) as [(b & Hb & E)|Hno].
  - unfold key in E. injection E as <- <-. apply HA in Hb. destruct Hb as [m Hb].
    rewrite (pass_value K qk g (velk st) (symk r) feq be ms' F m b); auto.
    + symmetry. apply pass_value; eauto using links_nodup. apply (links_one _ _ _ _ _ _ _ _ _ S).
    + pose proof (links_nodup _ _ _ _ _ _ _ _ _ S) as N. eapply Permutation_NoDup; [|exact N]. now apply Permutation_map.
    + now apply HH.
    + intros m1 b1 m2 b2 H1 H2. apply HH in H1. apply HH in H2. now apply (links_one _ _ _ _ _ _ _ _ _ S).
    + intros p Hp C. apply HW in C. now apply (HR m b Hb p Hp).
  - rewrite !pass_frame; auto. intros C. apply Hno. now apply HW.
Qed.
Print Assumptions C19_not_read.
Print Assumptions C19_order_partial.
Print Assumptions C19_conditions_order.

(* Rational numbers for the examples. *)
Definition QcR : ring := mkRing Qc _ _ _ _ _ _ Qcrt.
Definition ZR : ring := mkRing Z 0 1 Z.add Z.mul Z.sub Z.opp Zth.
Definition st0 : stencil := mkStencil 0 [] [] [] [] [] [].
Definition line_st : stencil := match build_stencil 1 [[0; 1; 2]] with Some st => st | None => st0 end.
(* One fluid cell, number 4, between two solids, each at a third of a cell. *)
Definition chan_elems : list elem := [interval false (1 # 2) (11 # 3) 5; interval false (13 # 3) (13 # 2) 5].
Definition chan_D : dom := match domain_init (line [0; 0]) chan_elems with Some D => D | None => mkDom (fun _ => false) (fun _ _ => link0) end.
Definition chan_ms (m : method) : list (method * list blink) :=
  match boundary line_st (line [0; 0]) chan_D (fun _ => [(0%nat, m)]) [0; 5] with Some ms => ms | None => [] end.
Lemma line_nonneg : nonneg [[0; 1; 2]].
Proof. intros s x [<-|[]] Hx. cbn in Hx. lia. Qed.
Lemma chan_setting m : setting 1 [[0; 1; 2]] line_st [0; 2; 1] (line [0; 0]) chan_D (fun _ => [(0%nat, m)]) [0; 5] (chan_ms m).
Proof.
  split.
  - apply line_nonneg.
  - reflexivity.
  - reflexivity.
  - reflexivity.
  - apply (joins_ok (line [0; 0]) chan_elems chan_D); [apply line_wf| |reflexivity].
    intros e [<-|[<-|[]]]; apply line_elem; first [discriminate|reflexivity|unfold Qle; cbn; lia].
  - destruct m; reflexivity.
  - intros lab s m1 m2 [E1|[]] [E2|[]]. congruence.
  - intros [C|[C|[]]]; discriminate.
Qed.
(* Two links, written at the cells 3 and 5. *)
Example C16_ex : exists L, chan_ms MBounceBack = [(MBounceBack, L)] /\
  map (fun b => (b_k b, b_cell b, b_lab b)) L = [(1%nat, [3], 5); (2%nat, [5], 5)] /\
  map (fun b => Qred (bcoord line_st (line [0; 0]) b 0)) L = [(11 # 3)%Q; (13 # 3)%Q].
Proof. eexists. split; [reflexivity|]. vm_compute. split; reflexivity. Qed.
Example C17_ex : setting 1 [[0; 1; 2]] line_st [0; 2; 1] (line [0; 0]) chan_D (fun _ => [(0%nat, MBounceBack)]) [0; 5] (chan_ms MBounceBack) /\
  btransport ZR (line [0; 0]) (velk line_st)
    (boundary_condition ZR (fun _ => 0) (line [0; 0]) (velk line_st) (symk [0; 2; 1]) (fun _ k => 100 * Z.of_nat k)
       Cython (chan_ms MBounceBack) (fun k c => 10 * Z.of_nat k + c@0)) 1%nat [4] = 24 + (100 - 200).
Proof. split; [apply chan_setting|]. reflexivity. Qed.
Example C19_ex : forall F : dfield ZR, forall k y, exists L, In (MBounceBack, L) (chan_ms MBounceBack) /\ (length L = 2)%nat /\
  bupdate ZR (fun _ => 0) (line [0; 0]) (velk line_st) (symk [0; 2; 1]) (fun _ _ => 0) Cython MBounceBack (rev L) F k y =
  bupdate ZR (fun _ => 0) (line [0; 0]) (velk line_st) (symk [0; 2; 1]) (fun _ _ => 0) Numpy MBounceBack L F k y.
Proof.
  intros F k y. eexists. split; [left; reflexivity|]. split; [reflexivity|].
  eapply C19_order_partial; [apply (chan_setting MBounceBack)|left; reflexivity|left; left; reflexivity|apply Permutation_rev].
Qed.

(* Bouzidi anti bounce back reads what another link writes: the order matters and
   the loop differs from the array operations.  (Bouzidi bounce back has the same
   links but reads a copy.) *)
Theorem C19_bouzidi_anti_refuted : exists dimz schemes st r g D conds labels ms (L : list blink) (F : dfield QcR) k y,
  setting dimz schemes st r g D conds labels ms /\ In (MBouzidiAnti, L) ms /\
  let up := bupdate QcR Q2Qc g (velk st) (symk r) (fun _ _ => 0%Qc) in
  up Cython MBouzidiAnti (rev L) F k y <> up Cython MBouzidiAnti L F k y /\
  up Numpy MBouzidiAnti L F k y <> up Cython MBouzidiAnti L F k y.
Proof.
  exists 1, [[0; 1; 2]], line_st, [0; 2; 1], (line [0; 0]), chan_D, (fun _ => [(0%nat, MBouzidiAnti)]), [0; 5], (chan_ms MBouzidiAnti).
  eexists. exists (fun k c => Q2Qc (inject_Z (10 * Z.of_nat k + c@0))), 2%nat, [5].
  split; [apply chan_setting|]. split; [left; reflexivity|]. cbv zeta.
  split; intros C; apply (f_equal (fun q : Qc => this q)) in C; vm_compute in C; discriminate.
Qed.
(* Read and written: also for Bouzidi bounce back. *)
Theorem C19_bouzidi_read_refuted : exists dimz schemes st r g D conds labels ms b b',
  setting dimz schemes st r g D conds labels ms /\ has ms MBouzidi b /\ has ms MBouzidi b' /\
  iload1 g (velk st) (symk r) b = (b_k b', b_cell b').
Proof.
  exists 1, [[0; 1; 2]], line_st, [0; 2; 1], (line [0; 0]), chan_D, (fun _ => [(0%nat, MBouzidi)]), [0; 5], (chan_ms MBouzidi).
  eexists. eexists. split; [apply chan_setting|]. split; [|split].
  - eexists. split; [left; reflexivity|]. left. reflexivity.
  - eexists. split; [left; reflexivity|]. right. left. reflexivity.
  - reflexivity.
Qed.

(* A box of 2 by 2 cells, diagonal velocities. *)
Definition box2 : grid := mkGrid [2; 2] [1; 1] [10; 10; 10; 10] [[1; 1]; [-1; -1]] [0; 0]%Q 1%Q.
Definition diag_st : stencil := match build_stencil 2 [[5; 7]] with Some st => st | None => st0 end.
Definition box2_D : dom := match domain_init box2 [] with Some D => D | None => mkDom (fun _ => false) (fun _ _ => link0) end.
Definition box2_ms (m : method) : list (method * list blink) :=
  match boundary diag_st box2 box2_D (fun _ => [(0%nat, m)]) [10] with Some ms => ms | None => [] end.
Lemma box2_wf : wf_grid box2.
Proof.
  split; [reflexivity|]. split.
  - intros d Hd. cbn in Hd. destruct d as [|[|d]]; cbn; lia.
  - intros v d Hv Hd. cbn in Hv, Hd. destruct d as [|[|d]]; [| |lia]; destruct Hv as [<-|[<-|[]]]; cbn; lia.
Qed.
Lemma box2_setting m : setting 2 [[5; 7]] diag_st [1; 0] box2 box2_D (fun _ => [(0%nat, m)]) [10] (box2_ms m).
Proof.
  split.
  - intros s x [<-|[]] Hx. cbn in Hx. lia.
  - reflexivity.
  - reflexivity.
  - reflexivity.
  - apply (joins_ok box2 [] box2_D); [apply box2_wf|intros e []|reflexivity].
  - destruct m; reflexivity.
  - intros lab s m1 m2 [E1|[]] [E2|[]]. congruence.
  - intros [C|[]]; discriminate.
Qed.
(* Neumann along one axis reads at the corner a value of the wall beside. *)
Theorem C19_neumann_x_refuted : exists dimz schemes st r g D conds labels ms (L : list blink) (F : dfield ZR) k y,
  setting dimz schemes st r g D conds labels ms /\ In (MNeumannX, L) ms /\
  let up := bupdate ZR (fun _ => 0) g (velk st) (symk r) (fun _ _ => 0) in
  up Cython MNeumannX (rev L) F k y <> up Cython MNeumannX L F k y /\
  up Numpy MNeumannX L F k y <> up Cython MNeumannX (rev L) F k y.
Proof.
  exists 2, [[5; 7]], diag_st, [1; 0], box2, box2_D, (fun _ => [(0%nat, MNeumannX)]), [10], (box2_ms MNeumannX).
  eexists. exists (fun k c => 100 * Z.of_nat k + 10 * c@0 + c@1), 0%nat, [0; 0].
  split; [apply box2_setting|]. split; [left; reflexivity|]. vm_compute. split; discriminate.
Qed.
Print Assumptions C19_bouzidi_anti_refuted.
Print Assumptions C19_bouzidi_read_refuted.
Print Assumptions C19_neumann_x_refuted.
