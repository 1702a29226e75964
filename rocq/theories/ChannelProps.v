(* Property C55: boxes with periodic sides and walls. *)
From Coq Require Import QArith Qcanon Lqa.
From Verif Require Import PyBase VelocityModel VelocityProofs PermuteProofs Velocity3Proofs StencilModel StencilProofs
  GridModel GridProofs StorageModel ExchangeProofs StorageProps LinAlg GlobalModel GlobalProofs TorusProofs DomainModel DomainProofs DomainProps BoundaryModel BoundaryProofs
  BoundaryProps BoundaryUpdProps AlgoModel AlgoProofs RelVelProofs KernelProofs SimModel SimProofs AlgoProps SimProps VesselProofs VesselProps.
From Coq Require Import Sorting.Permutation.
Open Scope Z_scope.

(* The exchange of the ghost cells (StorageModel.update, C12) with one process. *)
Definition ax1 (g : grid) : list axis := map (fun d => mkAxis (g_n g)@d 1 (g_h g)@d) (DomainModel.axes g).
Definition exchange1 {K : ring} (g : grid) (F : field K cell) : field K cell :=
  fun x => update (ax1 g) (fun _ => F) (repeat 0%nat (dim g)) x.
Definition wrap (g : grid) (x : cell) : cell :=
  map (fun d => (g_h g)@d + (x@d - (g_h g)@d) mod (g_n g)@d) (DomainModel.axes g).
Lemma wrap_nth g x d : (d < dim g)%nat -> (wrap g x)@d = (g_h g)@d + (x@d - (g_h g)@d) mod (g_n g)@d.
Proof. intros H. unfold wrap. now rewrite nth_axes. Qed.
Lemma wrap_len g x : length (wrap g x) = dim g.
Proof. unfold wrap, DomainModel.axes. now rewrite map_length, seq_length. Qed.
Lemma ax1_len g : length (ax1 g) = dim g.
Proof. unfold ax1, DomainModel.axes. now rewrite map_length, seq_length. Qed.
Lemma ax1_nth g d : (d < dim g)%nat -> nth d (ax1 g) dax = mkAxis (g_n g)@d 1 (g_h g)@d.
Proof. intros H. unfold ax1. now rewrite nth_axes. Qed.
Lemma region_one n h : ax_lo (mkAxis n 1 h) 0 = 0 /\ ax_hi (mkAxis n 1 h) 0 = n.
Proof.
  unfold ax_lo, ax_hi. cbn [ax_n ax_p]. rewrite region1_eq by lia. unfold bound.
  change (Z.of_nat 1) with 1. change (Z.of_nat 0) with 0. rewrite Z.div_1_r, Z.mod_1_r. split; lia.
Qed.

Definition room (g : grid) : Prop := (dim g <= 3)%nat /\ forall d, (d < dim g)%nat -> 0 <= (g_h g)@d <= (g_n g)@d /\ 0 < (g_n g)@d.
Lemma ax1_ok g : room g -> Forall ax_ok (ax1 g).
Proof.
  intros [_ H]. apply Forall_forall. intros a Ha. apply in_map_iff in Ha. destruct Ha as (d & <- & Hd).
  apply in_seq in Hd. specialize (H d ltac:(lia)). split; [cbn; lia|]. split; [cbn; lia|]. split; [cbn; lia|].
  intros c Hc. cbn in Hc. assert (c = 0%nat) as -> by lia. destruct (region_one (g_n g)@d (g_h g)@d) as [-> ->]. cbn. lia.
Qed.
Lemma ax1_coords g : coords_ok (ax1 g) (repeat 0%nat (dim g)).
Proof.
  apply coords_ok_iff. rewrite repeat_length, ax1_len. split; [reflexivity|]. intros d Hd. rewrite nth_repeat, ax1_nth by exact Hd. cbn. lia.
Qed.
Lemma ax1_size n h : ax_size (mkAxis n 1 h) 0 = n + 2 * h.
Proof. unfold ax_size. destruct (region_one n h) as [-> ->]. cbn. lia. Qed.
Lemma exchange1_wrap (K : ring) g (F : field K cell) x : room g -> In x (array_cells g) -> exchange1 g F x = F (wrap g x).
Proof.
  intros R Hx. apply array_cells_in in Hx. destruct Hx as [Lx Bx]. pose proof R as [Hd HR].
  destruct (C12_ghost_exchange (vec K) (ax1 g) (fun _ => F)) as (_ & U & _); [rewrite ax1_len; exact Hd|now apply ax1_ok|].
  unfold exchange1. apply (U _ _ (repeat 0%nat (dim g)) (wrap g x)); try apply ax1_coords.
  - split; [now rewrite ax1_len|]. rewrite ax1_len. intros d Hd'. rewrite ax1_nth, nth_repeat by exact Hd'.
    unfold ax_stored. rewrite ax1_size. specialize (Bx d Hd'). unfold DomainModel.total in Bx. lia.
  - split; [now rewrite ax1_len, wrap_len|]. rewrite ax1_len. intros d Hd'. rewrite ax1_nth, nth_repeat by exact Hd'.
    unfold ax_inner. rewrite ax1_size. cbn [ax_h]. rewrite wrap_nth by exact Hd'.
    pose proof (Z.mod_pos_bound (x@d - (g_h g)@d) (g_n g)@d ltac:(apply HR; exact Hd')). lia.
  - intros d Hd'. rewrite ax1_len in Hd'. rewrite ax1_nth, nth_repeat by exact Hd'. cbv zeta. unfold glob.
    destruct (region_one (g_n g)@d (g_h g)@d) as [-> _]. cbn [ax_h ax_n]. rewrite wrap_nth by exact Hd'.
    replace (0 - (g_h g)@d + ((g_h g)@d + (x@d - (g_h g)@d) mod (g_n g)@d)) with ((x@d - (g_h g)@d) mod (g_n g)@d) by lia.
    rewrite Z.mod_mod by (destruct (HR d Hd'); lia). f_equal. lia.
Qed.

Definition wall conds (labels : list Z) (ns : nat) (lab : Z) : Prop :=
  In lab labels /\ lab <> -1 /\ lab <> -2 /\ forall s, (s < ns)%nat -> In (s, MBounceBack) (conds lab).
Definition periodic (g : grid) (d : nat) : bool := ((g_lab g)@(2 * d) =? -1) && ((g_lab g)@(2 * d + 1) =? -1).
(* Each axis has two periodic sides or two walls. *)
Record pbox dimz schemes st r g D conds labels ms : Prop := {
  p_set : setting dimz schemes st r g D conds labels ms;
  p_nodup : Forall (@NoDup Z) schemes;
  p_grid : wf_grid g;
  p_room : room g;
  p_dom : domain_init g [] = Some D;
  p_sides : forall d, (d < dim g)%nat -> periodic g d = false ->
    wall conds labels (length schemes) (g_lab g)@(2 * d) /\ wall conds labels (length schemes) (g_lab g)@(2 * d + 1)
}.
Definition slow (g : grid) : Prop := forall v d, In v (g_vel g) -> (d < dim g)%nat -> -1 <= v@d <= 1.
Definition walls_first (g : grid) : Prop := forall d d', (d < dim g)%nat -> (d' < dim g)%nat ->
  periodic g d = true -> periodic g d' = false -> (d' < d)%nat.
Record channel dimz schemes st r g D conds labels ms : Prop := {
  c_box : pbox dimz schemes st r g D conds labels ms;
  c_speed : slow g;
  c_first : walls_first g
}.

Lemma plain_domain g D : domain_init g [] = Some D -> (forall x, d_ioo D x = interior g x) /\
  forall k x, interior g x = true -> d_link D k x = init_links g k x.
Proof.
  intros H. unfold domain_init, add_init in H. destruct (rows_exist g); [|discriminate]. cbn [add_elems] in H. injection H as <-.
  split; [reflexivity|]. intros k x Hi. cbn [clean d_link d_ioo]. now rewrite Hi, andb_false_r.
Qed.

Lemma written_has ms p : written (all_links ms) p -> exists m b, has ms m b /\ key b = p.
Proof.
  intros (b & Hb & E). unfold all_links in Hb. apply in_concat in Hb. destruct Hb as (l & Hl & Hb).
  apply in_map_iff in Hl. destruct Hl as ([m l'] & <- & Hl). exists m, b. split; [exists l'; split; assumption|exact E].
Qed.
Lemma before_nth st g k x d : (d < dim g)%nat -> (before st g k x)@d = x@d - (velk st k)@d.
Proof. intros Hd. unfold before. rewrite shift_nth, nth_opp by exact Hd. lia. Qed.

(* y is between the walls *)
Definition between (g : grid) (y : cell) : bool :=
  forallb (fun d => periodic g d || (((g_h g)@d <=? y@d) && (y@d <? (g_h g)@d + (g_n g)@d))) (DomainModel.axes g).
Lemma between_spec g y : between g y = true <-> forall d, (d < dim g)%nat -> periodic g d = false -> (g_h g)@d <= y@d < (g_h g)@d + (g_n g)@d.
Proof.
  unfold between. rewrite forallb_axes. split; intros H d Hd.
  - intros P. specialize (H d Hd). rewrite P in H. cbn [orb] in H. lia.
  - destruct (periodic g d) eqn:P; [reflexivity|]. specialize (H d Hd P). cbn [orb]. lia.
Qed.

Section Channel.
Variables (dimz : Z) (schemes : list (list Z)) (st : stencil) (r : list Z) (g : grid) (D : dom).
Variables (conds : Z -> list (nat * method)) (labels : list Z) (ms : list (method * list blink)).
Hypothesis C : channel dimz schemes st r g D conds labels ms.
Let S : setting dimz schemes st r g D conds labels ms := p_set _ _ _ _ _ _ _ _ _ (c_box _ _ _ _ _ _ _ _ _ C).
Let ND : Forall (@NoDup Z) schemes := p_nodup _ _ _ _ _ _ _ _ _ (c_box _ _ _ _ _ _ _ _ _ C).
Let W : wf_grid g := p_grid _ _ _ _ _ _ _ _ _ (c_box _ _ _ _ _ _ _ _ _ C).
Let R : room g := p_room _ _ _ _ _ _ _ _ _ (c_box _ _ _ _ _ _ _ _ _ C).
Let HD : domain_init g [] = Some D := p_dom _ _ _ _ _ _ _ _ _ (c_box _ _ _ _ _ _ _ _ _ C).
Notation n := (length (concat schemes)).
Let row_of := row_of dimz schemes st r g D conds labels ms S.
Let sym_facts := sym_facts dimz schemes st r g D conds labels ms S ND.
Let opp_vel := opp_vel dimz schemes st r g D conds labels ms S ND.

Lemma inner_in x : In x (inner_cells g) <-> length x = dim g /\ interior g x = true.
Proof.
  unfold inner_cells. rewrite filter_In, array_cells_in. split; [tauto|]. intros [L I]. split; [|exact I].
  split; [exact L|]. intros d Hd. pose proof (proj1 (interior_spec g x) I d Hd). pose proof (wf_h g W d Hd). unfold DomainModel.total. lia.
Qed.
Lemma ioo_inner x : d_ioo D x = interior g x.
Proof. apply (plain_domain g D HD). Qed.
Lemma speed k d : (k < n)%nat -> (d < dim g)%nat -> -1 <= (velk st k)@d <= 1.
Proof.
  intros Hk Hd. destruct (opp_vel k Hk) as (num & H & _). apply nth_error_In in H.
  pose proof (c_speed _ _ _ _ _ _ _ _ _ C _ d H Hd) as B. rewrite nth_opp in B. lia.
Qed.
(* A distribution that comes from outside of the walls is written by a bounce back
   link, all the others are not written. *)
Lemma chan_written x k : In x (inner_cells g) -> (k < n)%nat -> between g (before st g k x) = false ->
  exists b, has ms MBounceBack b /\ b_k b = k /\ b_cell b = before st g k x.
Proof.
  intros Hx Hk Hy. apply inner_in in Hx. destruct Hx as [Lx Hi]. destruct (opp_vel k Hk) as (num & Hnum & w & Hw & Ew).
  pose proof S as [Hn Hb Hr Hg HJ HB HF Hval].
  set (v := map Z.opp (velk st k)) in *.
  assert (Hv : forall d, v@d = - (velk st k)@d) by (intros; unfold v; apply nth_opp).
  pose proof (init_links_cell g num x v Hi Hnum) as IL. pose proof (axes_fold g x v Hi (dim g) (le_n _)) as FW.
  unfold DomainModel.axes in IL. rewrite <- IL in FW. clear IL.
  assert (Lk : d_link D num x = init_links g num x) by (apply (plain_domain g D HD); exact Hi).
  (* a wall is crossed *)
  assert (HX : exists d, (d < dim g)%nat /\ periodic g d = false /\ crosses g x v d = true).
  { assert (N : ~ (forall d, (d < dim g)%nat -> periodic g d = true \/ crosses g x v d = false)).
    { intros A. assert (between g (before st g k x) = true); [|congruence]. apply between_spec. intros d Hd P.
      destruct (A d Hd) as [A'|A']; [congruence|]. destruct (p_sides _ _ _ _ _ _ _ _ _ (c_box _ _ _ _ _ _ _ _ _ C) d Hd P) as [(_ & _ & N1 & _) (_ & _ & N2 & _)].
      pose proof (proj1 (interior_spec g x) Hi d Hd) as Hc. rewrite before_nth by exact Hd.
      unfold crosses, exits, gap, toright in A'. rewrite !Hv in A'. pose proof (speed k d Hk Hd).
      destruct (Z.eqb_spec (g_lab g)@(2 * d) (-2)); [congruence|]. destruct (Z.eqb_spec (g_lab g)@(2 * d + 1) (-2)); [congruence|].
      destruct (Z.ltb_spec 0 (- (velk st k)@d)), (Z.ltb_spec (- (velk st k)@d) 0); cbn in A'; lia. }
    destruct (existsb (fun d => negb (periodic g d) && crosses g x v d) (DomainModel.axes g)) eqn:E.
    - apply existsb_exists in E. destruct E as (d & Hd & E). apply axes_in in Hd. apply andb_prop in E. destruct E as [E1 E2].
      exists d. split; [exact Hd|]. split; [now destruct (periodic g d)|exact E2].
    - exfalso. apply N. intros d Hd. destruct (periodic g d) eqn:P; [now left|right].
      destruct (crosses g x v d) eqn:Cr; [|reflexivity]. assert (existsb (fun d => negb (periodic g d) && crosses g x v d) (DomainModel.axes g) = true); [|congruence].
      apply existsb_exists. exists d. split; [now apply axes_in|]. now rewrite P, Cr. }
  destruct HX as (d1 & Hd1 & P1 & C1).
  assert (TT : forall d, (d < dim g)%nat -> crosses g x v d = true -> (T g x v d == 1 # 2)%Q).
  { intros d Hd Cr. pose proof (proj1 (interior_spec g x) Hi d Hd) as Hc. unfold crosses in Cr. apply andb_prop in Cr. destruct Cr as [_ Cr].
    apply Z.ltb_lt in Cr. pose proof (c_speed _ _ _ _ _ _ _ _ _ C _ d (nth_error_In _ _ Hnum) Hd) as Sp. unfold T, dvik.
    assert (gap g x (toright v d) d = 0) as -> by (unfold gap in *; destruct (toright v d); lia).
    assert (Z.abs v@d = 1) as -> by (unfold gap in *; destruct (toright v d); lia). reflexivity. }
  destruct FW as [[No _]|(d & Hd & Cd & _ & Fl & _ & _ & Fst)]; [rewrite No in C1 by exact Hd1; discriminate|].
  assert (Pd : periodic g d = false).
  { destruct (periodic g d) eqn:P; [|reflexivity]. exfalso. pose proof (c_first _ _ _ _ _ _ _ _ _ C d d1 Hd Hd1 P P1) as Lt.
    specialize (Fst d1 Lt C1). rewrite (TT d Hd Cd), (TT d1 Hd1 C1) in Fst. lra. }
  assert (Wl : wall conds labels (length schemes) (l_flag (d_link D num x))).
  { rewrite Lk, Fl. unfold wall_label. destruct (p_sides _ _ _ _ _ _ _ _ _ (c_box _ _ _ _ _ _ _ _ _ C) d Hd Pd). destruct (toright v d); assumption. }
  set (lab := l_flag (d_link D num x)) in *. destruct Wl as (Fl' & N1 & N2 & HC).
  destruct (row_of k Hk) as (s & vs & i & u & Hs & Hi' & Ek & Hls).
  exists (mkB (row st s i) (shift g x (vel_list w)) lab (l_dist (d_link D num x)) (l_norm (d_link D num x))).
  split; [|split; [now symmetry|cbn; rewrite Ew; reflexivity]].
  apply (boundary_links dimz schemes st Hn Hb g D conds labels ms HB). exists lab, s, vs, i, u, num, w, x.
  repeat (split; [first [assumption|now apply HC|rewrite Ew; unfold v; rewrite Ek; f_equal; eapply row_velk; eauto]|]).
  split; [apply filter_In with (f := interior g); now apply inner_in|]. split; reflexivity.
Qed.

Definition source (k : nat) (x : cell) : option cell :=
  if between g (before st g k x) then Some (wrap g (before st g k x)) else None.
Lemma wrap_inner y : In (wrap g y) (inner_cells g).
Proof.
  apply inner_in. split; [apply wrap_len|]. apply interior_spec. intros d Hd. rewrite wrap_nth by exact Hd.
  pose proof (Z.mod_pos_bound (y@d - (g_h g)@d) (g_n g)@d ltac:(apply R; exact Hd)). lia.
Qed.
Lemma wrap_id x : In x (inner_cells g) -> wrap g x = x.
Proof.
  intros H. apply inner_in in H. destruct H as [L I]. apply (cell_ext g); [apply wrap_len|exact L|]. intros d Hd.
  rewrite wrap_nth by exact Hd. pose proof (proj1 (interior_spec g x) I d Hd). rewrite Z.mod_small by lia. lia.
Qed.
Lemma source_ok k x y : (k < n)%nat -> In x (inner_cells g) -> source k x = Some y ->
  In y (inner_cells g) /\ source (symk r k) y = Some x.
Proof.
  intros Hk Hx H. unfold source in H. destruct (between g (before st g k x)) eqn:E; [|discriminate]. injection H as <-.
  split; [apply wrap_inner|]. destruct (sym_facts k Hk) as (_ & _ & V). rewrite between_spec in E.
  assert (B : forall d, (d < dim g)%nat -> (before st g (symk r k) (wrap g (before st g k x)))@d =
    (g_h g)@d + ((x@d - (velk st k)@d) - (g_h g)@d) mod (g_n g)@d + (velk st k)@d).
  { intros d Hd. rewrite before_nth, wrap_nth, before_nth, V, nth_opp by exact Hd. lia. }
  pose proof Hx as Hx'. apply inner_in in Hx'. destruct Hx' as [Lx Hi].
  assert (E2 : between g (before st g (symk r k) (wrap g (before st g k x))) = true).
  { apply between_spec. intros d Hd P. rewrite B by exact Hd. specialize (E d Hd P). rewrite before_nth in E by exact Hd.
    rewrite Z.mod_small by lia. pose proof (proj1 (interior_spec g x) Hi d Hd). lia. }
  unfold source. rewrite E2. f_equal. apply (cell_ext g); [apply wrap_len|exact Lx|]. intros d Hd.
  rewrite wrap_nth, B by exact Hd. pose proof (proj1 (interior_spec g x) Hi d Hd).
  replace ((g_h g)@d + (x@d - (velk st k)@d - (g_h g)@d) mod (g_n g)@d + (velk st k)@d - (g_h g)@d) with
    ((x@d - (velk st k)@d - (g_h g)@d) mod (g_n g)@d + (velk st k)@d) by lia.
  rewrite Z.add_mod_idemp_l by (destruct R as [_ R']; specialize (R' d Hd); lia).
  replace (x@d - (velk st k)@d - (g_h g)@d + (velk st k)@d) with (x@d - (g_h g)@d) by lia.
  rewrite Z.mod_small by lia. lia.
Qed.
Lemma unwritten_between x k : In x (inner_cells g) -> (k < n)%nat -> between g (before st g k x) = true ->
  ~ written (all_links ms) (k, before st g k x).
Proof.
  intros Hx Hk Hb0 Hw. apply inner_in in Hx. destruct Hx as [Lx Hi].
  pose proof S as [Hn Hb Hr Hg HJ HB HF Hval].
  apply written_has in Hw. destruct Hw as (m & b & Hb' & Ekey). unfold key in Ekey.
  apply (boundary_links dimz schemes st Hn Hb g D conds labels ms HB) in Hb'.
  destruct Hb' as (lab & s & vs & i & u & num & w & x0 & Hlab & N1 & N2 & _ & Hs & Hi' & Hw & Ew & Hx0 & Hf & ->).
  cbn [b_k b_cell] in Ekey. injection Ekey as Ek Ec.
  assert (Ev : velk st k = vel_list u) by (rewrite <- Ek; eapply row_velk; eauto).
  assert (x0 = x).
  { apply array_cells_in in Hx0. destruct Hx0 as [L0 _]. apply (cell_ext g); [exact L0|exact Lx|]. intros d Hd.
    pose proof (f_equal (fun c : cell => c@d) Ec) as E. cbv beta in E. rewrite shift_nth, before_nth, Ew, nth_opp, Ev in E by exact Hd. lia. }
  subst x0.
  assert (Hnum : nth_error (g_vel g) num = Some (vel_list w)) by (rewrite Hg; now apply map_nth_error).
  rewrite (proj2 (plain_domain g D HD) num x Hi) in Hf.
  pose proof (init_links_cell g num x _ Hi Hnum) as IL. pose proof (axes_fold g x (vel_list w) Hi (dim g) (le_n _)) as FW.
  unfold DomainModel.axes in IL. rewrite <- IL in FW. clear IL.
  destruct FW as [[_ El]|(d & Hd & Cd & _ & Fl & _ & _ & _)].
  - rewrite El in Hf. apply Hval. now rewrite <- Hf in Hlab.
  - destruct (periodic g d) eqn:P.
    + unfold periodic in P. apply andb_prop in P. destruct P as [P1 P2]. apply Z.eqb_eq in P1, P2.
      apply N1. rewrite <- Hf, Fl. unfold wall_label. destruct (toright _ d); assumption.
    + rewrite between_spec in Hb0. specialize (Hb0 d Hd P). rewrite before_nth in Hb0 by exact Hd. rewrite Ev in Hb0.
      pose proof (proj1 (interior_spec g x) Hi d Hd) as Hc.
      unfold crosses, exits, gap, toright in Cd. rewrite Ew, nth_opp in Cd. 
      destruct (Z.ltb_spec 0 (- (vel_list u)@d)), (Z.ltb_spec (- (vel_list u)@d) 0); cbn in Cd; try discriminate; lia.
Qed.

Section Step.
Variable K : ring.
Add Ring Kring_chan : (rth K).
Variable qk : Q -> K.
Variable feq : blink -> nat -> K.
Hypothesis Hrest : forall b k, (k < n)%nat -> feq b (symk r k) = feq b k.
Variable be : BoundaryModel.backend.

Lemma before_array x k : In x (inner_cells g) -> (k < n)%nat -> In (before st g k x) (array_cells g).
Proof.
  intros Hx Hk. apply inner_in in Hx. destruct Hx as [Lx Hi]. apply array_cells_in. split; [apply shift_len|]. intros d Hd.
  rewrite before_nth by exact Hd. pose proof (proj1 (interior_spec g x) Hi d Hd). destruct (opp_vel k Hk) as (num & H1 & _).
  pose proof (wf_v g W _ d (nth_error_In _ _ H1) Hd) as B. rewrite nth_opp in B. unfold DomainModel.total. lia.
Qed.
(* H: the values after the exchange of the ghost cells *)
Section Wrapped.
Variables (H : dfield K) (F : field K cell).
Hypothesis HF0 : forall k c, In c (array_cells g) -> H k c = F (wrap g c) k.
Lemma chan_transport_of k x : (k < n)%nat -> In x (inner_cells g) ->
  boundary_condition K qk g (velk st) (symk r) feq be ms H k (before st g k x) =
  match source k x with Some y => F y k | None => F x (symk r k) end.
Proof.
  intros Hk Hx. pose proof Hx as Hx'. apply inner_in in Hx'. destruct Hx' as [Lx Hi]. unfold source.
  destruct (between g (before st g k x)) eqn:E.
  - rewrite pass_frame by (now apply unwritten_between). apply HF0. now apply before_array.
  - destruct (chan_written x k Hx Hk E) as (b & Hb & Ek & Ec).
    destruct (C17_after_transport _ _ _ _ _ _ _ _ _ S K qk feq be H MBounceBack b Hb) as (_ & _ & T & _).
    specialize (T eq_refl). unfold btransport in T. rewrite Ek, Ec in T.
    assert (B : shift g (before st g k x) (velk st k) = x) by (unfold before; now apply shift_back).
    rewrite B in T. fold (before st g k x) in T. rewrite T, (Hrest b k Hk).
    rewrite HF0; [|apply filter_In in Hx; apply Hx]. rewrite wrap_id by exact Hx. ring.
Qed.
Lemma chan_sum_of (w : nat -> K) : (forall k, (k < n)%nat -> w (symk r k) = w k) ->
  sumL (inner_cells g) (fun x => sum n (fun k => (w k * boundary_condition K qk g (velk st) (symk r) feq be ms H k (before st g k x))%K)) =
  sumL (inner_cells g) (fun x => sum n (fun k => (w k * F x k)%K)).
Proof.
  intros Hw. apply (reflect_sum cell (inner_cells g) n (symk r) source) with (F := fun k x => F x k)
    (F' := fun k x => boundary_condition K qk g (velk st) (symk r) feq be ms H k (before st g k x)).
  - apply NoDup_filter. apply array_cells_NoDup.
  - intros k Hk. destruct (sym_facts k Hk) as (A & B & _). auto.
  - apply source_ok.
  - exact Hw.
  - intros k x Hk Hx. now apply chan_transport_of.
Qed.
End Wrapped.
Lemma chan_transport (F : field K cell) k x : (k < n)%nat -> In x (inner_cells g) ->
  wall_step K qk g st r feq be ms (exchange1 g) F (before st g k x) k =
  match source k x with Some y => F y k | None => F x (symk r k) end.
Proof.
  intros Hk Hx. unfold wall_step. apply chan_transport_of; try assumption. intros j c Hc. now rewrite exchange1_wrap.
Qed.
Lemma chan_sum (w : nat -> K) (F : field K cell) : (forall k, (k < n)%nat -> w (symk r k) = w k) ->
  sumL (inner_cells g) (fun x => sum n (fun k => (w k * wall_step K qk g st r feq be ms (exchange1 g) F (before st g k x) k)%K)) =
  sumL (inner_cells g) (fun x => sum n (fun k => (w k * F x k)%K)).
Proof.
  intros Hw. unfold wall_step. apply (chan_sum_of (fun k c => exchange1 g F c k) F); [|exact Hw]. intros j c Hc. now rewrite exchange1_wrap.
Qed.
End Step.
End Channel.

(* A step in a box with walls and periodic sides: the distributions that come through
   a wall are the bounced ones, the others come from the fluid, around the box along
   the periodic axes.  F: the values at the start of the step, the ghost cells hold
   anything. *)
Theorem C55_walls_and_periods dimz schemes st r g D conds labels ms :
  channel dimz schemes st r g D conds labels ms ->
  forall (K : ring) (qk : Q -> K) feq be (F : field K cell) k x,
  (forall b k, (k < length (concat schemes))%nat -> feq b (symk r k) = feq b k) ->
  (k < length (concat schemes))%nat -> length x = dim g ->
  (forall d, (d < dim g)%nat -> (g_h g)@d <= x@d < (g_h g)@d + (g_n g)@d) ->
  let v := velk st k in
  let F' := wall_step K qk g st r feq be ms (exchange1 g) F (shift g x (map Z.opp v)) k in
  let behind d := periodic g d = false /\ ~ ((g_h g)@d <= x@d - v@d < (g_h g)@d + (g_n g)@d) in
  ((exists d, (d < dim g)%nat /\ behind d) -> F' = F x (symk r k)) /\
  ((forall d, (d < dim g)%nat -> ~ behind d) ->
   forall y, length y = dim g ->
   (forall d, (d < dim g)%nat -> (g_h g)@d <= y@d < (g_h g)@d + (g_n g)@d /\ ((g_n g)@d | y@d - (x@d - v@d))) -> F' = F y k).
Proof.
  intros C K qk feq be F k x Hr Hk Lx Bx v F' behind.
  assert (Hx : In x (inner_cells g)).
  { apply (inner_in _ _ _ _ _ _ _ _ _ C). split; [exact Lx|]. apply interior_spec. exact Bx. }
  assert (E : F' = match source st g k x with Some y => F y k | None => F x (symk r k) end)
    by exact (chan_transport _ _ _ _ _ _ _ _ _ C K qk feq Hr be F k x Hk Hx).
  unfold source in E. unfold v in *. clearbody F'. split.
  - intros (d & Hd & P & N). destruct (between g (before st g k x)) eqn:B; [|exact E].
    rewrite between_spec in B. specialize (B d Hd P). rewrite before_nth in B by exact Hd. contradiction.
  - intros N y Ly Hy. assert (B : between g (before st g k x) = true).
    { apply between_spec. intros d Hd P. rewrite before_nth by exact Hd. specialize (N d Hd). unfold behind in N. rewrite P in N. lia. }
    rewrite B in E. rewrite E. f_equal. apply (cell_ext g); [apply wrap_len|exact Ly|]. intros d Hd. rewrite wrap_nth, before_nth by exact Hd.
    destruct (Hy d Hd) as [B1 [q Hq]].
    replace (x@d - (velk st k)@d - (g_h g)@d) with (y@d - (g_h g)@d + (- q) * (g_n g)@d) by lia.
    rewrite Z.mod_add by lia. rewrite Z.mod_small by lia. lia.
Qed.
Print Assumptions C55_walls_and_periods.

(* The total of an even conserved moment, for any number of steps. *)
Theorem C55_channel_mass dimz schemes st r g D conds labels ms :
  channel dimz schemes st r g D conds labels ms ->
  forall (K : ring) (a : algo K) (qk : Q -> K) feq be init init_moments params bk (s : sim K cell params) l i,
  al_n a = length (concat schemes) ->
  al_source a = [] -> eq_ok K a -> rel_ok K a -> frame_ok K a -> (i < al_nc a)%nat ->
  (forall k, (k < al_n a)%nat -> al_M a i (symk r k) = al_M a i k) ->
  (forall b k, (k < al_n a)%nat -> feq b (symk r k) = feq b k) ->
  s_need_init K cell params s = false ->
  Forall (fun o => match o with OStep _ _ _ | OReadM _ _ _ | OReadF _ _ _ | OF2m _ _ _ | OParam _ _ _ _ => True | _ => False end) l ->
  let B := wall_step K qk g st r feq be ms (exchange1 g) in
  let s' := exec_ops K cell list_eqb a (before st g) (inner_cells g) B init init_moments params bk l s in
  let total F := sumL (inner_cells g) (fun x => mvmul (al_n a) (al_M a) (F x) i) in
  total (s_F K cell params s') = total (s_F K cell params s).
Proof.
  intros C K a qk feq be init init_moments params bk s l i Hna HS He HR HF Hi Hev Hrest Hn0 Hl B s' total.
  assert (HC : conserving K a).
  { split; [exact HS|]. split; [exact He|]. split; [exact HR|]. destruct (al_relvel a); [exact HF|exact (proj1 (proj1 HF))]. }
  pose proof (source_ok_nil K a HS) as Hso. unfold s'. clear s'. revert s Hn0.
  induction Hl as [|o l Ho Hl IH]; intros s Hn0; [reflexivity|].
  unfold exec_ops. cbn [fold_left].
  change (fold_left _ l ?z) with (exec_ops K cell list_eqb a (before st g) (inner_cells g) B init init_moments params bk l z).
  rewrite IH by (apply need_apply; exact Hn0). clear IH.
  destruct o; try contradiction; try reflexivity.
  - (* a time step *)
    cbn [apply]. set (s1 := one_time_step _ _ _ _ _ _ _ _ _ _ _ s).
    assert (E : forall x, In x (inner_cells g) -> mvmul (al_n a) (al_M a) (s_F K cell params s1 x) i =
      sum (length (concat schemes)) (fun k => (al_M a i k * wall_step K qk g st r feq be ms (exchange1 g) (s_F K cell params s) (before st g k x) k)%K)).
    { intros x Hin.
      pose proof (proj1 (step_spec K cell list_eqb a (before st g) (inner_cells g) B init init_moments params bk list_eqb_spec He Hso HR s x Hn0) Hin) as A.
      fold s1 in A. rewrite (mvmul_ext K _ _ _ _ A), (pull_conserves K a _ i HC Hi). unfold mvmul. rewrite Hna. reflexivity. }
    unfold total. rewrite (sumL_ext K _ _ _ E). rewrite Hna in Hev, Hrest.
    rewrite (chan_sum _ _ _ _ _ _ _ _ _ C K qk feq Hrest be (al_M a i) (s_F K cell params s) Hev).
    unfold mvmul. rewrite Hna. reflexivity.
  - cbn [apply]. unfold refresh. destruct (s_update _ _ _ s); reflexivity.
Qed.
Print Assumptions C55_channel_mass.

(* Boxes with diagonal velocities (a, b) and (-a, -b); labels of the four sides. *)
Definition dgrid (size : Z) (v : list Z) (lab : list Z) : grid :=
  mkGrid [size; size] [2; 2] lab [v; map Z.opp v] [0; 0]%Q 1%Q.
Definition dst (nums : list Z) : stencil := match build_stencil 2 [nums] with Some st => st | None => st0 end.
Definition dD (g : grid) : dom := match domain_init g [] with Some D => D | None => mkDom (fun _ => false) (fun _ _ => link0) end.
Definition dconds (lab : Z) : list (nat * method) := [(0%nat, MBounceBack)].
Definition dms nums g : list (method * list blink) := match boundary (dst nums) g (dD g) dconds [-1; 10] with Some ms => ms | None => [] end.
Definition leak_box nums v lab := pbox 2 [nums] (dst nums) [1; 0] (dgrid 4 v lab) (dD (dgrid 4 v lab)) dconds [-1; 10] (dms nums (dgrid 4 v lab)).
Lemma dgrid_wf v lab : Z.abs v@0 <= 2 -> Z.abs v@1 <= 2 -> wf_grid (dgrid 4 v lab).
Proof.
  intros H0 H1. split; [reflexivity|]. split.
  - intros d Hd. cbn in Hd. destruct d as [|[|d]]; cbn; lia.
  - intros u d Hv Hd. cbn in Hv, Hd. destruct Hv as [<-|[<-|[]]]; rewrite ?nth_opp; (destruct d as [|[|d]]; [| |lia]); cbn [dgrid g_h nth]; lia.
Qed.
Lemma dbox nums v lab : In (nums, v) [([5; 7], [1; 1]); ([18; 22], [1; 2])] -> In lab [[10; 10; -1; -1]; [-1; -1; 10; 10]] -> leak_box nums v lab.
Proof.
  intros Hn Hl. assert (Wf : wf_grid (dgrid 4 v lab)).
  { apply dgrid_wf; destruct Hn as [E|[E|[]]]; injection E as <- <-; cbn; lia. }
  split.
  - split.
    + intros s x [<-|[]] Hx. destruct Hn as [E|[E|[]]]; injection E as <- <-; cbn in Hx; lia.
    + destruct Hn as [E|[E|[]]]; injection E as <- <-; reflexivity.
    + destruct Hn as [E|[E|[]]]; injection E as <- <-; reflexivity.
    + destruct Hn as [E|[E|[]]]; injection E as <- <-; reflexivity.
    + apply (joins_ok _ [] _ Wf); [intros e []|]. destruct Hl as [<-|[<-|[]]], Hn as [E|[E|[]]]; injection E as <- <-; reflexivity.
    + destruct Hl as [<-|[<-|[]]], Hn as [E|[E|[]]]; injection E as <- <-; vm_compute; reflexivity.
    + intros l s m1 m2 [E1|[]] [E2|[]]. congruence.
    + intros [C|[C|[]]]; discriminate.
  - constructor; [|constructor]. destruct Hn as [E|[E|[]]]; injection E as <- <-; repeat constructor; cbn; intuition discriminate.
  - exact Wf.
  - split; [cbn; lia|]. intros d Hd. cbn in Hd. destruct d as [|[|d]]; cbn; lia.
  - destruct Hl as [<-|[<-|[]]], Hn as [E|[E|[]]]; injection E as <- <-; reflexivity.
  - assert (Wl : wall dconds [-1; 10] 1 10).
    { split; [now right; left|]. split; [discriminate|]. split; [discriminate|]. intros s Hs. assert (s = 0%nat) as -> by lia. now left. }
    intros d Hd. cbn in Hd. destruct Hl as [<-|[<-|[]]]; (destruct d as [|[|d]]; [| |lia]); intros P; try discriminate; split; exact Wl.
Qed.
Definition dF : field ZR cell := fun x k => 100 * x@0 + 10 * x@1 + Z.of_nat k.
Definition dstep nums g := wall_step ZR (fun _ => 0) g (dst nums) [1; 0] (fun _ _ => 0) Cython (dms nums g) (exchange1 g) dF.
(* Walls at the ends of the first axis, the second axis is periodic: the corner
   reflects, the cell beside takes its value around the box. *)
Example C55_example :
  let g := dgrid 4 [1; 1] [10; 10; -1; -1] in
  channel 2 [[5; 7]] (dst [5; 7]) [1; 0] g (dD g) dconds [-1; 10] (dms [5; 7] g) /\
  dstep [5; 7] g (shift g [2; 2] [-1; -1]) 0%nat = dF [2; 2] 1%nat /\
  dstep [5; 7] g (shift g [3; 2] [-1; -1]) 0%nat = dF [2; 5] 0%nat /\
  dstep [5; 7] g (shift g [3; 3] [-1; -1]) 0%nat = dF [2; 2] 0%nat.
Proof.
  cbv zeta. split; [|repeat split; vm_compute; reflexivity]. split.
  - apply dbox; [now left|now left].
  - intros v d [<-|[<-|[]]] Hd; cbn in Hd; (destruct d as [|[|d]]; [| |lia]); cbn; lia.
  - intros d d' Hd Hd' P P'. cbn in Hd, Hd'. destruct d as [|[|d]]; [| |lia]; (destruct d' as [|[|d']]; [| |lia]); try lia; discriminate.
Qed.
(* With the periodic axis first, what leaves through the wall of a corner enters at
   the wall of the opposite corner: the wall leaks. *)
Theorem C55_periodic_first_refuted : exists dimz schemes st r g D conds labels ms (F : field ZR cell) k x y,
  pbox dimz schemes st r g D conds labels ms /\ slow g /\ interior g x = true /\ interior g y = true /\
  (k < length (concat schemes))%nat /\
  (* the wall of the second axis is between x and the cell it takes the value from *)
  periodic g 1 = false /\ x@1 - (velk st k)@1 < (g_h g)@1 /\ y@1 = (g_h g)@1 + (g_n g)@1 - 1 /\
  wall_step ZR (fun _ => 0) g st r (fun _ _ => 0) Cython ms (exchange1 g) F (shift g x (map Z.opp (velk st k))) k = F y k /\
  F y k <> F x (symk r k).
Proof.
  exists 2, [[5; 7]], (dst [5; 7]), [1; 0], (dgrid 4 [1; 1] [-1; -1; 10; 10]), (dD (dgrid 4 [1; 1] [-1; -1; 10; 10])), dconds, [-1; 10],
    (dms [5; 7] (dgrid 4 [1; 1] [-1; -1; 10; 10])), dF, 0%nat, [2; 2], [5; 5].
  split; [apply dbox; [now left|right; now left]|]. split; [intros v d [<-|[<-|[]]] Hd; cbn in Hd; (destruct d as [|[|d]]; [| |lia]); cbn; lia|].
  repeat (split; [vm_compute; first [reflexivity|lia]|]). vm_compute. discriminate.
Qed.
Print Assumptions C55_periodic_first_refuted.
(* A velocity which meets the periodic side before the wall leaks for any order of the axes. *)
Theorem C55_long_velocity_refuted : exists dimz schemes st r g D conds labels ms (F : field ZR cell) k x y,
  pbox dimz schemes st r g D conds labels ms /\ walls_first g /\ interior g x = true /\ interior g y = true /\
  (k < length (concat schemes))%nat /\
  periodic g 0 = false /\ x@0 - (velk st k)@0 < (g_h g)@0 /\ y@0 = (g_h g)@0 + (g_n g)@0 - 1 /\
  wall_step ZR (fun _ => 0) g st r (fun _ _ => 0) Cython ms (exchange1 g) F (shift g x (map Z.opp (velk st k))) k = F y k /\
  F y k <> F x (symk r k).
Proof.
  exists 2, [[18; 22]], (dst [18; 22]), [1; 0], (dgrid 4 [1; 2] [10; 10; -1; -1]), (dD (dgrid 4 [1; 2] [10; 10; -1; -1])), dconds, [-1; 10],
    (dms [18; 22] (dgrid 4 [1; 2] [10; 10; -1; -1])), dF, 0%nat, [2; 2], [5; 4].
  split; [apply dbox; [right; now left|now left]|].
  split; [intros d d' Hd Hd' P P'; cbn in Hd, Hd'; destruct d as [|[|d]]; [| |lia]; (destruct d' as [|[|d']]; [| |lia]); try lia; discriminate|].
  repeat (split; [vm_compute; first [reflexivity|lia]|]). vm_compute. discriminate.
Qed.
Print Assumptions C55_long_velocity_refuted.
