(* Properties C16-C20: boundary conditions. *)
From Verif Require Import PyBase VelocityModel VelocityProofs PermuteProofs Velocity3Proofs StencilModel StencilProofs
  GridModel LinAlg GlobalModel GlobalProofs DomainModel DomainProofs DomainProps BoundaryModel BoundaryProofs.
From Coq Require Import QArith Lqa Sorting.Permutation.
Open Scope Z_scope.

(* Velocity of the row k of the distributions, and row of the opposite velocity. *)
Definition velk (st : stencil) (k : nat) : list Z := nth k (get_all_velocities st) [].
Definition symk (r : list Z) (k : nat) : nat := Z.to_nat (nth k r 0).

Lemma row_velk st s vs i v : nth_error (sv st) s = Some vs -> nth_error vs i = Some v -> velk st (row st s i) = vel_list v.
Proof.
  intros Hs Hi. unfold velk, get_all_velocities. apply nth_error_nth. apply map_nth_error. unfold row. eapply concat_nth_inv; eauto.
Qed.
Lemma row_inj st s vs i s' vs' i' : nth_error (sv st) s = Some vs -> (i < length vs)%nat ->
  nth_error (sv st) s' = Some vs' -> (i' < length vs')%nat -> row st s i = row st s' i' -> s = s' /\ i = i'.
Proof.
  unfold row. generalize (sv st). intros ls. revert s s'. induction ls as [|l ls IH]; intros s s' Hs Hi Hs' Hi' E.
  - destruct s; discriminate.
  - destruct s as [|s], s' as [|s']; cbn in *.
    + split; [reflexivity|lia].
    + injection Hs as ->. rewrite app_length in E. lia.
    + injection Hs' as ->. rewrite app_length in E. lia.
    + rewrite !app_length in E. destruct (IH s s' Hs Hi Hs' Hi') as [-> ->]; [lia|auto].
Qed.
Lemma opp_inj (l l' : list Z) : map Z.opp l = map Z.opp l' -> l = l'.
Proof.
  revert l'. induction l as [|x l IH]; intros [|y l'] H; try discriminate; [reflexivity|].
  cbn in H. injection H as H1 H2. f_equal; [lia|auto].
Qed.
Lemma opp_opp l : map Z.opp (map Z.opp l) = l.
Proof. rewrite map_map. rewrite <- (map_id l) at 2. apply map_ext. intros; lia. Qed.

(* --------------------------------------------------------------- C16 ----- *)
(* The links of the condition m: for a label of the domain (periodic -1 and
   interface -2 excepted) and a scheme s for which the user chose m, the velocity
   number i of the scheme, whose opposite is the velocity num of the domain, and a
   cell x of the arrays flagged with the label for the velocity num.  The written
   distribution is the one of velocity i at the cell reached from x with the
   opposite velocity. *)
Theorem C16_points dimz schemes st g D conds labels ms :
  nonneg schemes -> build_stencil dimz schemes = Some st ->
  boundary st g D conds labels = Some ms ->
  NoDup (map fst ms) /\
  forall m b, (exists L, In (m, L) ms /\ In b L) <->
    exists lab s vs i v num w x,
      In lab labels /\ lab <> -1 /\ lab <> -2 /\ In (s, m) (conds lab) /\
      nth_error (sv st) s = Some vs /\ nth_error vs i = Some v /\
      nth_error (sunique st) num = Some w /\ vel_list w = map Z.opp (vel_list v) /\
      (length x = dim g /\ forall d, (d < dim g)%nat -> 0 <= x@d < DomainModel.total g d) /\
      l_flag (d_link D num x) = lab /\
      b = mkB (length (concat (firstn s (sv st))) + i) (shift g x (vel_list w)) lab
              (l_dist (d_link D num x)) (l_norm (d_link D num x)).
Proof.
  intros Hn Hb HB. split.
  - unfold boundary in HB. destruct (mapM _ labels); [|discriminate]. injection HB as <-. apply group_keys.
  - intros m b. change (exists L, In (m, L) ms /\ In b L) with (has ms m b).
    rewrite (boundary_links dimz schemes st Hn Hb g D conds labels ms HB m b).
    unfold link_of. split; intros (lab & s & vs & i & v & num & w & x & H); exists lab, s, vs, i, v, num, w, x;
      rewrite array_cells_in in *; exact H.
Qed.
(* A distribution value is written by one link only. *)
Theorem C16_one_link dimz schemes st g D conds labels ms :
  nonneg schemes -> build_stencil dimz schemes = Some st ->
  boundary st g D conds labels = Some ms ->
  (forall lab s m m', In (s, m) (conds lab) -> In (s, m') (conds lab) -> m = m') ->
  forall m b m' b', has ms m b -> has ms m' b' -> b_k b = b_k b' -> b_cell b = b_cell b' -> m = m' /\ b = b'.
Proof.
  intros Hn Hb HB HF m b m' b' H H' Ek Ec.
  apply (boundary_links dimz schemes st Hn Hb g D conds labels ms HB) in H.
  apply (boundary_links dimz schemes st Hn Hb g D conds labels ms HB) in H'.
  destruct H as (lab & s & vs & i & v & num & w & x & L1 & L2 & L3 & L4 & Hs & Hi & Hw & Ew & Hx & Hf & ->).
  destruct H' as (lab' & s' & vs' & i' & v' & num' & w' & x' & L1' & L2' & L3' & L4' & Hs' & Hi' & Hw' & Ew' & Hx' & Hf' & ->).
  cbn [b_k b_cell] in *.
  destruct (row_inj st s vs i s' vs' i') as [<- <-]; auto; try (apply nth_error_Some; congruence).
  assert (vs' = vs) by congruence. subst vs'. assert (v' = v) by congruence. subst v'.
  assert (w' = w).
  { destruct (unique_index dimz schemes st Hn Hb _ _ Hw) as (A1 & _). destruct (unique_index dimz schemes st Hn Hb _ _ Hw') as (B1 & _).
    apply wf_coords_inj; auto. change (vel_list w' = vel_list w). congruence. }
  subst w'. assert (num' = num) by (eapply (unique_pos dimz schemes st Hn Hb); eauto). subst num'.
  assert (x' = x).
  { apply array_cells_in in Hx. apply array_cells_in in Hx'. destruct Hx as [Lx _]. destruct Hx' as [Lx' _].
    rewrite <- (shift_back' g x (vel_list w) Lx), <- (shift_back' g x' (vel_list w) Lx'). now rewrite Ec. }
  subst x'. rewrite Hf in Hf'. subst lab'. split; [eapply HF; eauto|reflexivity].
Qed.
(* The construction succeeds if the stencil contains the opposite velocities. *)
Theorem C16_exists dimz schemes st g D conds labels :
  nonneg schemes -> build_stencil dimz schemes = Some st ->
  (forall v, In v (sunique st) -> exists w, In w (sunique st) /\ vel_list w = map Z.opp (vel_list v)) ->
  (forall lab s m, In lab labels -> In (s, m) (conds lab) -> (s < length schemes)%nat) ->
  exists ms, boundary st g D conds labels = Some ms.
Proof.
  intros Hn Hb Hsym Hc. pose proof (build_facts dimz schemes st Hn Hb) as BF.
  assert (MT : forall A B (f : A -> option B) l, (forall x, In x l -> exists y, f x = Some y) -> exists r, mapM f l = Some r).
  { intros A B f. induction l as [|x l IH]; intros H; [eexists; reflexivity|].
    destruct (H x (or_introl eq_refl)) as [y Ey]. destruct IH as [r Er]; [intros z Hz; apply H; now right|].
    cbn [mapM]. rewrite Ey, Er. eauto. }
  assert (T : forall lab, exists tab, bv_table st g D lab = Some tab /\ length tab = length (sunique st)).
  { intros lab. destruct (MT _ _ (bvel st g D lab) (seq 0 (length (sunique st)))) as [tab Et].
    - intros ks Hks. apply in_seq in Hks. unfold bvel.
      destruct (nth_error (sunique st) ks) as [w|] eqn:Ew; [|apply nth_error_None in Ew; lia].
      destruct (unique_index dimz schemes st Hn Hb _ _ Ew) as (Wf & Wd & _).
      destruct (Hsym w) as (u & Hu & Eu); [eapply nth_error_In; eauto|].
      destruct C04_lemma as (_ & _ & _ & L4). destruct (L4 w None Wf) as (v & E & Wv & Dv & Cv & _); [intros (a & C & _); discriminate|].
      apply In_nth_error in Hu. destruct Hu as [j Hj]. destruct (unique_index dimz schemes st Hn Hb _ _ Hj) as (Wu & _ & _ & Ej).
      assert (v = u) by (apply wf_coords_inj; auto; rewrite Cv, sym_coords_opp; symmetry; exact Eu). subst v.
      rewrite E, Ej. assert (Z.of_nat j <? 0 = false) as -> by lia. eauto.
    - exists tab. split; [exact Et|]. apply mapM_spec in Et. apply Forall2_length in Et. rewrite <- Et. apply seq_length. }
  unfold boundary. destruct (MT _ _ (label_links st g D conds) labels) as [ls ->]; [|cbn; eauto].
  intros lab Hlab. unfold label_links. destruct (_ || _); [eauto|]. destruct (T lab) as (tab & -> & Ltab).
  destruct (MT _ _ (scheme_links st tab lab) (conds lab)) as [l2 ->]; [|cbn; eauto].
  intros [s m] Hsm. unfold scheme_links. cbn [fst snd]. specialize (Hc lab s m Hlab Hsm).
  assert (Ls : length (sv st) = length schemes) by (rewrite <- (b_v _ _ _ BF), map_length; reflexivity).
  destruct (nth_error (sv st) s) as [vs|] eqn:Es; [|apply nth_error_None in Es; lia].
  destruct (MT _ _ (velocity_links st tab lab s) (numbered vs)) as [l3 ->]; [|cbn; eauto].
  intros [i v] Hiv. apply numbered_in in Hiv. unfold velocity_links. cbn [fst snd].
  assert (Hu : In v (sunique st)) by (eapply (b_vin _ _ _ BF); eapply nth_error_In; eauto).
  apply In_nth_error in Hu. destruct Hu as [j Hj]. destruct (unique_index dimz schemes st Hn Hb _ _ Hj) as (_ & _ & _ & ->).
  rewrite (b_ptr _ _ _ BF), nv_ptr_nth by lia. rewrite Nat2Z.id.
  destruct (nth_error tab j) as [l4|] eqn:E4; [eauto|]. apply nth_error_None in E4.
  assert (j < length (sunique st))%nat by (apply nth_error_Some; congruence). lia.
Qed.
(* The cell x from which the link was made is one velocity ahead, and the user's
   function is called with the point at the stored distance from x in the
   direction opposite to the written velocity. *)
Theorem C16_coordinate dimz schemes st g D conds labels ms :
  nonneg schemes -> build_stencil dimz schemes = Some st ->
  boundary st g D conds labels = Some ms ->
  forall m b, has ms m b ->
  let x := shift g (b_cell b) (velk st (b_k b)) in
  forall d, (d < dim g)%nat ->
    (bcoord st g b d == (point g x)@@d - b_dist b * (inject_Z (velk st (b_k b))@d * g_dx g))%Q.
Proof.
  intros Hn Hb HB m b H x d Hd. apply (boundary_links dimz schemes st Hn Hb g D conds labels ms HB) in H.
  destruct H as (lab & s & vs & i & v & num & w & y & L1 & L2 & L3 & L4 & Hs & Hi & Hw & Ew & Hy & Hf & ->).
  unfold bcoord. subst x. cbn [b_k b_cell b_dist]. fold (velk st (row st s i)).
  rewrite (row_velk st s vs i v Hs Hi). rewrite !point_nth, !shift_nth by exact Hd. rewrite !inject_Z_plus. ring.
Qed.
Lemma joins_ok g es D : wf_grid g -> (forall e, In e es -> bounds_ok g e /\ distance_ok g e) ->
  domain_init g es = Some D -> joins g D.
Proof.
  intros W HE HD k v x Hk Hx Hf. apply array_cells_in in Hx. destruct Hx as [_ Hx].
  assert (Hioo : d_ioo D x = true).
  { apply Bool.not_false_is_true. intros C. apply Hf. now apply (C15_no_link_outside g es D HD x C k). }
  split; [exact Hioo|].
  destruct (vzero g v) eqn:Hz; [exfalso; apply Hf; eapply zero_vel; eauto|].
  assert (HE1 : forall e, In e es -> bounds_ok g e) by (intros e He; now apply HE).
  assert (Hi : interior g x = true).
  { destruct (C15_last_element_decides g es D x W HE1 HD) as [[_ C]|[C _]]; [intros d Hd; apply Hx; exact Hd|congruence|exact C]. }
  destruct (interior g (shift g x v)) eqn:Hs.
  - pose proof (C15_links g es D W HE HD k v x Hk Hz Hi Hioo (or_introl Hs)) as C.
    destruct (d_ioo D (shift g x v)); [now destruct C|reflexivity].
  - destruct (C15_last_element_decides g es D (shift g x v) W HE1 HD) as [[_ C]|[C _]]; [|exact C|congruence].
    intros d Hd. rewrite shift_nth by exact Hd. pose proof (proj1 (interior_spec g x) Hi d Hd).
    pose proof (wf_v g W v d (nth_error_In _ _ Hk) Hd). lia.
Qed.
(* The links join a fluid cell to a cell which is not fluid (a user's label 999
   would select the cells without link). *)
Theorem C16_ends dimz schemes st g es D conds labels ms :
  nonneg schemes -> build_stencil dimz schemes = Some st ->
  g_vel g = map vel_list (sunique st) -> wf_grid g ->
  (forall e, In e es -> bounds_ok g e /\ distance_ok g e) -> domain_init g es = Some D ->
  boundary st g D conds labels = Some ms -> ~ In valin labels ->
  forall m b, has ms m b ->
    d_ioo D (b_cell b) = false /\ d_ioo D (shift g (b_cell b) (velk st (b_k b))) = true /\
    interior g (shift g (b_cell b) (velk st (b_k b))) = true /\
    forall d, (d < dim g)%nat -> 0 <= (b_cell b)@d < DomainModel.total g d.
Proof.
  intros Hn Hb Hg W HE HD HB Hval m b H. apply (boundary_links dimz schemes st Hn Hb g D conds labels ms HB) in H.
  destruct H as (lab & s & vs & i & v & num & w & x & L1 & L2 & L3 & L4 & Hs & Hi & Hw & Ew & Hx & Hf & ->).
  cbn [b_k b_cell]. rewrite (row_velk st s vs i v Hs Hi).
  assert (Hk : nth_error (g_vel g) num = Some (vel_list w)) by (rewrite Hg; now apply map_nth_error).
  assert (Hfl : l_flag (d_link D num x) <> valin) by (intros C; apply Hval; congruence).
  destruct (joins_ok g es D W HE HD num (vel_list w) x Hk Hx Hfl) as [J1 J2].
  apply array_cells_in in Hx. destruct Hx as [Lx Hx]. rewrite Ew in *. rewrite shift_back by exact Lx.
  assert (Hin : interior g x = true).
  { destruct (C15_last_element_decides g es D x W) as [[_ C]|[C _]]; auto; [intros e He; now apply HE|intros d Hd; apply Hx; exact Hd|congruence]. }
  split; [exact J2|]. split; [exact J1|]. split; [exact Hin|]. intros d Hd. rewrite shift_nth by exact Hd.
  pose proof (proj1 (interior_spec g x) Hin d Hd). pose proof (wf_v g W _ d (nth_error_In _ _ Hk) Hd).
  pose proof (wf_h g W d Hd). unfold DomainModel.total. lia.
Qed.
(* In a domain without element the coordinates are those of a point of the wall
   which has the label. *)
Theorem C16_on_the_wall dimz schemes st g D conds labels ms :
  nonneg schemes -> build_stencil dimz schemes = Some st ->
  g_vel g = map vel_list (sunique st) -> wf_grid g -> domain_init g [] = Some D ->
  boundary st g D conds labels = Some ms -> ~ In valin labels ->
  forall m b, has ms m b ->
  let left d := ((g_x0 g)@@d + (inject_Z (g_h g)@d - (1 # 2)) * g_dx g)%Q in
  let right d := (left d + inject_Z (g_n g)@d * g_dx g)%Q in
  (exists d, (d < dim g)%nat /\
     ((bcoord st g b d == left d)%Q /\ b_lab b = (g_lab g)@(2 * d) \/
      (bcoord st g b d == right d)%Q /\ b_lab b = (g_lab g)@(2 * d + 1))) /\
  (forall d, (d < dim g)%nat -> ((g_lab g)@(2 * d) <> -2 -> (left d <= bcoord st g b d)%Q) /\
     ((g_lab g)@(2 * d + 1) <> -2 -> (bcoord st g b d <= right d)%Q)).
Proof.
  intros Hn Hb Hg W HD HB Hval m b H left right.
  pose proof (C16_ends dimz schemes st g [] D conds labels ms Hn Hb Hg W ltac:(intros e []) HD HB Hval m b H) as (_ & _ & Hin & _).
  pose proof (C16_coordinate dimz schemes st g D conds labels ms Hn Hb HB m b H) as HC.
  apply (boundary_links dimz schemes st Hn Hb g D conds labels ms HB) in H.
  destruct H as (lab & s & vs & i & v & num & w & x & L1 & L2 & L3 & L4 & Hs & Hi & Hw & Ew & Hx & Hf & ->).
  cbn [b_k b_cell b_lab b_dist] in *. rewrite (row_velk st s vs i v Hs Hi) in *.
  assert (Hk : nth_error (g_vel g) num = Some (vel_list w)) by (rewrite Hg; now apply map_nth_error).
  assert (Lx : length x = dim g) by (now apply array_cells_in in Hx).
  rewrite Ew in *. rewrite shift_back in Hin, HC by exact Lx.
  set (b := mkB _ _ _ _ _) in *.
  pose proof (C14_distance g D num (map Z.opp (vel_list v)) x HD Hk Hin) as C. cbv zeta in C.
  destruct C as [(_ & _ & C & _)|(_ & Hd01 & Hbox & d & Hd & Hw2 & _)]; [exfalso; apply Hval; congruence|].
  set (t := l_dist (d_link D num x)) in *.
  assert (P : forall d, (d < dim g)%nat -> (bcoord st g b d == left d + pos g x (map Z.opp (vel_list v)) t d * g_dx g)%Q).
  { intros d' Hd'. rewrite (HC d' Hd'). rewrite point_nth by exact Hd'. unfold left, pos. rewrite nth_opp.
    unfold Z.sub. rewrite inject_Z_plus, !inject_Z_opp. ring. }
  pose proof (wf_dx g W) as Hdx.
  split.
  - exists d. split; [exact Hd|]. rewrite (P d Hd). destruct Hw2 as [(_ & _ & E & El & _)|(_ & _ & E & El & _)].
    + left. rewrite E. split; [ring|congruence].
    + right. rewrite E. unfold right. split; [ring|congruence].
  - assert (B : in_box g (pos g x (map Z.opp (vel_list v)) t)).
    { apply Hbox; [lra|]. apply Qle_refl. }
    intros d' Hd'. destruct (B d' Hd') as [B1 B2]. rewrite (P d' Hd'). split; intros Hl.
    + specialize (B1 Hl). assert (0 <= pos g x (map Z.opp (vel_list v)) t d' * g_dx g)%Q; [|lra]. apply Qmult_le_0_compat; lra.
    + specialize (B2 Hl). unfold right. apply Qplus_le_r. apply Qmult_le_compat_r; lra.
Qed.
Print Assumptions C16_points.
Print Assumptions C16_one_link.
Print Assumptions C16_exists.
Print Assumptions C16_coordinate.
Print Assumptions C16_ends.
Print Assumptions C16_on_the_wall.
