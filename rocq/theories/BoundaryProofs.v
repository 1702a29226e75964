(* Lemmas about the boundary model. *)
From Verif Require Import PyBase VelocityModel VelocityProofs PermuteProofs Velocity3Proofs StencilModel StencilProofs
  GridModel LinAlg GlobalModel GlobalProofs DomainModel DomainProofs BoundaryModel.
From Coq Require Import QArith Lqa Sorting.Permutation.
Open Scope Z_scope.

Lemma sym_coords_opp l : sym_coords None l = map Z.opp l.
Proof.
  unfold sym_coords. cbn [sym_coord].
  assert (H : forall s, map (fun p : nat * Z => - snd p) (combine (seq s (length l)) l) = map Z.opp l); [|apply H].
  induction l as [|x l IH]; intros s; cbn; [reflexivity|]. now rewrite IH.
Qed.
Lemma nth_opp v d : (map Z.opp v)@d = - v@d.
Proof. change 0 with (Z.opp 0) at 1. apply map_nth. Qed.
Lemma shift_len g x v : length (shift g x v) = dim g.
Proof. unfold shift, axes. now rewrite map_length, seq_length. Qed.
Lemma cell_ext g (x y : cell) : length x = dim g -> length y = dim g ->
  (forall d, (d < dim g)%nat -> x@d = y@d) -> x = y.
Proof. intros Hx Hy H. apply (nth_ext x y 0 0); [congruence|]. intros d Hd. apply H. lia. Qed.
Lemma shift_back g x v : length x = dim g -> shift g (shift g x (map Z.opp v)) v = x.
Proof.
  intros H. apply (cell_ext g); auto using shift_len. intros d Hd. rewrite !shift_nth, nth_opp by assumption. lia.
Qed.
Lemma shift_back' g x v : length x = dim g -> shift g (shift g x v) (map Z.opp v) = x.
Proof.
  intros H. apply (cell_ext g); auto using shift_len. intros d Hd. rewrite !shift_nth, nth_opp by assumption. lia.
Qed.
Lemma array_cells_in g x : In x (array_cells g) <->
  length x = dim g /\ forall d, (d < dim g)%nat -> 0 <= x@d < total g d.
Proof.
  unfold array_cells. rewrite nested_in. split.
  - intros H. assert (L : length x = dim g).
    { apply Forall2_length in H. rewrite H, map_length. unfold axes. apply seq_length. }
    split; [exact L|]. intros d Hd. revert H. unfold axes. 
    assert (G : forall s (x : list Z) n, Forall2 (fun y r => In y r) x (map (fun d => zrange 0 (total g d)) (seq s n)) ->
      forall d, (d < n)%nat -> 0 <= x@d < total g (s + d)).
    { clear. intros s x n. revert s x. induction n as [|n IH]; intros s x H d Hd; [lia|].
      inversion H as [|y r x' rs Hy Hr E1 E2]; subst. destruct d as [|d]; cbn [nth].
      - apply zrange_in in Hy. now rewrite Nat.add_0_r.
      - rewrite <- Nat.add_succ_comm. apply IH; [exact Hr|lia]. }
    intros H. exact (G 0%nat x (dim g) H d Hd).
  - intros [L H]. revert L H. unfold axes. 
    assert (G : forall n s (x : list Z), length x = n -> (forall d, (d < n)%nat -> 0 <= x@d < total g (s + d)) ->
      Forall2 (fun y r => In y r) x (map (fun d => zrange 0 (total g d)) (seq s n))).
    { clear. induction n as [|n IH]; intros s x L H; destruct x as [|y x]; try discriminate; [constructor|].
      cbn. constructor.
      - apply zrange_in. specialize (H 0%nat ltac:(lia)). now rewrite Nat.add_0_r in H.
      - apply IH; [now injection L|]. intros d Hd. specialize (H (S d) ltac:(lia)). now rewrite <- Nat.add_succ_comm in H. }
    intros L H. now apply G.
Qed.

Lemma mapM_in {A B} (f : A -> option B) l r : mapM f l = Some r ->
  forall y, In y r <-> exists x, In x l /\ f x = Some y.
Proof.
  intros H. apply mapM_spec in H. induction H as [|x y l r Hxy H IH]; intros z; cbn.
  - split; [intros []|intros (x & [] & _)].
  - rewrite IH. split.
    + intros [<-|(x' & Hx' & E)]; eauto.
    + intros (x' & [<-|Hx'] & E); [left; congruence|right; eauto].
Qed.
Lemma mapM_nth {A B} (f : A -> option B) l r : mapM f l = Some r ->
  forall i x, nth_error l i = Some x -> exists y, nth_error r i = Some y /\ f x = Some y.
Proof.
  intros H. apply mapM_spec in H. induction H as [|x y l r Hxy H IH]; intros i z Hi; [destruct i; discriminate|].
  destruct i as [|i]; cbn in *; [injection Hi as <-; eauto|]. now apply IH.
Qed.
Lemma numbered_in {A} (l : list A) i a : In (i, a) (numbered l) <-> nth_error l i = Some a.
Proof.
  unfold numbered. assert (G : forall l s i, In (i, a) (combine (seq s (length l)) l) <-> (s <= i)%nat /\ nth_error l (i - s) = Some a).
  { clear. induction l as [|x l IH]; intros s i; cbn.
    - split; [intros []|]. destruct (i - s)%nat; intros [_ H]; discriminate.
    - rewrite IH. split.
      + intros [E|[H1 H2]].
        * injection E as <- <-. rewrite Nat.sub_diag. auto.
        * split; [lia|]. replace (i - s)%nat with (S (i - S s)) by lia. exact H2.
      + intros [H1 H2]. destruct (Nat.eq_dec s i) as [->|Hne].
        * rewrite Nat.sub_diag in H2. cbn in H2. left. congruence.
        * right. split; [lia|]. replace (i - s)%nat with (S (i - S s)) in H2 by lia. exact H2. }
  rewrite G, Nat.sub_0_r. split; [tauto|]. intros; split; [lia|assumption].
Qed.

Lemma method_eqb_spec a b : method_eqb a b = true <-> a = b.
Proof. destruct a, b; cbn; split; congruence. Qed.

Definition has (ms : list (method * list blink)) (m : method) (b : blink) : Prop := exists L, In (m, L) ms /\ In b L.
Lemma append_has m l acc m' b : has (append_to m l acc) m' b <-> has acc m' b \/ (m' = m /\ In b l).
Proof.
  induction acc as [|[m1 l1] acc IH]; cbn [append_to].
  - unfold has. split.
    + intros (L & [E|[]] & Hb). injection E as <- <-. auto.
    + intros [(L & [] & _)|[-> Hb]]. exists l. split; [now left|exact Hb].
  - destruct (method_eqb m1 m) eqn:E.
    + apply method_eqb_spec in E. subst m1. unfold has. split.
      * intros (L & [H|H] & Hb); [injection H as <- <-; apply in_app_or in Hb; destruct Hb as [Hb|Hb]|].
        { left. exists l1. split; [now left|exact Hb]. }
        { auto. }
        { left. exists L. split; [now right|exact Hb]. }
      * intros [(L & [H|H] & Hb)|[-> Hb]].
        { injection H as <- <-. exists (l1 ++ l). split; [now left|]. apply in_or_app. now left. }
        { exists L. split; [now right|exact Hb]. }
        { exists (l1 ++ l). split; [now left|]. apply in_or_app. now right. }
    + transitivity ((m' = m1 /\ In b l1) \/ has (append_to m l acc) m' b).
      { unfold has. split.
        - intros (L & [H|H] & Hb); [injection H as <- <-; auto|right; eauto].
        - intros [[-> Hb]|(L & H & Hb)]; [exists l1|exists L]; split; auto; [now left|now right]. }
      rewrite IH. unfold has. split.
      * intros [[-> Hb]|[(L & H & Hb)|H]]; [left; exists l1; split; auto; now left|left; exists L; split; auto; now right|now right].
      * intros [(L & [H|H] & Hb)|H]; [injection H as <- <-; auto|right; left; eauto|auto].
Qed.
Lemma group_has ls m b : has (group ls) m b <-> has ls m b.
Proof.
  unfold group. assert (G : forall acc, has (fold_left (fun acc ml => match snd ml with [] => acc | _ => append_to (fst ml) (snd ml) acc end) ls acc) m b
    <-> has acc m b \/ has ls m b).
  { induction ls as [|[m1 l1] ls IH]; intros acc; cbn [fold_left fst snd].
    - split; [auto|]. intros [H|(L & [] & _)]; exact H.
    - rewrite IH. assert (E : has (match l1 with [] => acc | _ :: _ => append_to m1 l1 acc end) m b <-> has acc m b \/ (m = m1 /\ In b l1)).
      { destruct l1; [cbn; intuition|apply append_has]. }
      rewrite E. unfold has at 4. split.
      + intros [[H|[-> H]]|(L & H1 & H2)]; [auto|right; exists l1; split; [now left|exact H]|right; exists L; split; [now right|exact H2]].
      + intros [H|(L & [H1|H1] & H2)]; [auto|injection H1 as <- <-; auto|right; exists L; auto]. }
  rewrite G. split; [|auto]. intros [(L & [] & _)|H]; exact H.
Qed.
Lemma append_keys m l acc : NoDup (map fst acc) -> NoDup (map fst (append_to m l acc)) /\
  (forall x, In x (map fst (append_to m l acc)) <-> x = m \/ In x (map fst acc)).
Proof.
  induction acc as [|[m1 l1] acc IH]; intros H; cbn [append_to].
  - split; [constructor; [intros []|constructor]|]. intros x. cbn. intuition.
  - cbn in H. inversion H as [|? ? H1 H2]; subst. destruct (method_eqb m1 m) eqn:E.
    + apply method_eqb_spec in E. subst m1. split; [exact H|]. intros x. cbn. intuition.
    + destruct (IH H2) as [I1 I2]. assert (m1 <> m) by (intros ->; rewrite (proj2 (method_eqb_spec m m) eq_refl) in E; discriminate).
      split; cbn.
      * constructor; [|exact I1]. rewrite I2. intuition.
      * intros x. rewrite I2. intuition.
Qed.
Lemma group_keys ls : NoDup (map fst (group ls)).
Proof.
  unfold group. assert (G : forall acc, NoDup (map fst acc) -> NoDup (map fst (fold_left (fun acc ml => match snd ml with [] => acc | _ => append_to (fst ml) (snd ml) acc end) ls acc))).
  { induction ls as [|[m1 l1] ls IH]; intros acc H; cbn [fold_left fst snd]; [exact H|]. apply IH.
    destruct l1; [exact H|]. now apply append_keys. }
  apply G. constructor.
Qed.
Lemma concat_has (ls : list (list (method * list blink))) m b : has (concat ls) m b <-> exists l, In l ls /\ has l m b.
Proof.
  unfold has. split.
  - intros (L & H & Hb). apply in_concat in H. destruct H as (l & H1 & H2). eauto.
  - intros (l & Hl & L & H & Hb). exists L. split; [|exact Hb]. apply in_concat. eauto.
Qed.

Section Points.
Variable dimz : Z.
Variable schemes : list (list Z).
Variable st : stencil.
Hypothesis Hnn : nonneg schemes.
Hypothesis Hst : build_stencil dimz schemes = Some st.
Variable g : grid.
Variable D : dom.
Variable conds : Z -> list (nat * method).

Let BF := build_facts dimz schemes st Hnn Hst.

Lemma unique_index i v : nth_error (sunique st) i = Some v -> wf_velocity v /\ vdim v = dimz /\ 0 <= vnum v /\
  nth_error (sunum2index st) (Z.to_nat (vnum v)) = Some (Z.of_nat i).
Proof.
  intros H. assert (Hin : In v (sunique st)) by (eapply nth_error_In; eauto).
  pose proof (b_uwf _ _ _ BF) as W. rewrite Forall_forall in W. destruct (W v Hin) as [W1 W2].
  assert (H1 : In (vnum v) (map vnum (sunique st))) by (now apply in_map).
  apply (b_uin _ _ _ BF) in H1. destruct H1 as (s & Hs & Hv). repeat split; auto; [eapply Hnn; eauto|].
  apply (b_u2i _ _ _ BF). now apply map_nth_error.
Qed.
Lemma index_unique n i : 0 <= n -> nth_error (sunum2index st) (Z.to_nat n) = Some i -> 0 <= i ->
  exists v, nth_error (sunique st) (Z.to_nat i) = Some v /\ vnum v = n.
Proof.
  intros Hn H Hi. destruct (in_dec Z.eq_dec n (map vnum (sunique st))) as [Hin|Hin].
  - apply In_nth_error in Hin. destruct Hin as [j Hj]. pose proof (b_u2i _ _ _ BF j n Hj) as E.
    rewrite E in H. injection H as <-. rewrite Nat2Z.id. rewrite nth_error_map in Hj.
    destruct (nth_error (sunique st) j) as [v|]; [|discriminate]. injection Hj as Hj. eauto.
  - apply (b_u2i_out _ _ _ BF) in H; [lia|]. now rewrite Z2Nat.id.
Qed.
Lemma unique_pos i j v : nth_error (sunique st) i = Some v -> nth_error (sunique st) j = Some v -> i = j.
Proof.
  intros Hi Hj. apply unique_index in Hi. apply unique_index in Hj. destruct Hi as (_ & _ & _ & Hi).
  destruct Hj as (_ & _ & _ & Hj). rewrite Hi in Hj. injection Hj as Hj. lia.
Qed.


Lemma wf_vnum v : wf_velocity v -> 0 <= vnum v.
Proof.
  unfold wf_velocity, vel_of_coord. destruct v as [d n x y z]. cbn [vx vy vz vnum].
  destruct z as [z|], y as [y|]; try discriminate.
  - destruct (set_num3 100 (x, y, z)) as [m|] eqn:E; [|discriminate]. intros H. injection H as _ <-.
    now apply num3_nonneg in E.
  - destruct (set_num2 x y) as [m|] eqn:E; [|discriminate]. intros H. injection H as _ <-.
    destruct (set_num2_total x y) as (k & E' & Hk). rewrite E in E'. now injection E' as <-.
  - intros H. injection H as _ <-. apply set_num1_nonneg.
Qed.
Lemma bvel_spec lab ks w l : nth_error (sunique st) ks = Some w -> bvel st g D lab ks = Some l ->
  exists num v, nth_error (sunique st) num = Some v /\ vel_list v = map Z.opp (vel_list w) /\
    l = map (fun x => (shift g x (vel_list v), d_link D num x))
            (filter (fun x => l_flag (d_link D num x) =? lab) (array_cells g)).
Proof.
  intros Hw H. unfold bvel in H. rewrite Hw in H. destruct (unique_index ks w Hw) as (Wf & Wd & Wn & _).
  destruct (C04_lemma) as (_ & _ & _ & L4). 
  destruct (L4 w None Wf) as (v & E & Wv & Dv & Cv & _); [intros (a & C & _); discriminate|].
  rewrite E in H. destruct (nth_error (sunum2index st) (Z.to_nat (vnum v))) as [num|] eqn:En; [|discriminate].
  destruct (num <? 0) eqn:En0; [discriminate|]. apply Z.ltb_ge in En0. injection H as <-.
  destruct (index_unique (vnum v) num (wf_vnum v Wv) En En0) as (v' & Hv' & Nv').
  assert (v' = v).
  { destruct (unique_index _ _ Hv') as (W' & D' & _). pose proof (wf_vel_of_num v' W') as X. pose proof (wf_vel_of_num v Wv) as Y.
    rewrite D', Nv' in X. rewrite Dv, Wd in Y. congruence. }
  subst v'. exists (Z.to_nat num), v. split; [exact Hv'|]. split; [|reflexivity].
  change (vel_list v) with (vcoords v). rewrite Cv. apply sym_coords_opp.
Qed.

(* the position of velocity i of scheme s in get_all_velocities *)
Definition row (s i : nat) : nat := (length (concat (firstn s (sv st))) + i)%nat.

Lemma velocity_links_spec tab lab s vs i v l : bv_table st g D lab = Some tab ->
  nth_error (sv st) s = Some vs -> nth_error vs i = Some v ->
  velocity_links st tab lab s (i, v) = Some l ->
  exists num w, nth_error (sunique st) num = Some w /\ vel_list w = map Z.opp (vel_list v) /\
    l = map (fun x => mkB (row s i) (shift g x (vel_list w)) lab (l_dist (d_link D num x)) (l_norm (d_link D num x)))
            (filter (fun x => l_flag (d_link D num x) =? lab) (array_cells g)).
Proof.
  intros Ht Hs Hi H. unfold velocity_links in H. cbn [fst snd] in H.
  assert (Hu : In v (sunique st)) by (eapply (b_vin _ _ _ BF); eapply nth_error_In; eauto).
  apply In_nth_error in Hu. destruct Hu as [j Hj]. destruct (unique_index j v Hj) as (_ & _ & _ & Ej).
  rewrite Ej in H. rewrite (b_ptr _ _ _ BF) in H.
  assert (Ls : (s < length schemes)%nat).
  { rewrite <- (b_v _ _ _ BF), map_length. apply nth_error_Some. congruence. }
  rewrite nv_ptr_nth in H by lia. rewrite Z.add_0_l, Nat2Z.id in H.
  unfold bv_table in Ht.
  assert (Es : nth_error (seq 0 (length (sunique st))) j = Some j).
  { assert (j < length (sunique st))%nat by (apply nth_error_Some; congruence).
    rewrite (nth_error_nth' _ 0%nat) by (now rewrite seq_length). now rewrite seq_nth. }
  destruct (mapM_nth _ _ _ Ht j j Es) as (r & Hr & Hb). rewrite Hr in H. injection H as <-.
  destruct (bvel_spec _ _ _ _ Hj Hb) as (num & w & Hw & Ew & ->).
  exists num, w. split; [exact Hw|]. split; [exact Ew|]. rewrite map_map. cbn [fst snd].
  apply map_ext. intros x. f_equal. unfold row, StencilProofs.total. rewrite Nat2Z.id, Nat.add_comm. f_equal.
  rewrite <- (b_v _ _ _ BF), firstn_map, <- concat_map. now rewrite map_length.
Qed.

Definition link_of (labels : list Z) (m : method) (b : blink) : Prop :=
  exists lab s vs i v num w x,
    In lab labels /\ lab <> -1 /\ lab <> -2 /\ In (s, m) (conds lab) /\
    nth_error (sv st) s = Some vs /\ nth_error vs i = Some v /\
    nth_error (sunique st) num = Some w /\ vel_list w = map Z.opp (vel_list v) /\
    In x (array_cells g) /\ l_flag (d_link D num x) = lab /\
    b = mkB (row s i) (shift g x (vel_list w)) lab (l_dist (d_link D num x)) (l_norm (d_link D num x)).

Lemma boundary_links labels ms : boundary st g D conds labels = Some ms ->
  forall m b, has ms m b <-> link_of labels m b.
Proof.
  intros H m b. unfold boundary in H. destruct (mapM _ labels) as [ls|] eqn:E; [|discriminate].
  injection H as <-. rewrite group_has, concat_has.
  pose proof (mapM_in _ _ _ E) as M.
  split.
  - intros (l & Hl & Hh). apply M in Hl. destruct Hl as (lab & Hlab & El). unfold label_links in El.
    destruct (Z.eqb_spec lab (-1)); [injection El as <-; destruct Hh as (? & [] & _)|].
    destruct (Z.eqb_spec lab (-2)); [injection El as <-; destruct Hh as (? & [] & _)|]. cbn [orb] in El.
    destruct (bv_table st g D lab) as [tab|] eqn:Et; [|discriminate].
    destruct (mapM (scheme_links st tab lab) (conds lab)) as [l2|] eqn:E2; [|discriminate]. injection El as <-.
    apply concat_has in Hh. destruct Hh as (l3 & Hl3 & Hh). apply (mapM_in _ _ _ E2) in Hl3.
    destruct Hl3 as ([s m'] & Hsm & E3). unfold scheme_links in E3. cbn [fst snd] in E3.
    destruct (nth_error (sv st) s) as [vs|] eqn:Es; [|discriminate].
    destruct (mapM (velocity_links st tab lab s) (numbered vs)) as [l4|] eqn:E4; [|discriminate].
    injection E3 as <-. destruct Hh as (L & HL & Hb). apply in_map_iff in HL. destruct HL as (L' & EL & HL).
    injection EL as -> ->. apply (mapM_in _ _ _ E4) in HL. destruct HL as ([i v] & Hiv & E5).
    apply numbered_in in Hiv. destruct (velocity_links_spec _ _ _ _ _ _ _ Et Es Hiv E5) as (num & w & Hw & Ew & ->).
    apply in_map_iff in Hb. destruct Hb as (x & <- & Hx). apply filter_In in Hx. destruct Hx as [Hx Hf].
    apply Z.eqb_eq in Hf. exists lab, s, vs, i, v, num, w, x. repeat split; auto.
  - intros (lab & s & vs & i & v & num & w & x & Hlab & H1 & H2 & Hsm & Hs & Hi & Hw & Ew & Hx & Hf & ->).
    apply In_nth_error in Hlab. destruct Hlab as [j Hj]. destruct (mapM_nth _ _ _ E _ _ Hj) as (l & Hl & El).
    exists l. split; [eapply nth_error_In; eauto|]. unfold label_links in El.
    rewrite (proj2 (Z.eqb_neq _ _) H1), (proj2 (Z.eqb_neq _ _) H2) in El. cbn [orb] in El.
    destruct (bv_table st g D lab) as [tab|] eqn:Et; [|discriminate].
    destruct (mapM (scheme_links st tab lab) (conds lab)) as [l2|] eqn:E2; [|discriminate]. injection El as <-.
    apply concat_has. apply In_nth_error in Hsm. destruct Hsm as [js Hjs].
    destruct (mapM_nth _ _ _ E2 _ _ Hjs) as (l3 & Hl3 & E3). exists l3. split; [eapply nth_error_In; eauto|].
    unfold scheme_links in E3. cbn [fst snd] in E3. rewrite Hs in E3.
    destruct (mapM (velocity_links st tab lab s) (numbered vs)) as [l4|] eqn:E4; [|discriminate]. injection E3 as <-.
    assert (Hiv : In (i, v) (numbered vs)) by (now apply numbered_in).
    apply In_nth_error in Hiv. destruct Hiv as [ji Hji]. destruct (mapM_nth _ _ _ E4 _ _ Hji) as (l5 & Hl5 & E5).
    exists l5. split; [apply in_map_iff; exists l5; split; [reflexivity|eapply nth_error_In; eauto]|].
    destruct (velocity_links_spec _ _ _ _ _ _ _ Et Hs Hi E5) as (num' & w' & Hw' & Ew' & ->).
    assert (w' = w).
    { destruct (unique_index _ _ Hw) as (A1 & A2 & _). destruct (unique_index _ _ Hw') as (B1 & B2 & _).
      apply wf_coords_inj; auto. change (vel_list w' = vel_list w). congruence. }
    subst w'. assert (num' = num) by (eapply unique_pos; eauto). subst num'.
    apply in_map_iff. exists x. split; [reflexivity|]. apply filter_In. split; [exact Hx|now apply Z.eqb_eq].
Qed.
End Points.

(* ------------------------------------------------ ends of the links ------ *)
Lemma vzero_spec g v : vzero g v = true <-> forall d, (d < dim g)%nat -> v@d = 0.
Proof.
  unfold vzero. rewrite forallb_axes. split; intros H d Hd; specialize (H d Hd); now apply Z.eqb_eq.
Qed.
Lemma zero_vel g es D k v c : domain_init g es = Some D -> nth_error (g_vel g) k = Some v -> vzero g v = true ->
  l_flag (d_link D k c) = valin.
Proof.
  intros HD Hk Hz. unfold domain_init, add_init in HD. destruct (rows_exist g); [|discriminate].
  destruct (add_elems g es _) as [D'|] eqn:E; [|discriminate]. injection HD as <-. cbn [clean d_ioo d_link].
  destruct (_ && _); [reflexivity|].
  assert (H0 : d_link (mkDom (interior g) (init_links g)) k c = link0).
  { cbn [d_link]. destruct (interior g c) eqn:Hi; [|now apply init_links_out].
    apply (init_unflagged g c k v Hi Hk). apply interior_in_box; [exact Hi|]. apply interior_spec. intros d Hd.
    rewrite shift_nth by exact Hd. rewrite (proj1 (vzero_spec g v) Hz d Hd), Z.add_0_r.
    now apply (proj1 (interior_spec g c) Hi). }
  revert E H0. generalize (mkDom (interior g) (init_links g)). induction es as [|e es IH]; intros D0 E H0; cbn [add_elems] in E.
  - injection E as <-. now rewrite H0.
  - destruct (add_elem g e D0) as [D1|] eqn:E1; [|discriminate]. apply (IH D1 E).
    unfold add_elem in E1. destruct (existsb _ _); [discriminate|]. injection E1 as <-. cbn [d_link].
    now rewrite Hk, Hz, andb_false_r.
Qed.

(* flagged links join a fluid cell to a cell that is not fluid *)
Definition joins (g : grid) (D : dom) : Prop := forall k v x,
  nth_error (g_vel g) k = Some v -> In x (array_cells g) -> l_flag (d_link D k x) <> valin ->
  d_ioo D x = true /\ d_ioo D (shift g x v) = false.

(* --------------------------------------------------------- updates ------- *)
Section Update.
Variable K : arith.
Variable qk : Q -> K.
Variable g : grid.
Variable vel : nat -> list Z.
Variable sym : nat -> nat.
Variable feq : blink -> nat -> K.
Notation bvalue := (bvalue K qk g vel sym feq).
Notation bupdate := (bupdate K qk g vel sym feq).
Notation boundary_condition := (boundary_condition K qk g vel sym feq).
Notation dfield := (dfield K).

Definition key (b : blink) : nat * cell := (b_k b, b_cell b).
Definition loads (m : method) (b : blink) : list (nat * cell) :=
  match m with
  | MBouzidi | MBouzidiAnti => [iload0 g vel sym m b; iload1 g vel sym b]
  | _ => [iload0 g vel sym m b]
  end.
Lemma bvalue_loads m (F F' : dfield) b : (forall p, In p (loads m b) -> at_ K F p = at_ K F' p) -> bvalue m F b = bvalue m F' b.
Proof.
  intros H. unfold BoundaryModel.bvalue. cbv zeta. destruct m; cbn [loads] in H;
    rewrite (H _ (or_introl eq_refl)); try rewrite (H _ (or_intror (or_introl eq_refl))); reflexivity.
Qed.
Lemma dupd_same (F : dfield) k y x : dupd K F k y x k y = x.
Proof. unfold dupd. rewrite Nat.eqb_refl. assert (list_eqb y y = true) as -> by (now apply list_eqb_spec). reflexivity. Qed.
Lemma dupd_other (F : dfield) k y x k' y' : (k, y) <> (k', y') -> dupd K F k y x k' y' = F k' y'.
Proof.
  intros H. unfold dupd. destruct (Nat.eqb_spec k' k) as [->|]; [|reflexivity].
  destruct (list_eqb y' y) eqn:E; [|reflexivity]. apply list_eqb_spec in E. congruence.
Qed.
Lemma key_dec (p q : nat * cell) : {p = q} + {p <> q}.
Proof. decide equality; [apply (list_eq_dec Z.eq_dec)|apply Nat.eq_dec]. Qed.

Definition written (l : list blink) (p : nat * cell) : Prop := exists b, In b l /\ key b = p.
Lemma written_dec l p : {written l p} + {~ written l p}.
Proof.
  induction l as [|b l IH].
  - right. intros (b & [] & _).
  - destruct (key_dec (key b) p) as [E|E].
    + left. exists b. split; [now left|exact E].
    + destruct IH as [W|W].
      * left. destruct W as (c & H & Ec). exists c. split; [now right|exact Ec].
      * right. intros (c & [<-|H] & Ec); [now apply E|]. apply W. exists c. auto.
Qed.
Definition one_writer (l : list blink) : Prop := forall b b', In b l -> In b' l -> key b = key b' -> b = b'.
Lemma bupdate_frame be m l (F0 : dfield) k y : ~ written l (k, y) -> bupdate be m l F0 k y = F0 k y.
Proof.
  assert (G : forall (R : dfield -> dfield) F1, ~ written l (k, y) ->
    fold_left (fun F b => dupd K F (b_k b) (b_cell b) (bvalue m (R F) b)) l F1 k y = F1 k y).
  { intros R. induction l as [|b l IH]; intros F1 H; cbn [fold_left]; [reflexivity|]. rewrite IH.
    - apply dupd_other. intros E. apply H. exists b. split; [now left|exact E].
    - intros (c & Hc & E). apply H. exists c. split; [now right|exact E]. }
  exact (G (fun F => if reads_copy be m then F0 else F) F0).
Qed.
Lemma bupdate_value be m l (F0 : dfield) b : one_writer l -> In b l ->
  (reads_copy be m = true \/ forall p, In p (loads m b) -> ~ written l p) ->
  bupdate be m l F0 (b_k b) (b_cell b) = bvalue m F0 b.
Proof.
  intros HU Hb HR. unfold BoundaryModel.bupdate.
  assert (G : forall done todo F, (forall c, In c l <-> In c done \/ In c todo) ->
    (forall k y, ~ written l (k, y) -> F k y = F0 k y) ->
    (In b done -> F (b_k b) (b_cell b) = bvalue m F0 b) ->
    fold_left (fun F b => dupd K F (b_k b) (b_cell b) (bvalue m (if reads_copy be m then F0 else F) b)) todo F
      (b_k b) (b_cell b) = bvalue m F0 b).
  { intros done todo. revert done. induction todo as [|c todo IH]; intros done F HL H1 H2; cbn [fold_left].
    - apply H2. apply HL in Hb. destruct Hb as [Hb|[]]. exact Hb.
    - apply (IH (c :: done)).
      + intros x. rewrite HL. cbn. tauto.
      + intros k y H. rewrite dupd_other; [now apply H1|]. intros E. apply H. exists c. split; [|exact E].
        apply HL. right. now left.
      + intros Hd. destruct (key_dec (key c) (key b)) as [E|E].
        * assert (c = b) as -> by (apply HU; auto; apply HL; right; now left). rewrite dupd_same.
          destruct HR as [->|HR]; [reflexivity|]. destruct (reads_copy be m); [reflexivity|]. apply bvalue_loads.
          intros [k y] Hp. unfold at_. cbn [fst snd]. apply H1. now apply HR.
        * rewrite dupd_other by exact E. destruct Hd as [->|Hd]; [now contradiction E|now apply H2]. }
  apply (G [] l F0).
  - intros c. cbn. tauto.
  - reflexivity.
  - intros [].
Qed.

(* The whole pass: keys of different methods differ. *)
Definition all_links (ms : list (method * list blink)) : list blink := concat (map snd ms).
Lemma pass_frame be ms (F : dfield) k y : ~ written (all_links ms) (k, y) -> boundary_condition be ms F k y = F k y.
Proof.
  unfold BoundaryModel.boundary_condition. revert F. induction ms as [|[m l] ms IH]; intros F H; cbn [fold_left fst snd]; [reflexivity|].
  rewrite IH.
  - apply bupdate_frame. intros (b & Hb & E). apply H. exists b. split; [|exact E]. unfold all_links. cbn. apply in_or_app. now left.
  - intros (b & Hb & E). apply H. exists b. split; [|exact E]. unfold all_links. cbn. apply in_or_app. now right.
Qed.
Lemma pass_value be ms (F : dfield) m b : NoDup (map fst ms) -> has ms m b ->
  (forall m1 b1 m2 b2, has ms m1 b1 -> has ms m2 b2 -> key b1 = key b2 -> m1 = m2 /\ b1 = b2) ->
  (forall p, In p (loads m b) -> ~ written (all_links ms) p) ->
  boundary_condition be ms F (b_k b) (b_cell b) = bvalue m F b.
Proof.
  intros HN HB HU HL. destruct HB as (l & Hl & Hb).
  assert (HW : forall p, In p (loads m b) -> ~ written l p).
  { intros p Hp (c & Hc & E). apply (HL p Hp). exists c. split; [|exact E]. unfold all_links. apply in_concat. exists l.
    split; [|exact Hc]. change l with (snd (m, l)). now apply in_map. }
  assert (HO : one_writer l).
  { intros c c' Hc Hc' E. apply (HU m c m c'); auto; exists l; auto. }
  apply in_split in Hl. destruct Hl as (ms1 & ms2 & ->).
  unfold BoundaryModel.boundary_condition. rewrite fold_left_app. cbn [fold_left fst snd].
  fold (boundary_condition be ms1 F). set (F1 := boundary_condition be ms1 F).
  change (fold_left _ ms2 ?G) with (boundary_condition be ms2 G).
  rewrite pass_frame.
  - rewrite (bupdate_value be m l F1 b HO Hb (or_intror HW)). apply bvalue_loads. intros [k y] Hp. unfold at_. cbn [fst snd].
    apply pass_frame. intros (c & Hc & E). apply (HL _ Hp). exists c. split; [|exact E].
    unfold all_links. rewrite map_app, concat_app. apply in_or_app. now left.
  - intros (c & Hc & E). unfold all_links in Hc. apply in_concat in Hc. destruct Hc as (l2 & Hl2 & Hc).
    apply in_map_iff in Hl2. destruct Hl2 as ([m2 l2'] & E2 & Hm2). cbn in E2. subst l2'.
    destruct (HU m2 c m b) as [Em _].
    + exists l2. split; [apply in_or_app; right; now right|exact Hc].
    + exists l. split; [apply in_or_app; right; now left|exact Hb].
    + exact E.
    + subst m2. rewrite map_app in HN. cbn in HN. apply NoDup_remove_2 in HN. apply HN. apply in_or_app. right.
      change m with (fst (m, l2)). now apply in_map.
Qed.
End Update.
