(* Sums over a fluid with reflecting walls: the permutation of the distributions
   made by transport and bounce back. *)
From Verif Require Import PyBase VelocityModel VelocityProofs PermuteProofs Velocity3Proofs StencilModel StencilProofs
  GridModel LinAlg GlobalModel GlobalProofs TorusProofs DomainModel DomainProofs DomainProps BoundaryModel BoundaryProofs
  BoundaryProps BoundaryUpdProps.
From Coq Require Import QArith Lqa Sorting.Permutation.
Open Scope Z_scope.

(* src k x: the cell from which the distribution k comes to x, None if it comes from
   a wall. *)
Section Reflect.
Variables (cell : Type) (X : list cell) (n : nat) (sym : nat -> nat) (src : nat -> cell -> option cell).
Hypothesis HX : NoDup X.
Hypothesis Hsym : forall k, (k < n)%nat -> (sym k < n)%nat /\ sym (sym k) = k.
Hypothesis Hsrc : forall k x y, (k < n)%nat -> In x X -> src k x = Some y -> In y X /\ src (sym k) y = Some x.

Definition phi (p : nat * cell) : nat * cell :=
  match src (fst p) (snd p) with Some y => (fst p, y) | None => (sym (fst p), snd p) end.
Definition pairs : list (nat * cell) := list_prod (seq 0 n) X.
Lemma pairs_in p : In p pairs <-> (fst p < n)%nat /\ In (snd p) X.
Proof. destruct p as [k x]. unfold pairs. rewrite in_prod_iff, in_seq. cbn. intuition lia. Qed.
Lemma phi_in p : In p pairs -> In (phi p) pairs.
Proof.
  rewrite !pairs_in. intros [Hk Hx]. unfold phi. destruct (src (fst p) (snd p)) as [y|] eqn:E; cbn [fst snd].
  - split; [exact Hk|]. now apply (Hsrc _ _ _ Hk Hx E).
  - split; [now apply Hsym|exact Hx].
Qed.
Lemma phi_inj p q : In p pairs -> In q pairs -> phi p = phi q -> p = q.
Proof.
  destruct p as [k x], q as [k' x']. rewrite !pairs_in. cbn [fst snd]. intros [Hk Hx] [Hk' Hx'] E.
  unfold phi in E. cbn [fst snd] in E.
  destruct (src k x) as [y|] eqn:S1, (src k' x') as [y'|] eqn:S2.
  - injection E as <- <-. destruct (Hsrc _ _ _ Hk Hx S1) as [_ R1]. destruct (Hsrc _ _ _ Hk' Hx' S2) as [_ R2].
    congruence.
  - injection E as -> ->. destruct (Hsrc _ _ _ Hk Hx S1) as [_ R1]. rewrite (proj2 (Hsym k' Hk')) in R1. congruence.
  - injection E as <- <-. destruct (Hsrc _ _ _ Hk' Hx' S2) as [_ R1]. rewrite (proj2 (Hsym k Hk)) in R1. congruence.
  - injection E as E <-. f_equal. rewrite <- (proj2 (Hsym k Hk)), <- (proj2 (Hsym k' Hk')). congruence.
Qed.
Lemma NoDup_prod {A B} (l : list A) (m : list B) : NoDup l -> NoDup m -> NoDup (list_prod l m).
Proof.
  intros Hl Hm. induction Hl as [|a l Ha Hl IH]; [constructor|]. cbn. apply NoDup_app.
  - apply FinFun.Injective_map_NoDup; [|exact Hm]. intros x y E. congruence.
  - exact IH.
  - intros [u v] H C. apply in_map_iff in H. destruct H as (b & E & _). injection E as <- _.
    apply in_prod_iff in C. now destruct C.
Qed.
Lemma NoDup_map_in {A B} (f : A -> B) (l : list A) : NoDup l ->
  (forall x y, In x l -> In y l -> f x = f y -> x = y) -> NoDup (map f l).
Proof.
  intros H. induction H as [|a l Ha Hl IH]; intros Hf; [constructor|]. cbn. constructor.
  - intros C. apply in_map_iff in C. destruct C as (b & E & Hb). apply Ha. rewrite (Hf a b); auto; [now left|now right].
  - apply IH. intros x y Hx Hy. apply Hf; now right.
Qed.
Lemma phi_perm : Permutation (map phi pairs) pairs.
Proof.
  apply NoDup_Permutation_bis.
  - apply NoDup_map_in; [apply NoDup_prod; [apply seq_NoDup|exact HX]|]. apply phi_inj.
  - rewrite map_length. reflexivity.
  - intros p Hp. apply in_map_iff in Hp. destruct Hp as (q & <- & Hq). now apply phi_in.
Qed.

(* Any quantity with the same weights for opposite velocities. *)
Lemma reflect_sum (K : ring) (w : nat -> K) (F F' : nat -> cell -> K) :
  (forall k, (k < n)%nat -> w (sym k) = w k) ->
  (forall k x, (k < n)%nat -> In x X -> F' k x = match src k x with Some y => F k y | None => F (sym k) x end) ->
  sumL X (fun x => sum n (fun k => (w k * F' k x)%K)) = sumL X (fun x => sum n (fun k => (w k * F k x)%K)).
Proof.
  intros Hw HF.
  assert (G : forall H : nat -> cell -> K, sumL X (fun x => sum n (fun k => (w k * H k x)%K)) =
    sumL pairs (fun p => (w (fst p) * H (fst p) (snd p))%K)).
  { intros H. unfold sum. rewrite sumL_swap. unfold pairs. generalize (seq 0 n) as l. induction l as [|a l IH]; [reflexivity|].
    cbn [list_prod]. rewrite sumL_app, sumL_map, <- IH. reflexivity. }
  rewrite !G. rewrite <- (sumL_perm K _ _ (fun p => (w (fst p) * F (fst p) (snd p))%K) phi_perm), sumL_map. apply sumL_ext. intros [k x] Hp.
  apply pairs_in in Hp. destruct Hp as [Hk Hx]. cbn [fst snd] in *. rewrite (HF k x Hk Hx). unfold phi. cbn [fst snd].
  destruct (src k x); cbn [fst snd]; [reflexivity|]. now rewrite (Hw k Hk).
Qed.
End Reflect.

(* ---- the labels of the links ---- *)
Section Flags.
Variable g : grid.
Variable labels : list Z.
Definition labelled (l : link) : Prop := (l_dist l = qvalin /\ l_flag l = valin) \/ In (l_flag l) labels.
Hypothesis HL : forall i, (i < 2 * dim g)%nat -> In (g_lab g)@i labels.

Lemma set_row_labelled d k right i dv lab L : In lab labels -> (forall k c, labelled (L k c)) ->
  forall k' c, labelled (set_row g d k right i dv lab L k' c).
Proof. intros H HL' k' c. unfold set_row. destruct (_ && _); [right; exact H|apply HL']. Qed.
Lemma fold_inv {A S} (P : S -> Prop) (f : S -> A -> S) l : (forall s a, In a l -> P s -> P (f s a)) -> forall s, P s -> P (fold_left f l s).
Proof.
  induction l as [|a l IH]; intros H s Hs; [exact Hs|]. cbn. apply IH; [|apply H; [now left|exact Hs]].
  intros s' b Hb. apply H. now right.
Qed.
Lemma init_labelled k c : labelled (init_links g k c).
Proof.
  revert k c. unfold init_links.
  apply (fold_inv (fun L => forall k c, labelled (L k c))); [|intros k c; left; split; reflexivity].
  intros L d Hd HL1. apply (fold_inv (fun L => forall k c, labelled (L k c))); [|exact HL1].
  intros L2 [k v] _ HL2. unfold init_axis_vel. unfold axes in Hd. apply in_seq in Hd.
  destruct (_ && _); [|destruct (_ && _); [|exact HL2]];
    (apply (fold_inv (fun L => forall k c, labelled (L k c))); [|exact HL2]);
    intros L3 i _ HL3; apply set_row_labelled; auto; apply HL; lia.
Qed.
Lemma elem_labelled e D D' : (forall x dv, (0 < e_alpha e x dv)%Q -> In (e_border e x dv) labels) ->
  add_elem g e D = Some D' -> (forall k c, labelled (d_link D k c)) -> forall k c, labelled (d_link D' k c).
Proof.
  intros He H HD k c. unfold add_elem in H. destruct (existsb _ _); [discriminate|]. injection H as <-. cbn [d_link].
  destruct (nth_error (g_vel g) k) as [v|]; [|apply HD]. destruct (_ && _); [|apply HD].
  set (ioo := ioo_elem g e (d_ioo D)). clearbody ioo. unfold link_elem.
  set (x := point g c). set (dv := displacement g v).
  assert (L1 : forall l1, (l1 = d_link D k c \/ l1 = mkLink qvalin valin (l_norm (d_link D k c))) -> labelled l1).
  { intros l1 [->| ->]; [apply HD|left; split; reflexivity]. }
  match goal with |- labelled (if ?b1 && ?b2 then ?lnk else ?l1) => destruct (b1 && b2) eqn:E; [|apply (L1 l1)] end.
  - right. cbn [l_flag]. apply He. apply andb_prop in E. destruct E as [E _]. apply andb_prop in E. destruct E as [E _].
    apply andb_prop in E. destruct E as [E _]. now apply Qltb_true in E.
  - destruct (e_fluid e); [destruct (negb _ && _)|destruct (e_in e x)]; first [left; reflexivity|right; reflexivity].
Qed.
Lemma domain_labelled es D :
  (forall e x dv, In e es -> (0 < e_alpha e x dv)%Q -> In (e_border e x dv) labels) ->
  domain_init g es = Some D -> forall k c, labelled (d_link D k c).
Proof.
  intros He HD. unfold domain_init, add_init in HD. destruct (rows_exist g); [|discriminate].
  destruct (add_elems g es _) as [D'|] eqn:E; [|discriminate]. injection HD as <-. intros k c. cbn [clean d_link].
  destruct (_ && _); [left; split; reflexivity|]. revert k c.
  assert (H0 : forall k c, labelled (d_link (mkDom (interior g) (init_links g)) k c)) by (intros; apply init_labelled).
  revert E H0. generalize (mkDom (interior g) (init_links g)). induction es as [|e es IH]; intros D0 E H0; cbn [add_elems] in E.
  - injection E as <-. exact H0.
  - destruct (add_elem g e D0) as [D1|] eqn:E1; [|discriminate]. apply (IH (fun e' x dv Hi => He e' x dv (or_intror Hi)) D1 E).
    apply (elem_labelled e D0 D1); [intros x dv; apply He; now left|exact E1|exact H0].
Qed.
End Flags.

Definition fluid_cells (g : grid) (D : dom) : list cell := filter (d_ioo D) (array_cells g).
Definition inner_cells (g : grid) : list cell := filter (interior g) (array_cells g).
Definition before (st : stencil) (g : grid) (k : nat) (x : cell) : cell := shift g x (map Z.opp (velk st k)).

Lemma array_cells_NoDup g : NoDup (array_cells g).
Proof.
  apply nested_NoDup. apply Forall_forall. intros r Hr. apply in_map_iff in Hr. destruct Hr as (s & <- & _). apply zrange_NoDup.
Qed.

Section Fluid.
Variables (dimz : Z) (schemes : list (list Z)) (st : stencil) (r : list Z) (g : grid) (es : list elem) (D : dom).
Variables (conds : Z -> list (nat * method)) (labels : list Z) (ms : list (method * list blink)).
Hypothesis S : setting dimz schemes st r g D conds labels ms.
Hypothesis ND : Forall (@NoDup Z) schemes.
Hypothesis W : wf_grid g.
Hypothesis HE : forall e, In e es -> bounds_ok g e /\ distance_ok g e.
Hypothesis HDi : domain_init g es = Some D.
Notation n := (length (concat schemes)).

Lemma row_of k : (k < n)%nat -> exists s vs i v, nth_error (sv st) s = Some vs /\ nth_error vs i = Some v /\
  k = row st s i /\ (s < length schemes)%nat.
Proof.
  intros Hk. pose proof (build_facts dimz schemes st (s_nn _ _ _ _ _ _ _ _ _ S) (s_build _ _ _ _ _ _ _ _ _ S)) as BF.
  assert (L : length (concat (sv st)) = n) by (rewrite <- (b_v _ _ _ BF), <- concat_map, map_length; reflexivity).
  assert (Ls : length schemes = length (sv st)) by (rewrite <- (b_v _ _ _ BF), map_length; reflexivity).
  rewrite Ls. unfold row. rewrite <- L in Hk. clear L Ls. revert k Hk. induction (sv st) as [|vs l IH]; intros k Hk; [cbn in Hk; lia|].
  cbn [concat] in Hk. rewrite app_length in Hk. destruct (Nat.lt_ge_cases k (length vs)) as [Lk|Lk].
  - destruct (nth_error vs k) as [v|] eqn:E; [|apply nth_error_None in E; lia].
    exists 0%nat, vs, k, v. cbn. repeat split; auto. lia.
  - destruct (IH (k - length vs)%nat) as (s & vs' & i & v & H1 & H2 & H3 & H4); [lia|].
    exists (Datatypes.S s), vs', i, v. cbn [nth_error firstn concat length]. rewrite app_length. repeat split; auto; lia.
Qed.
Lemma sym_facts k : (k < n)%nat -> (symk r k < n)%nat /\ symk r (symk r k) = k /\ velk st (symk r k) = map Z.opp (velk st k).
Proof.
  intros Hk. destruct (row_of k Hk) as (s & vs & i & v & Hs & Hi & -> & Hls).
  pose proof S as [Hn Hb Hr Hg HJ HB HF Hval].
  pose proof (build_facts dimz schemes st Hn Hb) as BF.
  destruct (C07_lemma dimz schemes st None Hn Hb ltac:(intros; discriminate)) as [_ T].
  destruct (T r Hr) as (T1 & T2 & T3). specialize (T3 ND).
  destruct (T2 s i vs v Hs Hi) as (j & u & Hj & Eu & En).
  assert (R : forall i, row st s i = (length (concat (firstn s schemes)) + i)%nat).
  { intros i0. unfold row. rewrite <- (b_v _ _ _ BF), firstn_map, <- concat_map. now rewrite map_length. }
  rewrite <- !R in En. assert (E : symk r (row st s i) = row st s j).
  { unfold symk. rewrite (nth_error_nth _ _ _ En). apply Nat2Z.id. }
  rewrite E. pose proof (T3 _ _ En) as E2. rewrite Nat2Z.id in E2. split; [|split].
  - assert (C : nth_error r (row st s j) <> None) by (rewrite E2; discriminate). apply nth_error_Some in C. congruence.
  - unfold symk. rewrite (nth_error_nth _ _ _ E2). apply Nat2Z.id.
  - rewrite (row_velk st s vs i v Hs Hi), (row_velk st s vs j u Hs Hj). change (vel_list u) with (vcoords u).
    rewrite Eu. apply sym_coords_opp.
Qed.
Lemma fluid_in x : In x (fluid_cells g D) -> length x = dim g /\ d_ioo D x = true /\ interior g x = true /\
  (forall d, (d < dim g)%nat -> 0 <= x@d < DomainModel.total g d).
Proof.
  intros H. apply filter_In in H. destruct H as [H1 H2]. apply array_cells_in in H1. destruct H1 as [L B].
  split; [exact L|]. split; [exact H2|]. split; [|exact B].
  destruct (C15_last_element_decides g es D x W) as [[_ C]|[C _]]; auto.
  - intros e He. now apply HE.
  - intros d Hd. apply B. exact Hd.
  - congruence.
Qed.
Lemma fluid_arr x v : In x (fluid_cells g D) -> In v (g_vel g) -> d_ioo D (shift g x v) = true -> In (shift g x v) (fluid_cells g D).
Proof.
  intros Hx Hv H. apply filter_In. split; [|exact H]. apply array_cells_in. split; [apply shift_len|].
  destruct (fluid_in x Hx) as (Lx & _ & Hi & _). intros d Hd. rewrite shift_nth by exact Hd.
  pose proof (proj1 (interior_spec g x) Hi d Hd). pose proof (wf_v g W v d Hv Hd).
  pose proof (wf_h g W d Hd). unfold DomainModel.total. lia.
Qed.
(* the unique velocity opposite to the one of a row *)
Lemma opp_vel k : (k < n)%nat -> exists num, nth_error (g_vel g) num = Some (map Z.opp (velk st k)) /\
  exists w, nth_error (sunique st) num = Some w /\ vel_list w = map Z.opp (velk st k).
Proof.
  intros Hk. destruct (sym_facts k Hk) as (H1 & _ & E). destruct (row_of _ H1) as (s & vs & i & v & Hs & Hi & Ek & _).
  pose proof S as [Hn Hb Hr Hg HJ HB HF Hval]. pose proof (build_facts dimz schemes st Hn Hb) as BF.
  assert (Hu : In v (sunique st)) by (eapply (b_vin _ _ _ BF); eapply nth_error_In; eauto).
  apply In_nth_error in Hu. destruct Hu as [num Hnum]. exists num.
  assert (Ev : vel_list v = map Z.opp (velk st k)) by (rewrite <- E, Ek; symmetry; eapply row_velk; eauto).
  split; [|exists v; split; [exact Hnum|exact Ev]]. rewrite Hg, <- Ev. now apply map_nth_error.
Qed.
End Fluid.
