(* Property C67: boxes with periodic sides, walls and obstacles, on one or several
   processes. *)
From Coq Require Import QArith Qcanon Lqa.
From Verif Require Import GenModel StepGenModel StepGenProofs SchemeModel SchemeProofs SchemeProps BuildModel BuildProofs BuildProps BuildFrame GenProofs StepGenProps.
From Verif Require Import PyBase VelocityModel VelocityProofs PermuteProofs Velocity3Proofs StencilModel StencilProofs
  GridModel GridProofs StorageModel ExchangeProofs StorageProps LinAlg GlobalModel GlobalProofs TorusProofs DomainModel DomainProofs DomainProps BoundaryModel BoundaryProofs
  BoundaryProps BoundaryUpdProps AlgoModel AlgoProofs RelVelProofs KernelProofs SimModel SimProofs AlgoProps GlobalProps SimProps VesselProofs VesselProps ChannelProps
  ParallelModel ParallelProofs ObstacleProofs ParallelProps ObstacleProps ParallelMassProps WholeModel WholeProps.
From Coq Require Import Sorting.Permutation.
Open Scope Z_scope.

(* ---- where a link comes from: a side of the box or an element ---- *)
Section Origin.
Variable g : grid.
Variable es : list elem.
Definition origin (k : nat) (c : cell) (l : link) : Prop :=
  unflagged l \/
  (l_dist l = l_dist (init_links g k c) /\ l_flag l = l_flag (init_links g k c)) \/
  exists e v, In e es /\ nth_error (g_vel g) k = Some v /\ (0 < e_alpha e (point g c) (displacement g v))%Q /\
    l_flag l = e_border e (point g c) (displacement g v).
Lemma elem_origin e D D' : In e es -> add_elem g e D = Some D' -> (forall k c, origin k c (d_link D k c)) ->
  forall k c, origin k c (d_link D' k c).
Proof.
  intros He H HD k c. unfold add_elem in H. destruct (existsb _ _); [discriminate|]. injection H as <-. cbn [d_link].
  destruct (nth_error (g_vel g) k) as [v|] eqn:Ev; [|apply HD]. destruct (_ && _); [|apply HD].
  set (ioo := ioo_elem g e (d_ioo D)). clearbody ioo. unfold link_elem.
  set (x := point g c). set (dv := displacement g v).
  assert (L1 : forall l1, (l1 = d_link D k c \/ l1 = mkLink qvalin valin (l_norm (d_link D k c))) -> origin k c l1).
  { intros l1 [->| ->]; [apply HD|left; split; reflexivity]. }
  match goal with |- origin _ _ (if ?b1 && ?b2 then ?lnk else ?l1) => destruct (b1 && b2) eqn:E; [|apply (L1 l1)] end.
  - right. right. cbn [l_flag]. exists e, v. repeat (split; [assumption|]). split; [|reflexivity].
    apply andb_prop in E. destruct E as [E _]. apply andb_prop in E. destruct E as [E _].
    apply andb_prop in E. destruct E as [E _]. now apply Qltb_true in E.
  - destruct (e_fluid e); [destruct (negb _ && _)|destruct (e_in e x)]; first [left; reflexivity|right; reflexivity].
Qed.
Lemma domain_origin D : domain_init g es = Some D -> forall k c, origin k c (d_link D k c).
Proof.
  intros HD. unfold domain_init, add_init in HD. destruct (rows_exist g); [|discriminate].
  destruct (add_elems g es _) as [D'|] eqn:E; [|discriminate]. injection HD as <-. intros k c. cbn [clean d_link].
  destruct (_ && _); [left; split; reflexivity|]. revert k c.
  assert (H0 : forall k c, origin k c (d_link (mkDom (interior g) (init_links g)) k c)) by (intros; right; left; split; reflexivity).
  assert (HS : forall e, In e es -> In e es) by auto.
  revert E H0. generalize (mkDom (interior g) (init_links g)).
  assert (G : forall l, (forall e, In e l -> In e es) -> forall D0, add_elems g l D0 = Some D' -> (forall k c, origin k c (d_link D0 k c)) ->
    forall k c, origin k c (d_link D' k c)).
  { induction l as [|e l IH]; intros Hl D0 E H0; cbn [add_elems] in E; [injection E as <-; exact H0|].
    destruct (add_elem g e D0) as [D1|] eqn:E1; [|discriminate]. apply (IH (fun e' Hi => Hl e' (or_intror Hi)) D1 E).
    apply (elem_origin e D0 D1); [apply Hl; now left|exact E1|exact H0]. }
  apply G. exact HS.
Qed.
End Origin.

(* An element stays away from the periodic sides: it is between the centres of the
   first and of the last cells. *)
Definition away (g : grid) (e : elem) : Prop := forall d, (d < dim g)%nat -> periodic g d = true ->
  ((g_x0 g)@@d + g_dx g * inject_Z (g_h g)@d < (e_lo e)@@d)%Q /\
  ((e_hi e)@@d < (g_x0 g)@@d + g_dx g * inject_Z ((g_h g)@d + (g_n g)@d - 1))%Q.
(* A channel with elements: along each axis two periodic sides or two walls, bounce
   back on the walls and on the borders of the elements. *)
Record duct dimz schemes st r g (es : list elem) D conds labels ms : Prop := {
  u_set : setting dimz schemes st r g D conds labels ms;
  u_nodup : Forall (@NoDup Z) schemes;
  u_grid : wf_grid g;
  u_room : room g;
  u_elems : forall e, In e es -> bounds_ok g e /\ distance_ok g e;
  u_inside : forall e c, In e es -> e_fluid e = true -> e_in e (point g c) = true -> interior g c = true;
  u_away : forall e, In e es -> away g e;
  u_dom : domain_init g es = Some D;
  u_sides : forall d, (d < dim g)%nat -> periodic g d = false ->
    wall conds labels (length schemes) (g_lab g)@(2 * d) /\ wall conds labels (length schemes) (g_lab g)@(2 * d + 1);
  u_borders : forall e x dv, In e es -> (0 < e_alpha e x dv)%Q -> wall conds labels (length schemes) (e_border e x dv);
  u_speed : slow g;
  u_first : walls_first g
}.

Lemma not_interior g y : interior g y = false -> exists d, (d < dim g)%nat /\ ~ ((g_h g)@d <= y@d < (g_h g)@d + (g_n g)@d).
Proof.
  intros H. destruct (existsb (fun d => negb (((g_h g)@d <=? y@d) && (y@d <? (g_h g)@d + (g_n g)@d))) (DomainModel.axes g)) eqn:E.
  - apply existsb_exists in E. destruct E as (d & Hd & E). apply axes_in in Hd. exists d. split; [exact Hd|]. lia.
  - exfalso. assert (interior g y = true); [|congruence]. apply interior_spec. intros d Hd.
    destruct (((g_h g)@d <=? y@d) && (y@d <? (g_h g)@d + (g_n g)@d)) eqn:E2; [lia|].
    assert (existsb (fun d => negb (((g_h g)@d <=? y@d) && (y@d <? (g_h g)@d + (g_n g)@d))) (DomainModel.axes g) = true); [|congruence].
    apply existsb_exists. exists d. split; [now apply axes_in|]. now rewrite E2.
Qed.
Lemma out_before st g x k d : (d < dim g)%nat -> x@d + (map Z.opp (velk st k))@d = (before st g k x)@d.
Proof. intros Hd. rewrite before_nth, nth_opp by exact Hd. lia. Qed.

Section Duct.
Variables (dimz : Z) (schemes : list (list Z)) (st : stencil) (r : list Z) (g : grid) (es : list elem) (D : dom).
Variables (conds : Z -> list (nat * method)) (labels : list Z) (ms : list (method * list blink)).
Hypothesis C : duct dimz schemes st r g es D conds labels ms.
Let S : setting dimz schemes st r g D conds labels ms := u_set _ _ _ _ _ _ _ _ _ _ C.
Let ND : Forall (@NoDup Z) schemes := u_nodup _ _ _ _ _ _ _ _ _ _ C.
Let W : wf_grid g := u_grid _ _ _ _ _ _ _ _ _ _ C.
Let R : room g := u_room _ _ _ _ _ _ _ _ _ _ C.
Let HE : forall e, In e es -> bounds_ok g e /\ distance_ok g e := u_elems _ _ _ _ _ _ _ _ _ _ C.
Let HD : domain_init g es = Some D := u_dom _ _ _ _ _ _ _ _ _ _ C.
Notation n := (length (concat schemes)).
Let row_of := row_of dimz schemes st r g D conds labels ms S.
Let sym_facts := sym_facts dimz schemes st r g D conds labels ms S ND.
Let opp_vel := opp_vel dimz schemes st r g D conds labels ms S ND.
Let fluid_in := fluid_in g es D W HE HD.

Lemma duct_speed k d : (k < n)%nat -> (d < dim g)%nat -> -1 <= (velk st k)@d <= 1.
Proof using C.
  intros Hk Hd. destruct (opp_vel k Hk) as (num & H & _). apply nth_error_In in H.
  pose proof (u_speed _ _ _ _ _ _ _ _ _ _ C _ d H Hd) as B. rewrite nth_opp in B. lia.
Qed.
Lemma no_interface d : (d < dim g)%nat -> (g_lab g)@(2 * d) <> -2 /\ (g_lab g)@(2 * d + 1) <> -2.
Proof using C.
  intros Hd. destruct (periodic g d) eqn:P.
  - unfold periodic in P. apply andb_prop in P. destruct P as [P1 P2]. apply Z.eqb_eq in P1, P2. rewrite P1, P2. split; discriminate.
  - destruct (u_sides _ _ _ _ _ _ _ _ _ _ C d Hd P) as [(_ & _ & N1 & _) (_ & _ & N2 & _)]. split; assumption.
Qed.
(* the side of the box which is crossed first *)
Lemma init_side num x v : interior g x = true -> nth_error (g_vel g) num = Some v ->
  let l := init_links g num x in
  let out d := ~ ((g_h g)@d <= x@d + v@d < (g_h g)@d + (g_n g)@d) in
  (unflagged l /\ forall d, (d < dim g)%nat -> ~ out d) \/
  (exists d, (d < dim g)%nat /\ out d /\ periodic g d = false /\ wall conds labels (length schemes) (l_flag l)) \/
  (l_flag l = -1 /\ (exists d, (d < dim g)%nat /\ out d) /\ forall d, (d < dim g)%nat -> out d -> periodic g d = true).
Proof using C.
  intros Hi Hnum l out.
  pose proof (init_links_cell g num x v Hi Hnum) as IL. pose proof (axes_fold g x v Hi (dim g) (le_n _)) as FW.
  unfold DomainModel.axes in IL. rewrite <- IL in FW. fold l in FW. clear IL.
  assert (Sp : forall d, (d < dim g)%nat -> -1 <= v@d <= 1) by (intros d Hd; apply (u_speed _ _ _ _ _ _ _ _ _ _ C _ d (nth_error_In _ _ Hnum) Hd)).
  assert (CO : forall d, (d < dim g)%nat -> (crosses g x v d = true <-> out d)).
  { intros d Hd. pose proof (proj1 (interior_spec g x) Hi d Hd) as Hc. destruct (no_interface d Hd) as [N1 N2]. specialize (Sp d Hd).
    unfold out, crosses, exits, gap, toright.
    destruct (Z.eqb_spec (g_lab g)@(2 * d) (-2)); [congruence|]. destruct (Z.eqb_spec (g_lab g)@(2 * d + 1) (-2)); [congruence|].
    destruct (Z.ltb_spec 0 v@d), (Z.ltb_spec v@d 0); cbn; lia. }
  assert (TT : forall d, (d < dim g)%nat -> crosses g x v d = true -> (T g x v d == 1 # 2)%Q).
  { intros d Hd Cr. pose proof (proj1 (interior_spec g x) Hi d Hd) as Hc. unfold crosses in Cr. apply andb_prop in Cr. destruct Cr as [_ Cr].
    apply Z.ltb_lt in Cr. specialize (Sp d Hd). unfold T, dvik.
    assert (gap g x (toright v d) d = 0) as -> by (unfold gap in *; destruct (toright v d); lia).
    assert (Z.abs v@d = 1) as -> by (unfold gap in *; destruct (toright v d); lia). reflexivity. }
  destruct FW as [[No ->]|(d & Hd & Cd & _ & Fl & _ & _ & Fst)].
  - left. split; [split; reflexivity|]. intros d Hd Ho. apply CO in Ho; [|exact Hd]. rewrite No in Ho by exact Hd. discriminate.
  - right. destruct (periodic g d) eqn:P.
    + right. split; [|split; [exists d; split; [exact Hd|now apply CO]|]].
      * rewrite Fl. unfold wall_label. unfold periodic in P. apply andb_prop in P. destruct P as [P1 P2]. apply Z.eqb_eq in P1, P2.
        destruct (toright v d); assumption.
      * intros d1 Hd1 Ho. destruct (periodic g d1) eqn:P1; [reflexivity|]. exfalso. apply CO in Ho; [|exact Hd1].
        pose proof (u_first _ _ _ _ _ _ _ _ _ _ C d d1 Hd Hd1 P P1) as Lt.
        specialize (Fst d1 Lt Ho). rewrite (TT d Hd Cd), (TT d1 Hd1 Ho) in Fst. lra.
    + left. exists d. split; [exact Hd|]. split; [now apply CO|]. split; [exact P|].
      rewrite Fl. unfold wall_label. destruct (u_sides _ _ _ _ _ _ _ _ _ _ C d Hd P). destruct (toright v d); assumption.
Qed.
(* no element is met by a velocity that leaves through a periodic side *)
Lemma away_alpha e x v d : In e es -> In v (g_vel g) -> interior g x = true -> (d < dim g)%nat -> periodic g d = true ->
  ~ ((g_h g)@d <= x@d + v@d < (g_h g)@d + (g_n g)@d) -> ~ (0 < e_alpha e (point g x) (displacement g v))%Q.
Proof using C.
  intros He Hv Hi Hd P Ho A. destruct (u_away _ _ _ _ _ _ _ _ _ _ C e He d Hd P) as [A1 A2].
  destruct (HE e He) as [_ HA]. destruct (HA x v Hv) as (_ & H2 & _). destruct (H2 A) as (t & Ht & Hb). specialize (Hb d Hd).
  rewrite point_nth in Hb by exact Hd. unfold displacement in Hb. rewrite nth_axes in Hb by exact Hd.
  pose proof (proj1 (interior_spec g x) Hi d Hd) as Hc. pose proof (u_speed _ _ _ _ _ _ _ _ _ _ C _ d Hv Hd) as Sp.
  pose proof (wf_dx g W) as Hdx. set (x0 := (g_x0 g)@@d) in *. set (dx := g_dx g) in *.
  destruct (Z_lt_ge_dec (x@d + v@d) (g_h g)@d) as [L|L].
  - assert (x@d = (g_h g)@d) as E by lia. assert (v@d = -1) as E2 by lia. rewrite E, E2 in Hb. change (inject_Z (-1)) with (-1)%Q in Hb.
    assert (0 <= t * dx)%Q by (apply Qmult_le_0_compat; lra). nra.
  - assert (x@d = (g_h g)@d + (g_n g)@d - 1) as E by lia. assert (v@d = 1) as E2 by lia. rewrite E, E2 in Hb. change (inject_Z 1) with 1%Q in Hb.
    assert (0 <= t * dx)%Q by (apply Qmult_le_0_compat; lra). nra.
Qed.
(* the cells beside the periodic sides are fluid *)
Lemma away_fluid y d : In y (inner_cells g) -> (d < dim g)%nat -> periodic g d = true ->
  (y@d = (g_h g)@d \/ y@d = (g_h g)@d + (g_n g)@d - 1) -> d_ioo D y = true.
Proof using C.
  intros Hy Hd P Ey. apply filter_In in Hy. destruct Hy as [Hy Hi]. apply array_cells_in in Hy. destruct Hy as [_ By].
  destruct (C15_last_element_decides g es D y W) as [[Ci _]|[_ L]]; [intros e He; now apply HE|exact HD|intros d' Hd'; now apply By|congruence|].
  assert (No : forall e, In e es -> e_in e (point g y) = false).
  { intros e He. destruct (e_in e (point g y)) eqn:In'; [|reflexivity]. exfalso. destruct (HE e He) as [Hb _]. specialize (Hb y d In' Hd).
    destruct (u_away _ _ _ _ _ _ _ _ _ _ C e He d Hd P) as [A1 A2]. rewrite point_nth in Hb by exact Hd.
    destruct Ey as [Ey|Ey]; rewrite Ey in Hb; lra. }
  destruct L as [[_ L]|L]; [exact L|]. destruct L as (es1 & e & es2 & -> & He & _). rewrite No in He; [discriminate|apply in_or_app; right; now left].
Qed.

Definition dsource (k : nat) (x : cell) : option cell :=
  if between g (before st g k x) && d_ioo D (wrap g (before st g k x)) then Some (wrap g (before st g k x)) else None.
Lemma fluid_inner x : In x (fluid_cells g D) -> In x (inner_cells g).
Proof using C.
  intros H. destruct (fluid_in x H) as (L & _ & Hi & B). apply filter_In. split; [apply array_cells_in; split; assumption|exact Hi].
Qed.
Lemma inner_iff x : In x (inner_cells g) <-> length x = dim g /\ interior g x = true.
Proof using C.
  unfold inner_cells. rewrite filter_In, array_cells_in. split; [tauto|]. intros [L I]. split; [|exact I].
  split; [exact L|]. intros d Hd. pose proof (proj1 (interior_spec g x) I d Hd). pose proof (wf_h g W d Hd). unfold DomainModel.total. lia.
Qed.
Lemma wrap_in y : In (wrap g y) (inner_cells g).
Proof using C.
  apply inner_iff. split; [apply wrap_len|]. apply interior_spec. intros d Hd. rewrite wrap_nth by exact Hd.
  pose proof (Z.mod_pos_bound (y@d - (g_h g)@d) (g_n g)@d ltac:(apply R; exact Hd)). lia.
Qed.
Lemma wrap_same x : In x (inner_cells g) -> wrap g x = x.
Proof using C.
  intros H. apply inner_iff in H. destruct H as [L I]. apply (cell_ext g); [apply wrap_len|exact L|]. intros d Hd.
  rewrite wrap_nth by exact Hd. pose proof (proj1 (interior_spec g x) I d Hd). rewrite Z.mod_small by lia. lia.
Qed.
Lemma before_in x k : In x (inner_cells g) -> (k < n)%nat -> In (before st g k x) (array_cells g).
Proof using C.
  intros Hx Hk. apply inner_iff in Hx. destruct Hx as [Lx Hi]. apply array_cells_in. split; [apply shift_len|]. intros d Hd.
  rewrite before_nth by exact Hd. pose proof (proj1 (interior_spec g x) Hi d Hd). destruct (opp_vel k Hk) as (num & H1 & _).
  pose proof (wf_v g W _ d (nth_error_In _ _ H1) Hd) as B. rewrite nth_opp in B. unfold DomainModel.total. lia.
Qed.
(* a cell beyond periodic sides only is the image of a fluid cell *)
Lemma image_fluid x k : In x (inner_cells g) -> (k < n)%nat -> between g (before st g k x) = true -> interior g (before st g k x) = false ->
  d_ioo D (wrap g (before st g k x)) = true.
Proof using C.
  intros Hx Hk Hb Hi'. destruct (not_interior g _ Hi') as (d & Hd & Ho). rewrite between_spec in Hb.
  assert (P : periodic g d = true) by (destruct (periodic g d) eqn:P; [reflexivity|exfalso; apply Ho; now apply Hb]).
  apply (away_fluid _ d); [apply wrap_in|exact Hd|exact P|]. apply inner_iff in Hx. destruct Hx as [_ Hi].
  pose proof (proj1 (interior_spec g x) Hi d Hd) as Hc. pose proof (duct_speed k d Hk Hd) as Sp.
  rewrite wrap_nth by exact Hd. rewrite before_nth in * by exact Hd.
  destruct (Z_lt_ge_dec (x@d - (velk st k)@d) (g_h g)@d) as [L|L].
  - right. replace (x@d - (velk st k)@d - (g_h g)@d) with ((g_n g)@d - 1 + (-1) * (g_n g)@d) by lia.
    rewrite Z.mod_add, Z.mod_small by lia. lia.
  - left. replace (x@d - (velk st k)@d - (g_h g)@d) with (0 + 1 * (g_n g)@d) by lia. rewrite Z.mod_add, Z.mod_small by lia. lia.
Qed.
Lemma duct_written x k : In x (fluid_cells g D) -> (k < n)%nat -> dsource k x = None ->
  exists b, has ms MBounceBack b /\ b_k b = k /\ b_cell b = before st g k x.
Proof using C.
  intros Hx Hk Hs. pose proof (fluid_inner x Hx) as Hin. destruct (fluid_in x Hx) as (Lx & Hf & Hi & HB').
  destruct (opp_vel k Hk) as (num & Hnum & w & Hw & Ew). pose proof S as [Hn Hb Hr Hg HJ HB HF Hval].
  pose proof (proj1 (array_cells_in g (before st g k x)) (before_in x k Hin Hk)) as [_ By].
  assert (Wl : wall conds labels (length schemes) (l_flag (d_link D num x))).
  { assert (Ioo : d_ioo D (before st g k x) = false).
    { destruct (d_ioo D (before st g k x)) eqn:E; [|reflexivity]. exfalso.
      destruct (C15_last_element_decides g es D (before st g k x) W) as [[_ L]|[Ib _]]; [intros e He; now apply HE|exact HD|intros d' Hd'; now apply By|congruence|].
      unfold dsource in Hs. assert (In (before st g k x) (inner_cells g)) as Hb2 by (apply inner_iff; split; [apply shift_len|exact Ib]).
      rewrite (wrap_same _ Hb2), E in Hs. assert (between g (before st g k x) = true) as Bt; [|rewrite Bt in Hs; discriminate].
      apply between_spec. intros d Hd _. now apply (proj1 (interior_spec g _) Ib). }
    assert (Hz : vzero g (map Z.opp (velk st k)) = false).
    { destruct (vzero g _) eqn:V; [|reflexivity]. rewrite vzero_spec in V. exfalso.
      assert (before st g k x = x); [|congruence]. apply (cell_ext g); [apply shift_len|exact Lx|]. intros d Hd.
      unfold before. rewrite shift_nth, V by exact Hd. lia. }
    assert (Lk : flagged (d_link D num x)).
    { pose proof (C15_links g es D W HE HD num _ x Hnum Hz Hi Hf) as L. unfold before in Ioo. rewrite Ioo in L. apply L.
      destruct (C15_targets g x (map Z.opp (velk st k))) as [T|T]; [|exact Hi|left; exact T|].
      - intros i Hi'. destruct (Nat.Even_or_Odd i) as [[d Ed]|[d Ed]]; destruct (no_interface d ltac:(lia)); rewrite Ed; assumption.
      - destruct (interior g (shift g x (map Z.opp (velk st k)))) eqn:Ei; [now left|right]. split; [exact T|].
        intros e He Hfl. destruct (e_in e _) eqn:C2; [|reflexivity]. rewrite (u_inside _ _ _ _ _ _ _ _ _ _ C e _ He Hfl C2) in Ei. discriminate. }
    destruct (domain_origin g es D HD num x) as [U|[[O1 O2]|(e & v & He & _ & Ha & ->)]].
    - exfalso. exact (flag_excl _ U Lk).
    - rewrite O2. destruct (init_side num x _ Hi Hnum) as [[[U _] _]|[(d & _ & _ & _ & X)|(_ & (d & Hd & Ho) & Per)]].
      + exfalso. unfold flagged in Lk. rewrite O1, U in Lk. unfold qvalin in Lk. change 1%Q with (inject_Z 1) in Lk. destruct Lk as [_ Lk]. rewrite <- Zle_Qle in Lk. lia.
      + exact X.
      + exfalso. unfold dsource in Hs. assert (between g (before st g k x) = true) as Bt.
        { apply between_spec. intros d' Hd' P. rewrite <- (out_before st g x k d' Hd').
          destruct (Z_lt_ge_dec (x@d' + (map Z.opp (velk st k))@d') (g_h g)@d') as [L|L]; [rewrite (Per d' Hd') in P by lia; discriminate|].
          destruct (Z_lt_ge_dec (x@d' + (map Z.opp (velk st k))@d') ((g_h g)@d' + (g_n g)@d')) as [L2|L2]; [lia|rewrite (Per d' Hd') in P by lia; discriminate]. }
        rewrite Bt, image_fluid in Hs; [discriminate|exact Hin|exact Hk|exact Bt|].
        destruct (interior g (before st g k x)) eqn:Ei; [|reflexivity]. exfalso. apply Ho. rewrite (out_before st g x k d Hd). now apply (proj1 (interior_spec g _) Ei).
    - now apply (u_borders _ _ _ _ _ _ _ _ _ _ C). }
  set (lab := l_flag (d_link D num x)) in *. destruct Wl as (Fl' & N1 & N2 & HC).
  destruct (row_of k Hk) as (s & vs & i & u & Hs' & Hi' & Ek & Hls).
  exists (mkB (row st s i) (shift g x (vel_list w)) lab (l_dist (d_link D num x)) (l_norm (d_link D num x))).
  split; [|split; [now symmetry|cbn; rewrite Ew; reflexivity]].
  apply (boundary_links dimz schemes st Hn Hb g D conds labels ms HB). exists lab, s, vs, i, u, num, w, x.
  repeat (split; [first [assumption|now apply HC|rewrite Ew; rewrite Ek; f_equal; eapply row_velk; eauto]|]).
  split; [apply array_cells_in; split; assumption|]. split; reflexivity.
Qed.
Lemma duct_unwritten x k y : In x (fluid_cells g D) -> (k < n)%nat -> dsource k x = Some y ->
  ~ written (all_links ms) (k, before st g k x).
Proof using C.
  intros Hx Hk Hs. pose proof (fluid_inner x Hx) as Hin. destruct (fluid_in x Hx) as (Lx & Hf & Hi & HB').
  unfold dsource in Hs. destruct (between g (before st g k x)) eqn:Bt; [|discriminate]. cbn [andb] in Hs.
  destruct (d_ioo D (wrap g (before st g k x))) eqn:Fy; [|discriminate]. clear Hs.
  destruct (interior g (before st g k x)) eqn:Ib.
  - apply (fluid_unwritten _ _ _ _ _ _ _ _ _ S). rewrite wrap_same in Fy; [exact Fy|]. apply inner_iff. split; [apply shift_len|exact Ib].
  - intros Hw. pose proof S as [Hn Hb Hr Hg HJ HB HF Hval].
    apply written_has in Hw. destruct Hw as (m & b & Hb' & Ekey). unfold key in Ekey.
    apply (boundary_links dimz schemes st Hn Hb g D conds labels ms HB) in Hb'.
    destruct Hb' as (lab & s & vs & i & u & num & w & x0 & Hlab & N1 & N2 & _ & Hs & Hi' & Hw & Ew & Hx0 & Hfl & ->).
    cbn [b_k b_cell] in Ekey. injection Ekey as Ek Ec.
    assert (Ev : velk st k = vel_list u) by (rewrite <- Ek; eapply row_velk; eauto).
    assert (x0 = x).
    { apply array_cells_in in Hx0. destruct Hx0 as [L0 _]. apply (cell_ext g); [exact L0|exact Lx|]. intros d Hd.
      pose proof (f_equal (fun c : cell => c@d) Ec) as E. cbv beta in E. rewrite shift_nth, before_nth, Ew, nth_opp, Ev in E by exact Hd. lia. }
    subst x0.
    assert (Hnum : nth_error (g_vel g) num = Some (map Z.opp (velk st k))) by (rewrite Hg, Ev, <- Ew; now apply map_nth_error).
    destruct (not_interior g _ Ib) as (d & Hd & Ho). rewrite between_spec in Bt.
    assert (P : periodic g d = true) by (destruct (periodic g d) eqn:P; [reflexivity|exfalso; apply Ho; now apply Bt]).
    rewrite <- (out_before st g x k d Hd) in Ho.
    destruct (domain_origin g es D HD num x) as [[_ U]|[[_ O2]|(e & v & He & Hv & Ha & _)]].
    + apply Hval. rewrite <- U, Hfl. exact Hlab.
    + destruct (init_side num x _ Hi Hnum) as [[_ No]|[(d' & Hd' & Ho' & P' & _)|(X & _)]].
      * exact (No d Hd Ho).
      * apply Ho'. rewrite (out_before st g x k d' Hd'). now apply Bt.
      * apply N1. congruence.
    + rewrite Hnum in Hv. injection Hv as <-. exact (away_alpha e x _ d He (nth_error_In _ _ Hnum) Hi Hd P Ho Ha).
Qed.
Lemma dsource_ok k x y : (k < n)%nat -> In x (fluid_cells g D) -> dsource k x = Some y ->
  In y (fluid_cells g D) /\ dsource (symk r k) y = Some x.
Proof using C.
  intros Hk Hx H. pose proof (fluid_inner x Hx) as Hin. unfold dsource in H. destruct (between g (before st g k x)) eqn:E; [|discriminate]. cbn [andb] in H.
  destruct (d_ioo D (wrap g (before st g k x))) eqn:Fy; [|discriminate]. injection H as <-.
  split. { apply filter_In. split; [|exact Fy]. pose proof (wrap_in (before st g k x)) as A. now apply filter_In in A. }
  destruct (sym_facts k Hk) as (_ & _ & V). rewrite between_spec in E.
  assert (B : forall d, (d < dim g)%nat -> (before st g (symk r k) (wrap g (before st g k x)))@d =
    (g_h g)@d + ((x@d - (velk st k)@d) - (g_h g)@d) mod (g_n g)@d + (velk st k)@d).
  { intros d Hd. rewrite before_nth, wrap_nth, before_nth, V, nth_opp by exact Hd. lia. }
  pose proof Hin as Hx'. apply inner_iff in Hx'. destruct Hx' as [Lx Hi].
  assert (E2 : between g (before st g (symk r k) (wrap g (before st g k x))) = true).
  { apply between_spec. intros d Hd P. rewrite B by exact Hd. specialize (E d Hd P). rewrite before_nth in E by exact Hd.
    rewrite Z.mod_small by lia. pose proof (proj1 (interior_spec g x) Hi d Hd). lia. }
  assert (E3 : wrap g (before st g (symk r k) (wrap g (before st g k x))) = x).
  { apply (cell_ext g); [apply wrap_len|exact Lx|]. intros d Hd.
    rewrite wrap_nth, B by exact Hd. pose proof (proj1 (interior_spec g x) Hi d Hd).
    replace ((g_h g)@d + (x@d - (velk st k)@d - (g_h g)@d) mod (g_n g)@d + (velk st k)@d - (g_h g)@d) with
      ((x@d - (velk st k)@d - (g_h g)@d) mod (g_n g)@d + (velk st k)@d) by lia.
    rewrite Z.add_mod_idemp_l by (destruct R as [_ R']; specialize (R' d Hd); lia).
    replace (x@d - (velk st k)@d - (g_h g)@d + (velk st k)@d) with (x@d - (g_h g)@d) by lia.
    rewrite Z.mod_small by lia. lia. }
  unfold dsource. rewrite E2, E3. cbn [andb]. apply filter_In in Hx. destruct Hx as [_ ->]. reflexivity.
Qed.

Section Step.
Variable K : ring.
Add Ring Kring_duct : (rth K).
Variable qk : Q -> K.
Variable feq : blink -> nat -> K.
Hypothesis Hrest : forall b k, (k < n)%nat -> feq b (symk r k) = feq b k.
Variable be : BoundaryModel.backend.
(* H: the values after the exchange of the ghost cells *)
Variables (H : dfield K) (F : field K cell).
Hypothesis HF0 : forall k c, In c (array_cells g) -> H k c = F (wrap g c) k.
Lemma duct_transport k x : (k < n)%nat -> In x (fluid_cells g D) ->
  boundary_condition K qk g (velk st) (symk r) feq be ms H k (before st g k x) =
  match dsource k x with Some y => F y k | None => F x (symk r k) end.
Proof using C Hrest HF0.
  intros Hk Hx. pose proof (fluid_inner x Hx) as Hin. destruct (fluid_in x Hx) as (Lx & _).
  destruct (dsource k x) as [y|] eqn:E.
  - rewrite pass_frame by (eapply duct_unwritten; eassumption). rewrite HF0 by (now apply before_in).
    unfold dsource in E. destruct (between g _ && _); [|discriminate]. injection E as <-. reflexivity.
  - destruct (duct_written x k Hx Hk E) as (b & Hb & Ek & Ec).
    destruct (C17_after_transport _ _ _ _ _ _ _ _ _ S K qk feq be H MBounceBack b Hb) as (_ & _ & T & _).
    specialize (T eq_refl). unfold btransport in T. rewrite Ek, Ec in T.
    assert (B : shift g (before st g k x) (velk st k) = x) by (unfold before; now apply shift_back).
    rewrite B in T. fold (before st g k x) in T. rewrite T, (Hrest b k Hk).
    rewrite HF0; [|apply filter_In in Hx; apply Hx]. rewrite wrap_same by exact Hin. ring.
Qed.
Lemma duct_sum (w : nat -> K) : (forall k, (k < n)%nat -> w (symk r k) = w k) ->
  sumL (fluid_cells g D) (fun x => sum n (fun k => (w k * boundary_condition K qk g (velk st) (symk r) feq be ms H k (before st g k x))%K)) =
  sumL (fluid_cells g D) (fun x => sum n (fun k => (w k * F x k)%K)).
Proof using C Hrest HF0.
  intros Hw. apply (reflect_sum cell (fluid_cells g D) n (symk r) dsource) with (F := fun k x => F x k)
    (F' := fun k x => boundary_condition K qk g (velk st) (symk r) feq be ms H k (before st g k x)).
  - apply NoDup_filter. apply array_cells_NoDup.
  - intros k Hk. destruct (sym_facts k Hk) as (A & B & _). auto.
  - apply dsource_ok.
  - exact Hw.
  - intros k x Hk Hx. now apply duct_transport.
Qed.
End Step.
End Duct.

(* A step around obstacles: the distribution k of the fluid cell x is the one of the image
   y of the cell x - v_k in the box; if x - v_k is behind a wall, or if y is solid, it is the
   bounced one.  F: the values at the start of the step, the ghost cells hold anything. *)
Theorem C67_step dimz schemes st r g es D conds labels ms :
  duct dimz schemes st r g es D conds labels ms ->
  forall (K : ring) (qk : Q -> K) feq be (F : field K cell) k x,
  (forall b k, (k < length (concat schemes))%nat -> feq b (symk r k) = feq b k) ->
  (k < length (concat schemes))%nat -> length x = dim g ->
  (forall d, (d < dim g)%nat -> (g_h g)@d <= x@d < (g_h g)@d + (g_n g)@d) -> last_decides es (point g x) true ->
  let v := velk st k in
  let F' := wall_step K qk g st r feq be ms (exchange1 g) F (shift g x (map Z.opp v)) k in
  let behind d := periodic g d = false /\ ~ ((g_h g)@d <= x@d - v@d < (g_h g)@d + (g_n g)@d) in
  ((exists d, (d < dim g)%nat /\ behind d) -> F' = F x (symk r k)) /\
  ((forall d, (d < dim g)%nat -> ~ behind d) ->
   forall y, length y = dim g ->
   (forall d, (d < dim g)%nat -> (g_h g)@d <= y@d < (g_h g)@d + (g_n g)@d /\ ((g_n g)@d | y@d - (x@d - v@d))) ->
   forall fluid, last_decides es (point g y) fluid -> F' = if fluid then F y k else F x (symk r k)).
Proof.
  intros C K qk feq be F k x Hr Hk Lx Bx Hfx v F' behind.
  pose proof (u_grid _ _ _ _ _ _ _ _ _ _ C) as W. pose proof (u_elems _ _ _ _ _ _ _ _ _ _ C) as HE. pose proof (u_dom _ _ _ _ _ _ _ _ _ _ C) as HD.
  assert (IO : forall z b, In z (inner_cells g) -> last_decides es (point g z) b -> d_ioo D z = b).
  { intros z b Hz Hb. pose proof Hz as Hz'. apply filter_In in Hz'. destruct Hz' as [Hz1 Hz2]. apply array_cells_in in Hz1. destruct Hz1 as [_ Bz].
    destruct (C15_last_element_decides g es D z W) as [[Ci _]|[_ L]]; [intros e He; now apply HE|exact HD|intros d Hd; now apply Bz|congruence|].
    exact (last_decides_fun _ _ _ _ L Hb). }
  assert (Hin : In x (inner_cells g)).
  { apply (inner_iff _ _ _ _ _ _ _ _ _ _ C). split; [exact Lx|]. apply interior_spec. exact Bx. }
  assert (Hx : In x (fluid_cells g D)).
  { apply filter_In. split; [apply filter_In in Hin; apply Hin|now apply IO]. }
  destruct (u_room _ _ _ _ _ _ _ _ _ _ C) as [Rd Rn].
  assert (E : F' = match dsource st g D k x with Some y => F y k | None => F x (symk r k) end).
  { apply (duct_transport _ _ _ _ _ _ _ _ _ _ C K qk feq Hr be (fun k c => exchange1 g F c k) F); [|exact Hk|exact Hx].
    intros j c Hc. rewrite exchange1_wrap; [reflexivity|split; assumption|exact Hc]. }
  unfold dsource in E. unfold v in *. clearbody F'. split.
  - intros (d & Hd & P & N). destruct (between g (before st g k x)) eqn:B; [|exact E].
    rewrite between_spec in B. specialize (B d Hd P). rewrite before_nth in B by exact Hd. contradiction.
  - intros N y Ly Hy fluid Hfl. assert (B : between g (before st g k x) = true).
    { apply between_spec. intros d Hd P. rewrite before_nth by exact Hd. specialize (N d Hd). unfold behind in N. rewrite P in N. lia. }
    assert (Ey : wrap g (before st g k x) = y).
    { apply (cell_ext g); [apply wrap_len|exact Ly|]. intros d Hd. rewrite wrap_nth, before_nth by exact Hd.
      destruct (Hy d Hd) as [B1 [q Hq]].
      replace (x@d - (velk st k)@d - (g_h g)@d) with (y@d - (g_h g)@d + (- q) * (g_n g)@d) by lia.
      rewrite Z.mod_add by lia. rewrite Z.mod_small by lia. lia. }
    rewrite B, Ey, (IO y fluid) in E; [destruct fluid; exact E| |exact Hfl].
    rewrite <- Ey. apply (wrap_in _ _ _ _ _ _ _ _ _ _ C).
Qed.
Print Assumptions C67_step.

(* The total of an even conserved moment over the fluid, for any number of steps. *)
Theorem C67_mass dimz schemes st r g es D conds labels ms :
  duct dimz schemes st r g es D conds labels ms ->
  forall (K : ring) (a : algo K) (qk : Q -> K) feq be init init_moments params bk (s : sim K cell params) l i,
  al_n a = length (concat schemes) ->
  al_source a = [] -> eq_ok K a -> rel_ok K a -> frame_ok K a -> (i < al_nc a)%nat ->
  (forall k, (k < al_n a)%nat -> al_M a i (symk r k) = al_M a i k) ->
  (forall b k, (k < al_n a)%nat -> feq b (symk r k) = feq b k) ->
  s_need_init K cell params s = false ->
  Forall (fun o => match o with OStep _ _ _ | OReadM _ _ _ | OReadF _ _ _ | OF2m _ _ _ | OParam _ _ _ _ => True | _ => False end) l ->
  let B := wall_step K qk g st r feq be ms (exchange1 g) in
  let s' := exec_ops K cell list_eqb a (before st g) (inner_cells g) B init init_moments params bk l s in
  let total F := sumL (fluid_cells g D) (fun x => mvmul (al_n a) (al_M a) (F x) i) in
  total (s_F K cell params s') = total (s_F K cell params s).
Proof.
  intros C K a qk feq be init init_moments params bk s l i Hna HS He HR HF Hi Hev Hrest Hn0 Hl B s' total.
  assert (HC : conserving K a).
  { split; [exact HS|]. split; [exact He|]. split; [exact HR|]. destruct (al_relvel a); [exact HF|exact (proj1 (proj1 HF))]. }
  pose proof (source_ok_nil K a HS) as Hso. unfold s'. clear s'. revert s Hn0.
  induction Hl as [|o l Ho Hl IH]; intros s Hn0; [reflexivity|].
  unfold exec_ops. cbn [fold_left].
  change (fold_left _ l ?z) with (exec_ops K cell list_eqb a (before st g) (inner_cells g) B init init_moments params bk l z).
  rewrite IH by (apply need_apply; exact Hn0). clear IH.
  destruct o; try contradiction; try reflexivity.
  - (* a time step *)
    cbn [apply]. set (s1 := one_time_step _ _ _ _ _ _ _ _ _ _ _ s).
    assert (E : forall x, In x (fluid_cells g D) -> mvmul (al_n a) (al_M a) (s_F K cell params s1 x) i =
      sum (length (concat schemes)) (fun k => (al_M a i k * boundary_condition K qk g (velk st) (symk r) feq be ms
        (fun k c => exchange1 g (s_F K cell params s) c k) k (before st g k x))%K)).
    { intros x Hx. pose proof (fluid_inner _ _ _ _ _ _ _ _ _ _ C x Hx) as Hin.
      pose proof (proj1 (step_spec K cell list_eqb a (before st g) (inner_cells g) B init init_moments params bk list_eqb_spec He Hso HR s x Hn0) Hin) as A.
      fold s1 in A. rewrite (mvmul_ext K _ _ _ _ A), (pull_conserves K a _ i HC Hi). unfold mvmul. rewrite Hna. reflexivity. }
    unfold total. rewrite (sumL_ext K _ _ _ E). rewrite Hna in Hev, Hrest.
    rewrite (duct_sum _ _ _ _ _ _ _ _ _ _ C K qk feq Hrest be (fun k c => exchange1 g (s_F K cell params s) c k) (s_F K cell params s)); [|
      intros j c Hc; rewrite exchange1_wrap; [reflexivity|apply (u_room _ _ _ _ _ _ _ _ _ _ C)|exact Hc]|exact Hev].
    unfold mvmul. rewrite Hna. reflexivity.
  - cbn [apply]. unfold refresh. destruct (s_update _ _ _ s); reflexivity.
Qed.
Print Assumptions C67_mass.

(* ---- several processes ---- *)
Lemma duct_quiet dimz schemes st r g es labs conds D ms :
  serial dimz schemes st r g es labs conds D ms -> duct dimz schemes st r g es D conds (labels_of g labs) ms -> quiet st r g ms.
Proof.
  intros E C. eapply all_bounce_quiet; [exact E|]. intros lab s m Hl H1 H2 (num & z & Hz) Hs Hm.
  assert (Wl : wall conds (labels_of g labs) (length schemes) lab).
  { pose proof (e_lab _ _ _ _ _ _ _ _ _ _ E) as L.
    destruct (domain_origin g es D (u_dom _ _ _ _ _ _ _ _ _ _ C) num z) as [[_ X]|[[_ X]|(e & v & He & _ & Ha & X)]].
    - exfalso. apply (s_val _ _ _ _ _ _ _ _ _ (u_set _ _ _ _ _ _ _ _ _ _ C)). now rewrite <- X, Hz.
    - destruct (init_labelled g (g_lab g) ltac:(intros j Hj; apply nth_In; lia) num z) as [[_ Y]|Y].
      + exfalso. apply (s_val _ _ _ _ _ _ _ _ _ (u_set _ _ _ _ _ _ _ _ _ _ C)). now rewrite <- Y, <- X, Hz.
      + rewrite <- X, Hz in Y. apply In_nth with (d := 0) in Y. destruct Y as (j & Hj & <-).
        destruct (Nat.Even_or_Odd j) as [[d Ed]|[d Ed]]; (destruct (u_sides _ _ _ _ _ _ _ _ _ _ C d ltac:(lia)) as [W1 W2];
          [unfold periodic; rewrite <- Ed; apply Z.eqb_neq in H1; rewrite H1; now rewrite ?andb_false_r|rewrite Ed; assumption]).
    - rewrite <- Hz, X. now apply (u_borders _ _ _ _ _ _ _ _ _ _ C). }
  destruct Wl as (_ & _ & _ & HB). exact (e_fun _ _ _ _ _ _ _ _ _ _ E lab s m MBounceBack Hm (HB s Hs)).
Qed.
Lemma duct_step dimz schemes st r g es labs conds D ms :
  serial dimz schemes st r g es labs conds D ms -> duct dimz schemes st r g es D conds (labels_of g labs) ms ->
  forall (K : ring) (qk : Q -> K) (a : algo K) be i, al_n a = length (concat schemes) -> conserving K a -> (i < al_nc a)%nat ->
  (forall k, (k < al_n a)%nat -> al_M a i (symk r k) = al_M a i k) -> forall phi G, at_rest r (al_n a) phi ->
  let q := fun f : vec K => mvmul (al_n a) (al_M a) f i in
  sumL (fluid_cells g D) (fun x => q (ref_step st r g ms K qk a be phi G (wrapg g x))) = sumL (fluid_cells g D) (fun x => q (G (wrapg g x))).
Proof.
  intros E C K qk a be i Hna HC Hi Hev phi G Hphi q. unfold q. rewrite Hna in Hev, Hphi.
  rewrite (sumL_ext K _ _ _ (fun y Hy => ref_pulled _ _ _ _ _ _ _ _ _ _ E K qk a be i Hna HC phi G y Hi Hy)).
  rewrite (duct_sum _ _ _ _ _ _ _ _ _ _ C K qk (feq_of st phi g) ltac:(intros b k Hk; apply Hphi; exact Hk) be (gfield g K G) (fun y => G (wrapg g y))
    ltac:(intros k c _; unfold gfield; now rewrite wrapg_wrap by apply (u_grid _ _ _ _ _ _ _ _ _ _ C)) (al_M a i) Hev).
  apply sumL_ext. intros y Hy. unfold mvmul. rewrite Hna. reflexivity.
Qed.
Theorem C67_parallel_mass dimz schemes st r g es labs conds D ms ps Ds mss cs :
  serial dimz schemes st r g es labs conds D ms -> parallel st g es labs conds ps Ds mss ->
  NoDup cs -> (forall c, In c cs <-> coords_ok (proc_axes g ps) c) ->
  duct dimz schemes st r g es D conds (labels_of g labs) ms ->
  forall (K : ring) (qk : Q -> K) (a : algo K) be i m0 u0 phis F Fn x,
  al_n a = length (concat schemes) ->
  al_source a = [] -> eq_ok K a -> rel_ok K a -> frame_ok K a -> (i < al_nc a)%nat ->
  (forall k, (k < al_n a)%nat -> al_M a i (symk r k) = al_M a i k) ->
  Forall (fun phi => ParallelProps.regular phi /\ at_rest r (al_n a) phi) phis ->
  let mass F := fluid_total g ps Ds cs (fun f => mvmul (al_n a) (al_M a) f i) F in
  mass (fst (two_run qk a st r g ps be mss m0 u0 phis (F, Fn))) = mass F /\
  mass (fst (one_run qk a st r g ps be mss phis (F, x))) = mass F.
Proof.
  intros E HP Hnd Hcs C K qk a be i m0 u0 phis F Fn x Hna HS He HR HF Hi Hev Hphis mass.
  assert (HC : conserving K a).
  { split; [exact HS|]. split; [exact He|]. split; [exact HR|]. destruct (al_relvel a); [exact HF|exact (proj1 (proj1 HF))]. }
  assert (HA : algo_ok K a) by (split; [exact He|]; split; [now apply source_ok_nil|exact HR]).
  apply (run_total dimz schemes st r g es labs conds D ms E ps Ds mss HP cs Hnd Hcs K qk a be i Hna HA (duct_quiet _ _ _ _ _ _ _ _ _ _ E C) (at_rest r (al_n a))); [|exact Hphis].
  intros phi G Hphi. now apply (duct_step _ _ _ _ _ _ _ _ _ _ E C).
Qed.
Print Assumptions C67_parallel_mass.
(* From the dictionary: the generated kernels, any process grid. *)
Theorem C67_simulation dimz schemes st r g es labs conds Dm ms K qk inv simp dm hdt ds a ps Ds mss cs pos c b i phis :
  serial dimz schemes st r g es labs conds Dm ms -> duct dimz schemes st r g es Dm conds (labels_of g labs) ms ->
  inv_spec K inv -> dict_ok K simp ds -> ordered K simp ds -> build K inv simp None dm hdt ds = Some a ->
  (forall d t, In d ds -> In t (sd_P K d) -> below K dm t) -> map (nv K) ds = map (@length Z) schemes -> (forall d, In d ds -> sd_src K d = []) ->
  parallel st g es labs conds ps Ds mss -> Forall (fun x => forall c, (c < ax_p x)%nat -> ax_lo x c < ax_hi x c) (proc_axes g ps) -> (pos <= dim g)%nat ->
  NoDup cs -> (forall c, In c cs <-> coords_ok (proc_axes g ps) c) ->
  is_moment K simp ds c b i -> even_moment r K ds b i ->
  (forall t, ParallelProps.regular (phis t) /\ at_rest r (SchemeModel.total (sizes K ds)) (phis t)) ->
  constant_mass st r g K qk ds a ps Ds mss cs pos b i phis.
Proof.
  intros E C HI D O EB HPl Hsz Hsrc HP NE Hpos Hnd Hcs Hm He Hphis.
  eapply mass_run; try eassumption; [exact (duct_quiet _ _ _ _ _ _ _ _ _ _ E C)|]. intros k be Hk Hev phi G Hphi.
  apply (duct_step _ _ _ _ _ _ _ _ _ _ E C K qk (algo_of K a) be k); try assumption; [eapply whole_na; eassumption|eapply whole_conserving; eassumption].
Qed.
Print Assumptions C67_simulation.

(* ---- examples ---- *)
(* A rectangle of the plane; a velocity which enters it meets it half way. *)
Definition in_block (lo hi x : list Q) : bool := forallb (fun d => Qle_bool lo@@d x@@d && Qle_bool x@@d hi@@d) [0; 1]%nat.
Definition block (lo hi : list Q) : elem := mkElem false lo hi (in_block lo hi)
  (fun x dv => if negb (in_block lo hi x) && in_block lo hi [x@@0 + dv@@0; x@@1 + dv@@1]%Q then (1 # 2)%Q else (-1)%Q)
  (fun _ _ => 5) (fun _ _ _ => 0%Q).
Lemma in_block_spec lo hi x : in_block lo hi x = true <-> forall d, (d < 2)%nat -> (lo@@d <= x@@d <= hi@@d)%Q.
Proof.
  unfold in_block. cbn [forallb]. rewrite !andb_true_iff, !Qle_bool_iff. split.
  - intros H [|[|d]] Hd; [| |lia]; tauto.
  - intros H. pose proof (H 0%nat ltac:(lia)). pose proof (H 1%nat ltac:(lia)). tauto.
Qed.
Lemma in_block_eq lo hi x y : (forall d, (d < 2)%nat -> (x@@d == y@@d)%Q) -> in_block lo hi x = in_block lo hi y.
Proof.
  intros H. apply Bool.eq_iff_eq_true. rewrite !in_block_spec. split; intros A d Hd; specialize (A d Hd); specialize (H d Hd); lra.
Qed.
Lemma block_obstacle g lo hi : dim g = 2%nat -> obstacle g [5] (block lo hi) /\ thick g [block lo hi].
Proof.
  intros Hd.
  assert (TG : forall x v, in_block lo hi [(point g x)@@0 + (displacement g v)@@0; (point g x)@@1 + (displacement g v)@@1]%Q = in_block lo hi (point g (shift g x v))).
  { intros x v. apply in_block_eq. intros d Hd2.
    rewrite (point_nth g (shift g x v) d) by lia. rewrite (shift_nth g x v d) by lia. rewrite inject_Z_plus.
    assert (A : forall d, (d < 2)%nat -> ((point g x)@@d + (displacement g v)@@d == (g_x0 g)@@d + g_dx g * (inject_Z x@d + inject_Z v@d))%Q).
    { intros d' Hd'. rewrite point_nth by lia. unfold displacement. rewrite nth_axes by lia. ring. }
    destruct d as [|[|d]]; [apply (A 0%nat); lia|apply (A 1%nat); lia|lia]. }
  assert (RG : regular_elem (block lo hi)).
  { intros x y dv HQ. assert (N : forall d, (x@@d == y@@d)%Q).
    { clear - HQ. induction HQ as [|p q l m H1 _ IH]; intros d; [reflexivity|]. destruct d; cbn; auto. }
    cbn [block e_in e_alpha e_border e_norm]. rewrite (in_block_eq lo hi x y) by (intros; apply N).
    rewrite (in_block_eq lo hi [x@@0 + dv@@0; x@@1 + dv@@1]%Q [y@@0 + dv@@0; y@@1 + dv@@1]%Q);
      [repeat split|]. intros [|[|d]] Hd'; [| |lia]; cbn [nth]; rewrite N; reflexivity. }
  split.
  - split; [reflexivity| | |exact RG|intros; now left].
    + intros c d Hin Hd'. rewrite Hd in Hd'. cbn [block e_in e_lo e_hi] in *. exact (proj1 (in_block_spec _ _ _) Hin d Hd').
    + intros c v Hv. cbn [block e_alpha e_in e_lo e_hi e_fluid]. rewrite TG. cbv zeta.
      split; [destruct (_ && _); [unfold Qle; cbn; lia|unfold Qle; cbn; lia]|]. split.
      * intros Ha. destruct (negb _ && _) eqn:E; [|exfalso; revert Ha; unfold Qlt; cbn; lia]. apply andb_prop in E. destruct E as [_ E].
        exists 1%Q. split; [lra|]. intros d Hd'. pose proof (proj1 (in_block_spec _ _ _) E d ltac:(lia)) as B. rewrite point_nth in * by exact Hd'.
        rewrite shift_nth in B by exact Hd'. rewrite inject_Z_plus in B. unfold displacement. rewrite nth_axes by exact Hd'. lra.
      * intros -> ->. reflexivity.
  - intros es1 e es2 E x v Hv Hx Hs Hi Ha. destruct es1 as [|e1 es1]; [|destruct es1; discriminate]. injection E as <- <-.
    exists (block lo hi). split; [now left|]. cbn [block e_in e_alpha] in *. rewrite TG in Ha. destruct (negb _ && _) eqn:E; [|exfalso; revert Ha; unfold Qlt; cbn; lia].
    apply andb_prop in E. apply E.
Qed.
(* Four by four cells, walls along the first axis, the second one is periodic, diagonal velocities. *)
Definition cgrid : grid := mkGrid [4; 4] [1; 1] [2; 2; -1; -1] [[-1; 1]; [1; -1]] [0; 0]%Q 1%Q.
Definition cD es : dom := match domain_init cgrid es with Some D => D | None => mkDom (fun _ => false) (fun _ _ => link0) end.
Definition cms es : list (method * list blink) := match boundary xst cgrid (cD es) bb (labels_of cgrid [5]) with Some ms => ms | None => [] end.
(* the cells (2, 2) and (2, 3) are solid *)
Definition post : list elem := [block [3 # 2; 3 # 2]%Q [5 # 2; 7 # 2]%Q].
(* the cell (2, 4) is solid, beside the periodic side *)
Definition fin : list elem := [block [3 # 2; 7 # 2]%Q [5 # 2; 9 # 2]%Q].
Lemma cwf : wf_grid cgrid.
Proof.
  split; [reflexivity|]. split.
  - intros d Hd. cbn in Hd. destruct d as [|[|d]]; cbn; lia.
  - intros v d Hv Hd. cbn in Hv, Hd. destruct Hv as [<-|[<-|[]]]; (destruct d as [|[|d]]; [| |lia]); cbn; lia.
Qed.
Lemma cserial es : es = post \/ es = fin -> serial 2 [[6; 8]] xst [1; 0] cgrid es [5] bb (cD es) (cms es).
Proof.
  intros He. split.
  - intros s x [<-|[]] Hx. cbn in Hx. lia.
  - reflexivity.
  - reflexivity.
  - reflexivity.
  - split; [reflexivity|]. cbn. lia.
  - exact cwf.
  - intros lb s m1 m2 [E1|[]] [E2|[]]; congruence.
  - reflexivity.
  - split; cbn; unfold valin; intuition discriminate.
  - intros e Hin. destruct He as [-> | ->]; destruct Hin as [<-|[]]; apply (block_obstacle cgrid _ _ eq_refl).
  - destruct He as [-> | ->]; apply (block_obstacle cgrid _ _ eq_refl).
  - cbn. unfold valin. intuition discriminate.
  - destruct He as [-> | ->]; reflexivity.
  - destruct He as [-> | ->]; vm_compute; reflexivity.
Qed.
Lemma cslow : slow cgrid.
Proof. intros v d [<-|[<-|[]]] Hd; cbn in Hd; (destruct d as [|[|d]]; [| |lia]); cbn; lia. Qed.
Lemma cwall lab : In lab [2; 5] -> wall bb (labels_of cgrid [5]) 1 lab.
Proof.
  intros [<-|[<-|[]]]; (split; [vm_compute; auto|split; [discriminate|split; [discriminate|intros [|s] Hs; [now left|lia]]]]).
Qed.
Lemma cduct : duct 2 [[6; 8]] xst [1; 0] cgrid post (cD post) bb (labels_of cgrid [5]) (cms post).
Proof.
  pose proof (cserial post (or_introl eq_refl)) as E. split.
  - exact (serial_setting _ _ _ _ _ _ _ _ _ _ E).
  - repeat constructor; cbn; intuition discriminate.
  - exact cwf.
  - split; [cbn; lia|]. intros [|[|d]] Hd; cbn in Hd |- *; lia.
  - intros e He. split; apply (e_obst _ _ _ _ _ _ _ _ _ _ E e He).
  - intros e c [<-|[]] C. discriminate.
  - intros e [<-|[]] [|[|d]] Hd P; cbn in Hd; try lia; try discriminate. vm_compute. auto.
  - apply E.
  - intros [|[|d]] Hd P; cbn in Hd; try lia; try discriminate. split; apply cwall; now left.
  - intros e x dv [<-|[]] _. apply cwall. right. now left.
  - exact cslow.
  - intros [|[|d]] [|[|d']] Hd Hd' P P'; cbn in Hd, Hd'; try lia; discriminate.
Qed.
Definition cps : list nat := [2; 1]%nat.
Definition ccs : list (list nat) := [[0; 0]; [1; 0]]%nat.
Lemma cparallel : parallel xst cgrid post [5] bb cps (dom_at cgrid post cps) (links_at xst cgrid post [5] bb cps).
Proof.
  eapply C57_exists; [exact (cserial post (or_introl eq_refl))| |right].
  - repeat constructor; try (cbn; lia); intros [|[|c]] Hc; cbn in Hc; try lia; vm_compute; try (split; intros; congruence); discriminate.
  - intros c Hc. assert (E : In c ccs).
    { pose proof (Forall2_length _ _ _ Hc) as L. destruct c as [|c0 [|c1 [|c2 c]]]; try discriminate. inversion Hc as [|? ? ? ? Ha Hb]. inversion Hb as [|? ? ? ? Ha2 Hb2].
      cbn in Ha, Ha2. assert (c1 = 0%nat) as -> by lia. destruct c0 as [|[|c0]]; [now left|right; now left|lia]. }
    split.
    + split; [reflexivity|]. split.
      * intros d Hd. cbn in Hd. destruct E as [<-|[<-|[]]]; destruct d as [|[|d]]; vm_compute; try (split; congruence); lia.
      * intros v d Hv Hd. cbn in Hv, Hd. destruct E as [<-|[<-|[]]], Hv as [<-|[<-|[]]]; destruct d as [|[|d]]; try lia; vm_compute; congruence.
    + intros e [<-|[]] d Hd. cbn in Hd. cbv zeta. left. destruct E as [<-|[<-|[]]]; (destruct d as [|[|d]]; [| |lia]); vm_compute; reflexivity.
Qed.
Definition cF : field ZR cell := fun x k => 100 * x@0 + 10 * x@1 + Z.of_nat k.
Definition cstep es := wall_step ZR (fun _ => 0) cgrid xst [1; 0] (fun _ _ => 0) Cython (cms es) (exchange1 cgrid) cF.
Definition crun : fields Zring := fst (two_run (K := Zring) (fun _ => 0) a_ex xst [1; 0] cgrid cps Cython (links_at xst cgrid post [5] bb cps) (fun _ => 0) (fun _ => 0)
  [fun (_ : Z) (_ : list Q) (_ : nat) => 0] ((fun c i k => cF (cell_of cgrid (globc (proc_axes cgrid cps) c i)) k), fun _ _ _ => 0)).
Definition cmass := fluid_total cgrid cps (dom_at cgrid post cps) ccs (fun f : vec Zring => mvmul (al_n a_ex) (al_M a_ex) f 0%nat).
(* Velocity (-1, 1): the cell (1, 1) takes the value of (2, 4) around the box, the cell (1, 2) the one of
   (2, 1), the cells (1, 3) and (1, 4) are bounced back by the post, the cell (4, 1) by the wall. *)
Example C67_example :
  duct 2 [[6; 8]] xst [1; 0] cgrid post (cD post) bb (labels_of cgrid [5]) (cms post) /\
  serial 2 [[6; 8]] xst [1; 0] cgrid post [5] bb (cD post) (cms post) /\
  parallel xst cgrid post [5] bb cps (dom_at cgrid post cps) (links_at xst cgrid post [5] bb cps) /\
  map (fun x => d_ioo (cD post) x) [[2; 1]; [2; 2]; [2; 3]; [2; 4]] = [true; false; false; true] /\
  velk xst 0 = [-1; 1] /\ map (fun x => cstep post (before xst cgrid 0 x) 0%nat) [[1; 1]; [1; 2]; [1; 3]; [1; 4]; [4; 1]] =
    [cF [2; 4] 0%nat; cF [2; 1] 0%nat; cF [1; 3] 1%nat; cF [1; 4] 1%nat; cF [4; 1] 1%nat] /\
  cmass (fun c i k => cF (cell_of cgrid (globc (proc_axes cgrid cps) c i)) k) = cmass crun /\
  crun [0; 0]%nat [1; 1] 0%nat <> cF [1; 1] 0%nat.
Proof.
  split; [exact cduct|]. split; [exact (cserial post (or_introl eq_refl))|]. split; [exact cparallel|].
  repeat (split; [vm_compute; reflexivity|]). vm_compute. discriminate.
Qed.
(* An obstacle beside a periodic side is not continued behind it: the cell on the other side
   takes the values of the inside of the solid, and the total changes. *)
Theorem C67_beside_refuted : exists dimz schemes st r g es labs D conds ms (F : field ZR cell) k x y,
  serial dimz schemes st r g es labs conds D ms /\ room g /\ slow g /\ walls_first g /\
  (forall d, (d < dim g)%nat -> periodic g d = false ->
    wall conds (labels_of g labs) (length schemes) (g_lab g)@(2 * d) /\ wall conds (labels_of g labs) (length schemes) (g_lab g)@(2 * d + 1)) /\
  (forall e x dv, In e es -> (0 < e_alpha e x dv)%Q -> wall conds (labels_of g labs) (length schemes) (e_border e x dv)) /\
  (k < length (concat schemes))%nat /\ interior g x = true /\ interior g y = true /\ last_decides es (point g x) true /\ last_decides es (point g y) false /\
  let F' := wall_step ZR (fun _ => 0) g st r (fun _ _ => 0) Cython ms (exchange1 g) F in
  F' (shift g x (map Z.opp (velk st k))) k = F y k /\ F y k <> F x (symk r k) /\
  sumL (K := ZR) (fluid_cells g D) (fun x => sum (K := ZR) (length (concat schemes)) (fun k => F' (before st g k x) k)) <>
  sumL (K := ZR) (fluid_cells g D) (fun x => sum (K := ZR) (length (concat schemes)) (fun k => F x k)).
Proof.
  exists 2, [[6; 8]], xst, [1; 0], cgrid, fin, [5], (cD fin), bb, (cms fin), cF, 0%nat, [1; 1], [2; 4].
  split; [exact (cserial fin (or_intror eq_refl))|]. split; [split; [cbn; lia|intros [|[|d]] Hd; cbn in Hd |- *; lia]|]. split; [exact cslow|].
  split; [intros [|[|d]] [|[|d']] Hd Hd' P P'; cbn in Hd, Hd'; try lia; discriminate|].
  split; [intros [|[|d]] Hd P; cbn in Hd; try lia; try discriminate; split; apply cwall; now left|].
  split; [intros e x dv [<-|[]] _; apply cwall; right; now left|].
  split; [cbn; lia|]. split; [reflexivity|]. split; [reflexivity|].
  split; [left; split; [intros e [<-|[]]; reflexivity|reflexivity]|].
  split; [right; exists [], (block [3 # 2; 7 # 2]%Q [5 # 2; 9 # 2]%Q), []; split; [reflexivity|]; split; [reflexivity|]; split; [intros e []|reflexivity]|].
  cbv zeta. split; [vm_compute; reflexivity|]. split; [vm_compute; discriminate|]. vm_compute. discriminate.
Qed.
Print Assumptions C67_beside_refuted.
