(* C89: mirror images of simulations. *)
From Coq Require Import QArith Qcanon Lqa.
From Verif Require Import PyBase VelocityModel VelocityProofs Velocity3Proofs StencilModel StencilProofs GridModel GridProofs StorageModel
  ExchangeProofs StorageProps LinAlg AlgoModel AlgoProofs RelVelProofs KernelProofs GlobalModel GlobalProofs TorusProofs AlgoProps GlobalProps
  GenModel GenProofs GenProps StepGenModel StepGenProofs StepGenProps SchemeModel SchemeProofs SchemeProps BuildModel BuildProofs BuildProps BuildFrame
  DomainModel DomainProofs DomainProps BoundaryModel BoundaryProofs BoundaryProps BoundaryUpdProps VesselProofs VesselProps ChannelProps
  ParallelModel ParallelProofs ObstacleProofs ParallelProps ObstacleProps ParallelMassProps WholeModel WholeProps InitGenModel InitGenProps DuctProps FlowProofs FlowProps MovingProps BoundsProps.
Require Import Lia.
Open Scope Z_scope.

(* ------------------------------------------------- reflections ------------- *)
Section Reflect.
Variable g : grid.
(* the axes which are reflected *)
Variable flip : nat -> bool.
(* velocities, cells of the arrays (with the halo), cells of the domain, points *)
Definition mv (v : list Z) : list Z := map (fun d => if flip d then - v@d else v@d) (DomainModel.axes g).
Definition mc (c : cell) : cell := map (fun d => if flip d then DomainModel.total g d - 1 - c@d else c@d) (DomainModel.axes g).
Definition mg (x : list Z) : list Z := map (fun d => if flip d then (g_n g)@d - 1 - x@d else x@d) (DomainModel.axes g).
Definition mp (x : list Q) : list Q :=
  map (fun d => if flip d then (2 * (g_x0 g)@@d + g_dx g * inject_Z (DomainModel.total g d - 1) - x@@d)%Q else x@@d) (DomainModel.axes g).
Lemma mv_nth v d : (d < dim g)%nat -> (mv v)@d = if flip d then - v@d else v@d.
Proof. intros H. unfold mv. now rewrite nth_axes. Qed.
Lemma mc_nth v d : (d < dim g)%nat -> (mc v)@d = if flip d then DomainModel.total g d - 1 - v@d else v@d.
Proof. intros H. unfold mc. now rewrite nth_axes. Qed.
Lemma mg_nth v d : (d < dim g)%nat -> (mg v)@d = if flip d then (g_n g)@d - 1 - v@d else v@d.
Proof. intros H. unfold mg. now rewrite nth_axes. Qed.
Lemma mc_len c : length (mc c) = dim g.
Proof. unfold mc, DomainModel.axes. now rewrite map_length, seq_length. Qed.
Lemma mg_len c : length (mg c) = dim g.
Proof. unfold mg, DomainModel.axes. now rewrite map_length, seq_length. Qed.
Lemma mv_len c : length (mv c) = dim g.
Proof. unfold mv, DomainModel.axes. now rewrite map_length, seq_length. Qed.
Lemma mc_mc c : length c = dim g -> mc (mc c) = c.
Proof. intros H. apply (cell_ext g); [apply mc_len|exact H|]. intros d Hd. rewrite !mc_nth by exact Hd. destruct (flip d); lia. Qed.
Lemma mg_mg c : length c = dim g -> mg (mg c) = c.
Proof. intros H. apply (cell_ext g); [apply mg_len|exact H|]. intros d Hd. rewrite !mg_nth by exact Hd. destruct (flip d); lia. Qed.
Lemma mv_mv v : length v = dim g -> mv (mv v) = v.
Proof. intros H. apply (cell_ext g); [apply mv_len|exact H|]. intros d Hd. rewrite !mv_nth by exact Hd. destruct (flip d); lia. Qed.
Lemma mc_interior c : interior g (mc c) = interior g c.
Proof.
  apply Bool.eq_iff_eq_true. rewrite !interior_spec. split; intros H d Hd; specialize (H d Hd); rewrite mc_nth in * by exact Hd; unfold DomainModel.total in *; destruct (flip d); lia.
Qed.
Lemma mc_shift c v : shift g (mc c) (mv v) = mc (shift g c v).
Proof.
  apply (cell_ext g); [apply shift_len|apply mc_len|]. intros d Hd. rewrite shift_nth, !mc_nth, shift_nth, mv_nth by exact Hd. destruct (flip d); lia.
Qed.
Lemma mc_cell x : cell_of g (mg x) = mc (cell_of g x).
Proof.
  apply (cell_ext g); [apply cell_of_len|apply mc_len|]. intros d Hd. rewrite cell_of_nth, mg_nth, mc_nth, cell_of_nth by exact Hd. unfold DomainModel.total. destruct (flip d); lia.
Qed.
Lemma cell_mg_mg x : cell_of g (mg (mg x)) = cell_of g x.
Proof. apply (cell_ext g); try apply cell_of_len. intros d Hd. rewrite !cell_of_nth, !mg_nth by exact Hd. destruct (flip d); lia. Qed.
Lemma mg_in x : cell_in g x -> cell_in g (mg x).
Proof. intros [H1 H2]. split; [apply mg_len|]. intros d Hd. specialize (H2 d Hd). rewrite mg_nth by exact Hd. destruct (flip d); lia. Qed.
Hypothesis W : wf_grid g.
Lemma wrapg_mc c : wrapg g (mc c) = mg (wrapg g c).
Proof using W.
  apply (cell_ext g); [apply wrapg_len|apply mg_len|]. intros d Hd. rewrite wrapg_nth, mc_nth, mg_nth, wrapg_nth by exact Hd. destruct (flip d); [|reflexivity].
  pose proof (wf_n g W d Hd) as N. unfold DomainModel.total. set (N0 := (g_n g)@d) in *. set (h := (g_h g)@d). set (z := c@d).
  pose proof (Z.div_mod (z - h) N0 ltac:(lia)) as DM. pose proof (Z.mod_pos_bound (z - h) N0 N) as MB.
  symmetry. apply (Z.mod_unique _ _ (- ((z - h) / N0))); [left; lia|]. nia.
Qed.
Lemma point_mc c : Forall2 Qeq (point g (mc c)) (mp (point g c)).
Proof using.
  unfold point at 1. unfold mp. assert (X : forall ds, (forall d, In d ds -> (d < dim g)%nat) ->
    Forall2 Qeq (map (fun d => ((g_x0 g)@@d + g_dx g * inject_Z (mc c)@d)%Q) ds)
      (map (fun d => if flip d then (2 * (g_x0 g)@@d + g_dx g * inject_Z (DomainModel.total g d - 1) - (point g c)@@d)%Q else (point g c)@@d) ds)).
  { induction ds as [|d ds IH]; intros H; [constructor|]. cbn [map]. constructor; [|apply IH; intros; apply H; now right].
    pose proof (H d (or_introl eq_refl)) as Hd. rewrite mc_nth, point_nth by exact Hd. destruct (flip d); [|reflexivity].
    unfold Z.sub. rewrite !inject_Z_plus, !inject_Z_opp. ring. }
  apply X. intros d Hd. now apply axes_in.
Qed.
Lemma mv_opp v : mv (map Z.opp v) = map Z.opp (mv v).
Proof using.
  apply (cell_ext g); [apply mv_len|now rewrite map_length, mv_len|]. intros d Hd. rewrite nth_opp, !mv_nth, nth_opp by exact Hd. destruct (flip d); lia.
Qed.
Lemma mv_zero v : vzero g (mv v) = vzero g v.
Proof using. apply Bool.eq_iff_eq_true. rewrite !vzero_spec. split; intros H d Hd; specialize (H d Hd); rewrite mv_nth in * by exact Hd; destruct (flip d); lia. Qed.

(* ---- the domain ---- *)
(* both sides of the reflected axes have the same label *)
Definition same_sides : Prop := forall d, (d < dim g)%nat -> flip d = true -> (g_lab g)@(2 * d) = (g_lab g)@(2 * d + 1).
(* the element is its own mirror image, seen from the cells *)
Definition mirror_elem (e : DomainModel.elem) : Prop := forall c, interior g c = true -> e_in e (point g (mc c)) = e_in e (point g c) /\ forall v, In v (g_vel g) ->
  e_alpha e (point g (mc c)) (displacement g (mv v)) = e_alpha e (point g c) (displacement g v) /\
  e_border e (point g (mc c)) (displacement g (mv v)) = e_border e (point g c) (displacement g v).
Hypothesis HS : same_sides.
Definition same_link (l l' : link) : Prop := l_dist l = l_dist l' /\ l_flag l = l_flag l'.
Lemma axis_mirror c v d l l' : (d < dim g)%nat -> interior g c = true -> same_link l l' -> same_link (axis_step g (mc c) (mv v) d l) (axis_step g c v d l').
Proof using HS.
  intros Hd Hi [L1 L2]. specialize (HS d Hd).
  assert (G1 : gap g (mc c) (toright (mv v) d) d = gap g c (toright v d) d \/ v@d = 0).
  { unfold gap, toright. rewrite mc_nth, mv_nth by exact Hd. unfold DomainModel.total. destruct (flip d); [|left; destruct (0 <? v@d); reflexivity].
    destruct (Z.ltb_spec 0 (- v@d)), (Z.ltb_spec 0 v@d); lia. }
  assert (G2 : exits g (mv v) d = exits g v d).
  { unfold exits. rewrite mv_nth by exact Hd. destruct (flip d); [|reflexivity]. rewrite (HS eq_refl).
    destruct (Z.ltb_spec (- v@d) 0), (Z.ltb_spec 0 (- v@d)), (Z.ltb_spec 0 v@d), (Z.ltb_spec v@d 0); try lia; cbn [andb orb]; rewrite ?orb_false_r; reflexivity. }
  assert (G3 : exits g v d = true -> v@d <> 0).
  { unfold exits. intros H C. rewrite C in H. discriminate. }
  assert (G4 : Z.abs (mv v)@d = Z.abs v@d) by (rewrite mv_nth by exact Hd; destruct (flip d); [apply Z.abs_opp|reflexivity]).
  unfold axis_step, crosses. rewrite G2, G4. destruct (exits g v d) eqn:Ex; cbn [andb]; [|now split]. destruct G1 as [G1|G1]; [|destruct (G3 eq_refl G1)].
  rewrite G1. destruct (gap g c (toright v d) d <? Z.abs v@d); [|now split].
  assert (ET : T g (mc c) (mv v) d = T g c v d) by (unfold T, dvik; now rewrite G1, G4).
  assert (EL : wall_label g (mv v) d = wall_label g v d).
  { unfold wall_label, toright. rewrite mv_nth by exact Hd. destruct (flip d); [|reflexivity]. pose proof (HS eq_refl) as Q. specialize (G3 eq_refl).
    destruct (Z.ltb_spec 0 (- v@d)), (Z.ltb_spec 0 v@d); try lia; congruence. }
  rewrite ET, EL. unfold improve. rewrite L1. destruct (Qltb _ _); [split; reflexivity|now split].
Qed.
Lemma init_mirror k k' v c : nth_error (g_vel g) k = Some v -> nth_error (g_vel g) k' = Some (mv v) -> interior g c = true ->
  same_link (init_links g k' (mc c)) (init_links g k c).
Proof using HS.
  intros Hk Hk' Hc. rewrite (init_links_cell g k c v Hc Hk), (init_links_cell g k' (mc c) (mv v)) by (try assumption; now rewrite mc_interior).
  assert (X : forall l0 l l', (forall d, In d l0 -> (d < dim g)%nat) -> same_link l l' ->
    same_link (fold_left (fun l d => axis_step g (mc c) (mv v) d l) l0 l) (fold_left (fun l d => axis_step g c v d l) l0 l')).
  { induction l0 as [|d l0 IH]; intros l l' H HL; [exact HL|]. cbn [fold_left]. apply IH; [intros; apply H; now right|]. apply axis_mirror; [apply H; now left|exact Hc|exact HL]. }
  apply X; [intros d Hd; now apply axes_in|split; reflexivity].
Qed.
Record minv (Dm : dom) : Prop := {
  n_ioo : forall c, interior g c = true -> d_ioo Dm (mc c) = d_ioo Dm c;
  n_out : forall c, interior g c = false -> d_ioo Dm c = false;
  n_link : forall k k' v c, nth_error (g_vel g) k = Some v -> nth_error (g_vel g) k' = Some (mv v) -> interior g c = true -> same_link (d_link Dm k' (mc c)) (d_link Dm k c)
}.
Lemma minv_step labs e Dm D' : obstacle g labs e -> mirror_elem e -> minv Dm -> add_elem g e Dm = Some D' -> minv D'.
Proof using W HS.
  intros [Es Eb Ed Er Eo] HM [I1 I2 I3] HD.
  assert (J2 : forall c, interior g c = false -> d_ioo D' c = false).
  { intros c Hc. apply (solid_out g [e] Dm D'); [intros e' [<-|[]]; exact Es|exact I2|cbn [add_elems]; now rewrite HD|exact Hc]. }
  assert (J1 : forall c, interior g c = true -> d_ioo D' (mc c) = d_ioo D' c).
  { intros c Hc. assert (Hmc : interior g (mc c) = true) by now rewrite mc_interior.
    rewrite !(solid_ioo g W e Eb Dm D') by (try assumption; now apply interior_nonneg). rewrite Hmc, Hc, (I1 c Hc). cbn [andb].
    now rewrite (proj1 (HM c Hc)). }
  split; try assumption. intros k k' v c Hk Hk' Hc. pose proof (nth_error_In _ _ Hk) as Hv. destruct (HM c Hc) as [M1 M']. destruct (M' v Hv) as [M2 M3].
  assert (Hmc : interior g (mc c) = true) by now rewrite mc_interior.
  destruct (vzero g v) eqn:Hz.
  { rewrite (zero_link g e Dm D' k v _ HD Hk Hz), (zero_link g e Dm D' k' (mv v) _ HD Hk') by (now rewrite mv_zero). now apply (I3 k k' v). }
  rewrite (solid_link g W e Eb Ed Dm D' k v c Es HD Hk Hz Hc), (solid_link g W e Eb Ed Dm D' k' (mv v) (mc c) Es HD Hk') by (try assumption; now rewrite mv_zero).
  assert (Hout : d_ioo D' (shift g (mc c) (mv v)) = d_ioo D' (shift g c v)).
  { rewrite mc_shift. destruct (interior g (shift g c v)) eqn:Hs; [now apply J1|]. rewrite !J2; [reflexivity|exact Hs|now rewrite mc_interior]. }
  rewrite Hout. destruct (I3 k k' v c Hk Hk' Hc) as [L1 L2]. unfold solid_step. rewrite M1, M2, L1.
  destruct (e_in e (point g c)); [split; reflexivity|]. destruct (_ && _ && _); [split; [reflexivity|exact M3]|now split].
Qed.
Lemma mirror_domain labs es Dm : (forall e, In e es -> obstacle g labs e) -> (forall e, In e es -> mirror_elem e) -> domain_init g es = Some Dm -> minv Dm.
Proof using W HS.
  intros HO HM HD. unfold domain_init, add_init in HD. destruct (rows_exist g); [|discriminate]. destruct (add_elems g es _) as [D'|] eqn:EA; [|discriminate]. injection HD as <-.
  assert (I0 : minv (mkDom (interior g) (init_links g))).
  { split; cbn [d_ioo d_link]; [intros c _; apply mc_interior|auto|]. intros k k' v c. apply init_mirror. }
  revert EA I0. generalize (mkDom (interior g) (init_links g)). induction es as [|e es IH]; intros D0 EA I0; cbn [add_elems] in EA.
  - injection EA as ->. destruct I0 as [I1 I2 I3]. split; cbn [clean d_ioo d_link]; try assumption. cbv zeta. intros k k' v c Hk Hk' Hc.
    destruct (I3 k k' v c Hk Hk' Hc) as [L1 L2]. rewrite L1, (I1 c Hc). destruct (_ && _); [split; reflexivity|now split].
  - destruct (add_elem g e D0) as [D1|] eqn:E1; [|discriminate]. refine (IH _ _ D1 EA _); [intros; apply HO; now right|intros; apply HM; now right|].
    apply (minv_step labs e D0 D1); [apply HO; now left|apply HM; now left|exact I0|exact E1].
Qed.
End Reflect.

(* ------------------------------------------------- simulations ------------- *)
Section Mirror.
Variables (dimz : Z) (schemes : list (list Z)) (st : stencil) (r : list Z) (g : grid) (es : list DomainModel.elem) (labs : list Z) (conds : Z -> list (nat * method)).
Variables (Dm : dom) (ms : list (method * list blink)).
Hypothesis E : serial dimz schemes st r g es labs conds Dm ms.
Variables (K : ring) (qk : Q -> K).
Add Ring Kring : (rth K).
Variable inv : nat -> mat K -> option (mat K).
Variable simp : term K -> term K.
Variables (dm : nat) (hdt : K) (ds : list (sdict K)) (a : salgo K).
Hypothesis HI : inv_spec K inv.
Hypothesis HSi : simp_spec K simp.
Hypothesis D : dict_ok K simp ds.
Hypothesis O : ordered K simp ds.
Hypothesis EB : build K inv simp None dm hdt ds = Some a.
Hypothesis HPl : forall d t, In d ds -> In t (sd_P K d) -> below K dm t.
Hypothesis Hsz : map (nv K) ds = map (@length Z) schemes.
Hypothesis HQ : quiet st r g ms.
Notation n := (SchemeModel.total (sizes K ds)).
Notation data := (list (ikey * (list Q -> K))).
Notation walls := (nat -> Z -> list Q -> nat -> K).
Notation arrive := (arrives st r g ms K qk).
Notation hist := (history st r g ms K qk simp hdt ds).
Notation sim := (simulates st r g es labs conds K qk inv simp ds a).
Notation at_cell x := (point g (cell_of g x)).

Variable flip : nat -> bool.
Variable mir : nat -> nat.
Notation mv := (mv g flip).
Notation mc := (mc g flip).
Notation mg := (mg g flip).
Notation mp := (mp g flip).
(* mir k is the number, in the same scheme, of the mirror image of the velocity k *)
Record mirrors : Prop := {
  mi_scheme : forall s vs i v, nth_error (sv st) s = Some vs -> nth_error vs i = Some v ->
    exists i' v', nth_error vs i' = Some v' /\ vel_list v' = mv (vel_list v) /\ mir (row st s i) = row st s i';
  mi_inv : forall k, (k < n)%nat -> mir (mir k) = k;
  mi_sym : forall k, (k < n)%nat -> symk r (mir k) = mir (symk r k);
  mi_side : same_sides g flip;
  mi_elem : forall e, In e es -> mirror_elem g flip e
}.
Hypothesis HM : mirrors.
Lemma n_size : n = length (concat schemes).
Proof using HI D EB Hsz.
  pose proof (whole_na schemes K inv simp dm hdt ds a HI D EB Hsz) as N1. now rewrite (whole_size K inv simp dm hdt ds a HI D EB) in N1.
Qed.
Lemma mir_vel k : (k < n)%nat -> (mir k < n)%nat /\ velk st (mir k) = mv (velk st k).
Proof using E HI D EB Hsz HM.
  intros Hk. rewrite n_size in *. destruct (VesselProofs.row_of dimz schemes st r g Dm conds _ ms (serial_setting _ _ _ _ _ _ _ _ _ _ E) k Hk) as (s & vs & i & v & Hs & Hi & -> & _).
  destruct (mi_scheme HM s vs i v Hs Hi) as (i' & v' & Hi' & Ev & ->). split; [|now rewrite (row_velk st s vs i' v' Hs Hi'), (row_velk st s vs i v Hs Hi)].
  pose proof (build_facts dimz schemes st (e_nn _ _ _ _ _ _ _ _ _ _ E) (e_build _ _ _ _ _ _ _ _ _ _ E)) as BF.
  assert (L : length (concat (sv st)) = length (concat schemes)) by (rewrite <- (b_v _ _ _ BF), <- concat_map, map_length; reflexivity). rewrite <- L.
  unfold row. clear - Hs Hi'. revert s Hs. induction (sv st) as [|ws l IH]; intros [|s] Hs; cbn in Hs; try discriminate.
  - injection Hs as ->. cbn. rewrite app_length. assert (i' < length vs)%nat by (apply nth_error_Some; congruence). lia.
  - cbn [firstn concat]. rewrite !app_length. specialize (IH s Hs). lia.
Qed.
Lemma link_mirror m b : has ms m b -> exists b', has ms m b' /\ (b_k b < n)%nat /\ length (b_cell b) = dim g /\ b_k b' = mir (b_k b) /\ b_cell b' = mc (b_cell b) /\ b_lab b' = b_lab b /\ b_dist b' = b_dist b.
Proof using E HI D EB Hsz HM.
  pose proof (serial_setting _ _ _ _ _ _ _ _ _ _ E) as SS. pose proof (e_wf _ _ _ _ _ _ _ _ _ _ E) as W.
  pose proof (boundary_links dimz schemes st (e_nn _ _ _ _ _ _ _ _ _ _ E) (e_build _ _ _ _ _ _ _ _ _ _ E) g Dm conds _ ms (e_bound _ _ _ _ _ _ _ _ _ _ E)) as BL.
  intros Hb. apply BL in Hb. destruct Hb as (lab & s & vs & i & v & num & w & x & Hlab & N1 & N2 & Hc & Hs & Hi & Hw & Ew & Hx & Hf & ->). cbn [b_k b_cell b_lab b_dist].
  pose proof (build_facts dimz schemes st (e_nn _ _ _ _ _ _ _ _ _ _ E) (e_build _ _ _ _ _ _ _ _ _ _ E)) as BF.
  assert (Hk : (row st s i < n)%nat).
  { rewrite n_size. assert (L : length (concat (sv st)) = length (concat schemes)) by (rewrite <- (b_v _ _ _ BF), <- concat_map, map_length; reflexivity). rewrite <- L.
    unfold row. clear - Hs Hi. revert s Hs. induction (sv st) as [|ws l IH]; intros [|s] Hs; cbn in Hs; try discriminate.
    - injection Hs as ->. cbn. rewrite app_length. assert (i < length vs)%nat by (apply nth_error_Some; congruence). lia.
    - cbn [firstn concat]. rewrite !app_length. specialize (IH s Hs). lia. }
  destruct (mi_scheme HM s vs i v Hs Hi) as (i' & v' & Hi' & Ev & Em).
  (* the opposite of the image *)
  assert (OV : exists num' w', nth_error (sunique st) num' = Some w' /\ vel_list w' = map Z.opp (vel_list v')).
  { destruct (C07_lemma dimz schemes st None (e_nn _ _ _ _ _ _ _ _ _ _ E) (e_build _ _ _ _ _ _ _ _ _ _ E) ltac:(intros; discriminate)) as [_ T].
    destruct (T r (e_sym _ _ _ _ _ _ _ _ _ _ E)) as (_ & T2 & _). destruct (T2 s i' vs v' Hs Hi') as (j & u & Hj & Eu & _).
    assert (Hu : In u (sunique st)) by (eapply (b_vin _ _ _ BF); eapply nth_error_In; eauto). apply In_nth_error in Hu. destruct Hu as [num' Hn'].
    exists num', u. split; [exact Hn'|]. change (vel_list u) with (vcoords u). rewrite Eu. apply sym_coords_opp. }
  destruct OV as (num' & w' & Hw' & Ew').
  assert (Eww : vel_list w' = mv (vel_list w)) by (rewrite Ew', Ew, Ev; symmetry; apply mv_opp).
  assert (Gn : nth_error (g_vel g) num = Some (vel_list w)) by (rewrite (e_vel _ _ _ _ _ _ _ _ _ _ E); now apply map_nth_error).
  assert (Gn' : nth_error (g_vel g) num' = Some (mv (vel_list w))) by (rewrite (e_vel _ _ _ _ _ _ _ _ _ _ E), <- Eww; now apply map_nth_error).
  apply array_cells_in in Hx. destruct Hx as [Lx Bx].
  assert (Hint : interior g x = true).
  { destruct (interior g x) eqn:Hn; [reflexivity|]. exfalso.
    assert (Ho : d_ioo Dm x = false) by (apply (solid_out_init g es Dm); [intros e He; exact (o_solid _ _ _ (e_obst _ _ _ _ _ _ _ _ _ _ E e He))|exact (e_dom _ _ _ _ _ _ _ _ _ _ E)|exact Hn]).
    destruct (C15_no_link_outside g es Dm (e_dom _ _ _ _ _ _ _ _ _ _ E) x Ho num) as (_ & C & _). rewrite C in Hf. apply (s_val _ _ _ _ _ _ _ _ _ SS). now rewrite Hf. }
  destruct (mirror_domain g flip W (mi_side HM) labs es Dm (e_obst _ _ _ _ _ _ _ _ _ _ E) (mi_elem HM) (e_dom _ _ _ _ _ _ _ _ _ _ E)) as [_ _ I3].
  destruct (I3 num num' (vel_list w) x Gn Gn' Hint) as [L1 L2].
  exists (mkB (row st s i') (shift g (mc x) (vel_list w')) lab (l_dist (d_link Dm num' (mc x))) (l_norm (d_link Dm num' (mc x)))). cbn [b_k b_cell b_lab b_dist].
  split; [apply BL; exists lab, s, vs, i', v', num', w', (mc x)|].
  - repeat (split; [assumption|]). split; [|split; [now rewrite L2|reflexivity]]. apply array_cells_in. split; [apply mc_len|]. intros d Hd. rewrite mc_nth by exact Hd. specialize (Bx d Hd). destruct (flip d); lia.
  - split; [exact Hk|]. split; [apply shift_len|]. split; [now rewrite Em|]. split; [now rewrite Eww, mc_shift|]. now split.
Qed.

(* ---- what arrives ---- *)
Lemma mir_lt k : (k < n)%nat -> (mir k < n)%nat.
Proof using E HI D EB Hsz HM. intros Hk. apply (mir_vel k Hk). Qed.
Lemma wall_mirror b b' : (b_k b < n)%nat -> b_k b' = mir (b_k b) -> b_cell b' = mc (b_cell b) -> b_dist b' = b_dist b -> Forall2 Qeq (wall_point st g b') (mp (wall_point st g b)).
Proof using E HI D EB Hsz HM.
  intros Hk E1 E2 E3. unfold wall_point at 1, MirrorProps.mp. assert (X : forall l, (forall d, In d l -> (d < dim g)%nat) -> Forall2 Qeq (map (bcoord st g b') l)
    (map (fun d => if flip d then (2 * (g_x0 g)@@d + g_dx g * inject_Z (DomainModel.total g d - 1) - (wall_point st g b)@@d)%Q else (wall_point st g b)@@d) l)).
  { induction l as [|d l IH]; intros H; [constructor|]. cbn [map]. constructor; [|apply IH; intros; apply H; now right]. pose proof (H d (or_introl eq_refl)) as Hd.
    unfold wall_point. rewrite nth_axes_q by exact Hd. unfold bcoord. change (nth (b_k b') (get_all_velocities st) []) with (velk st (b_k b')). change (nth (b_k b) (get_all_velocities st) []) with (velk st (b_k b)).
    rewrite E1, E2, E3, (proj2 (mir_vel _ Hk)), !point_nth, mc_nth, mv_nth by exact Hd. destruct (flip d); [|reflexivity].
    unfold Z.sub. rewrite !inject_Z_plus, !inject_Z_opp. ring. }
  apply X. intros d Hd. now apply axes_in.
Qed.
(* the field and the walls seen in the mirror *)
Definition mfield (G : list Z -> vec K) : list Z -> vec K := fun x k => G (mg x) (mir k).
Definition mwalls (phi phi' : Z -> list Q -> nat -> K) : Prop := forall lab x k, (k < n)%nat -> phi' lab (mp x) (mir k) = phi lab x k.
Lemma load_mirror G k c : (k < n)%nat -> at_ K (gfield g K (mfield G)) (mir k, mc c) = at_ K (gfield g K G) (k, c).
Proof using E HM.
  intros Hk. unfold at_, gfield, mfield. cbn [fst snd]. rewrite (wrapg_mc g flip (e_wf _ _ _ _ _ _ _ _ _ _ E)), mg_mg by apply wrapg_len. now rewrite (mi_inv HM k Hk).
Qed.
Lemma bvalue_mirror phi phi' G m b b' : ParallelProps.regular phi' -> mwalls phi phi' -> (b_k b < n)%nat -> b_k b' = mir (b_k b) -> b_cell b' = mc (b_cell b) -> b_lab b' = b_lab b -> b_dist b' = b_dist b ->
  bvalue K qk g (velk st) (symk r) (feq_of st phi' g) m (gfield g K (mfield G)) b' = bvalue K qk g (velk st) (symk r) (feq_of st phi g) m (gfield g K G) b.
Proof using E HI D EB Hsz HM.
  intros HR HW Hk E1 E2 E3 E4. assert (Hs : (symk r (b_k b) < n)%nat) by (eapply sym_lt; eassumption).
  assert (Es : symk r (b_k b') = mir (symk r (b_k b))) by (rewrite E1; now apply (mi_sym HM)).
  assert (Ev : velk st (b_k b') = mv (velk st (b_k b))) by (rewrite E1; now apply mir_vel).
  assert (F : forall k, (k < n)%nat -> feq_of st phi' g b' (mir k) = feq_of st phi g b k).
  { intros k Hk'. unfold feq_of. rewrite E3, (HR (b_lab b) _ _ (mir k) (wall_mirror b b' Hk E1 E2 E4)). now apply HW. }
  assert (A1 : ahead g (velk st) b' = mc (ahead g (velk st) b)) by (unfold ahead; rewrite E2, Ev; apply mc_shift).
  assert (A2 : ahead2 g (velk st) b' = mc (ahead2 g (velk st) b)).
  { unfold ahead2. rewrite E2, Ev, <- mc_shift. apply (cell_ext g); try apply shift_len. intros d Hd. rewrite !shift_nth, mv_nth, !nth_times, mv_nth by exact Hd. destruct (flip d); lia. }
  assert (A3 : forall ax, ahead_axis g (velk st) ax b' = mc (ahead_axis g (velk st) ax b)).
  { intros ax. unfold ahead_axis. rewrite E2, Ev, <- mc_shift. apply (cell_ext g); try apply shift_len. intros d Hd. rewrite !shift_nth, mv_nth, !nth_axes, mv_nth by exact Hd.
    destruct (flip d), (Nat.eqb d ax); lia. }
  unfold bvalue. cbv zeta. destruct m; unfold iload0, iload1, rhs, near; rewrite ?Es, ?E1, ?E4, ?A1, ?A2, ?A3, ?F, ?load_mirror by assumption; try reflexivity;
    destruct (Qltb _ _); rewrite load_mirror by assumption; reflexivity.
Qed.
Lemma arrives_mirror phi phi' G x j v : ParallelProps.regular phi' -> mwalls phi phi' -> (j < n)%nat -> arrive phi G (mg x) (mir j) v -> arrive phi' (mfield G) x j v.
Proof using E HI D EB Hsz HM.
  intros HR HW Hj. pose proof (mir_lt j Hj) as Hj'. set (y := before st g (mir j) (cell_of g (mg x))).
  assert (Ey : before st g j (cell_of g x) = mc y).
  { unfold y, before. rewrite <- mc_shift, <- mc_cell, cell_mg_mg, mv_opp. f_equal. f_equal. rewrite <- (mi_inv HM j Hj) at 1. now apply mir_vel. }
  assert (Ly : length y = dim g) by apply shift_len.
  intros [(m & b & H1 & H2 & H3 & ->)|[H1 ->]]; unfold arrives; cbv zeta; rewrite Ey.
  - left. destruct (link_mirror m b H1) as (b' & B1 & B2 & B3 & B4 & B5 & B6 & B7). exists m, b'. split; [exact B1|]. split; [rewrite B4, H2; now apply (mi_inv HM)|]. split; [now rewrite B5, H3|].
    symmetry. now apply bvalue_mirror.
  - right. split.
    + intros m b Hb [C1 C2]. destruct (link_mirror m b Hb) as (b' & B1 & B2 & B3 & B4 & B5 & _). apply (H1 m b' B1). split; [now rewrite B4, C1|]. change (b_cell b' = y). rewrite B5, C2. now apply mc_mc.
    + unfold mfield. rewrite (wrapg_mc g flip (e_wf _ _ _ _ _ _ _ _ _ _ E)), mg_mg by apply wrapg_len. reflexivity.
Qed.

(* ---- the dictionary ---- *)
(* ec c and ep b i: 1 for a moment which is even under the reflection, -1 for an odd one *)
Variable ec : nat -> K.
Variable ep : nat -> nat -> K.
Definition signed (val : vec K) : vec K := fun c => (ec c * val c)%K.
Record mirror_dict : Prop := {
  md_mom : forall f b i d, nth_error ds b = Some d -> (i < nv K d)%nat -> mom K ds (fun k => f (mir k)) b i = (ep b i * mom K ds f b i)%K;
  md_cons : forall c b i, is_moment K simp ds c b i -> ep b i = ec c;
  md_eq : forall b i d val, nth_error ds b = Some d -> (i < nv K d)%nat -> eqv K d i (signed val) = (ep b i * eqv K d i val)%K;
  md_s : forall b i d val, nth_error ds b = Some d -> (i < nv K d)%nat -> teval K (signed val) (nth i (sd_s K d) (Num 0%K)) = teval K val (nth i (sd_s K d) (Num 0%K));
  md_src : forall c gt val, In c (conserved K ds) -> BuildProofs.source K ds c = Some gt -> teval K (signed val) gt = (ec c * teval K val gt)%K
}.
Hypothesis HD : mirror_dict.
Lemma mom_in c b i : is_moment K simp ds c b i -> exists d, nth_error ds b = Some d /\ (i < nv K d)%nat.
Proof using.
  intros (d & H1 & _ & H3 & _). now exists d.
Qed.
Lemma half_signed u : forall c, half K hdt ds (signed u) c = signed (half K hdt ds u) c.
Proof using HD.
  unfold half. assert (X : forall l u w, incl l (conserved K ds) -> (forall c, w c = signed u c) -> forall c,
    fold_left (fun val c => match BuildProofs.source K ds c with Some g => fun c' => if Nat.eqb c' c then (val c + hdt * teval K val g)%K else val c' | None => val end) l w c =
    signed (fold_left (fun val c => match BuildProofs.source K ds c with Some g => fun c' => if Nat.eqb c' c then (val c + hdt * teval K val g)%K else val c' | None => val end) l u) c).
  { induction l as [|c0 l IH]; intros u0 w Hl H; [exact H|]. cbn [fold_left]. apply IH; [intros z Hz; apply Hl; now right|].
    destruct (BuildProofs.source K ds c0) as [gt|] eqn:Es; [|exact H]. intros c. unfold signed at 1. cbv beta.
    rewrite (teval_ext K w (signed u0) gt) by (intros; apply H). rewrite (md_src HD c0 gt u0 (Hl c0 (or_introl eq_refl)) Es), !H. unfold signed.
    destruct (Nat.eqb_spec c c0) as [->|_]; ring. }
  apply X; [intros z Hz; exact Hz|reflexivity].
Qed.
Lemma step_mirror f f' : collided K simp hdt ds f f' -> collided K simp hdt ds (fun k => f (mir k)) (fun k => f' (mir k)).
Proof using HI D O EB HSi HD.
  intros Hf. destruct (values_ex K simp hdt ds D O inv None dm a HI EB f) as [u Hu]. destruct (Hf u Hu) as [F1 F2].
  assert (HV : conserved_values K simp ds (fun k => f (mir k)) (signed u)).
  { intros c b i Hm. destruct (mom_in c b i Hm) as (d & Hd & Hi). rewrite (md_mom HD f b i d Hd Hi), (md_cons HD c b i Hm). unfold signed. now rewrite (Hu c b i Hm). }
  assert (S1 : same_on K ds (half K hdt ds (signed u)) (signed (half K hdt ds u))) by (intros c _; apply half_signed).
  apply (collided_one K simp hdt ds HSi D inv None dm a HI EB _ _ _ HV).
  - intros c b i Hm. destruct (mom_in c b i Hm) as (d & Hd & Hi). rewrite (md_mom HD f' b i d Hd Hi), (md_cons HD c b i Hm), (F1 c b i Hm).
    rewrite (half_same K simp hdt ds D _ _ S1 c (moment_in K simp ds c b i Hm)). rewrite half_signed. reflexivity.
  - intros b i d Hb Hi Hn s. pose proof (nth_error_In _ _ Hb) as Hd. rewrite (md_mom HD f b i d Hb Hi), (md_mom HD f' b i d Hb Hi), (F2 b i d Hb Hi Hn).
    rewrite (closed_eqv K simp ds HSi D d i _ _ Hd Hi S1), (md_eq HD b i d _ Hb Hi). unfold s.
    rewrite (closed_rate K simp ds D d i _ _ Hd S1), (md_s HD b i d _ Hb Hi). ring.
Qed.
Lemma history_mirror phis phis' G : walls_ok K phis' -> (forall t, mwalls (phis t) (phis' t)) -> hist phis G -> hist phis' (fun t => mfield (G t)).
Proof using E HI HSi D O EB Hsz HM HD.
  intros HR HW H t x. destruct (H t (mg x)) as (f & F1 & F2). exists (fun k => f (mir k)). split; [|now apply step_mirror].
  intros j Hj. apply (arrives_mirror (phis t)); [apply HR|apply HW|exact Hj|apply F1; now apply mir_lt].
Qed.
(* the data of l', seen in the mirror, are the data of l with the signs of the moments *)
Definition mdata (l l' : data) : Prop := forall x rk c v, cell_in g x -> nth_error (conserved K ds) rk = Some c ->
  given_value K ds l rk (at_cell (mg x)) v -> given_value K ds l' rk (at_cell x) (ec c * v)%K.
Lemma initial_mirror l l' x f : mdata l l' -> cell_in g x -> initial_state K simp ds l (at_cell (mg x)) f -> initial_state K simp ds l' (at_cell x) (fun k => f (mir k)).
Proof using HI D O EB HSi HD.
  intros HL Hx [A1 A2]. split.
  - intros rk c b i Hr Hm. destruct (mom_in c b i Hm) as (d & Hd & Hi). rewrite (md_mom HD f b i d Hd Hi), (md_cons HD c b i Hm). apply HL; [exact Hx|exact Hr|now apply (A1 rk c)].
  - intros val Hv b i d Hb Hi. destruct (values_ex K simp hdt ds D O inv None dm a HI EB f) as [u Hu].
    assert (HV : conserved_values K simp ds (fun k => f (mir k)) (signed u)).
    { intros c b' i' Hm. destruct (mom_in c b' i' Hm) as (d' & Hd' & Hi'). rewrite (md_mom HD f b' i' d' Hd' Hi'), (md_cons HD c b' i' Hm). unfold signed. now rewrite (Hu c b' i' Hm). }
    rewrite (closed_eqv K simp ds HSi D d i val (signed u) (nth_error_In _ _ Hb) Hi (values_same K simp hdt ds D inv None dm a HI EB _ _ _ Hv HV)).
    rewrite (md_eq HD b i d u Hb Hi), (md_mom HD f b i d Hb Hi). f_equal. now apply A2.
Qed.

(* The simulation of the mirrored data is the mirror image of the simulation. *)
Theorem C89_mirror l l' phis phis' : data_ok K ds l -> data_ok K ds l' -> walls_ok K phis -> walls_ok K phis' -> mdata l l' -> (forall t, mwalls (phis t) (phis' t)) ->
  exists G, sim l phis G /\ sim l' phis' (fun t x k => G t (mg x) (mir k)).
Proof using E HI HSi D O EB HPl Hsz HQ HM HD.
  intros Hl Hl' Hp Hp' HL HW.
  destruct (flow dimz schemes st r g es labs conds Dm ms E K qk inv simp dm hdt ds a HI HSi D O EB HPl Hsz HQ l phis Hl Hp) as (G & G0 & GH & GS).
  exists G. split; [exact GS|].
  apply (sim_of dimz schemes st r g es labs conds Dm ms E K qk inv simp dm hdt ds a HI HSi D O EB HPl Hsz HQ); try assumption.
  - exact (history_mirror phis phis' G Hp' HW GH).
  - intros x Hx. apply (initial_mirror l l'); [exact HL|exact Hx|]. apply G0. now apply mg_in.
Qed.
(* Data which are their own mirror image give symmetric moments at every time. *)
Theorem C89_symmetric l phis : data_ok K ds l -> walls_ok K phis -> mdata l l -> (forall t, mwalls (phis t) (phis t)) ->
  exists G, sim l phis G /\ forall t x, cell_in g x ->
    (forall k, (k < n)%nat -> G t (mg x) (mir k) = G t x k) /\
    forall b i d, nth_error ds b = Some d -> (i < nv K d)%nat -> mom K ds (G t (mg x)) b i = (ep b i * mom K ds (G t x) b i)%K.
Proof using E HI HSi D O EB HPl Hsz HQ HM HD.
  intros Hl Hp HL HW.
  destruct (flow dimz schemes st r g es labs conds Dm ms E K qk inv simp dm hdt ds a HI HSi D O EB HPl Hsz HQ l phis Hl Hp) as (G & G0 & GH & GS).
  exists G. split; [exact GS|].
  assert (U : forall t x, cell_in g x -> agree K n (mfield (G t) x) (G t x)).
  { intros t. refine (history_unique dimz schemes st r g es labs conds Dm ms E K qk inv simp dm hdt ds a HI HSi D O EB Hsz phis (fun t => mfield (G t)) G _ GH _ t); [now apply (history_mirror phis)|].
    intros x Hx. apply (C68_determined K simp ds inv None dm hdt a HI D O EB l (at_cell x)); [|now apply G0]. apply (initial_mirror l l); [exact HL|exact Hx|]. apply G0. now apply mg_in. }
  intros t x Hx. split; [intros k Hk; exact (U t x Hx k Hk)|]. intros b i d Hb Hi.
  rewrite <- (md_mom HD (G t x) b i d Hb Hi). apply mom_agree. intros k Hk. rewrite <- (U t x Hx (mir k) (mir_lt k Hk)). unfold mfield. now rewrite (mi_inv HM k Hk).
Qed.
(* An odd moment vanishes in the cells of the mirror. *)
Theorem C89_middle l phis : data_ok K ds l -> walls_ok K phis -> mdata l l -> (forall t, mwalls (phis t) (phis t)) -> (forall z : K, (z + z = 0 -> z = 0)%K) ->
  exists G, sim l phis G /\ forall t x b i d, cell_in g x -> mg x = x -> nth_error ds b = Some d -> (i < nv K d)%nat -> ep b i = (- (1))%K -> mom K ds (G t x) b i = 0%K.
Proof using E HI HSi D O EB HPl Hsz HQ HM HD.
  intros Hl Hp HL HW H2. destruct (C89_symmetric l phis Hl Hp HL HW) as (G & GS & H). exists G. split; [exact GS|]. intros t x b i d Hx Hf Hb Hi He.
  pose proof (proj2 (H t x Hx) b i d Hb Hi) as Q. rewrite Hf, He in Q. apply H2. rewrite Q at 1. ring.
Qed.
End Mirror.
Print Assumptions C89_mirror.
Print Assumptions C89_symmetric.
Print Assumptions C89_middle.

(* ------------------------------------------------- examples *)
(* The diffusion of C87 (velocities 0, 1, -1) on six cells between two walls. *)
Definition mir3 (k : nat) : nat := nth k [0; 2; 1]%nat k.
Definition ec3 (_ : nat) : QcR := Q2Qc 1.
Definition ep3 (_ i : nat) : QcR := if Nat.eqb i 1 then Q2Qc (-1) else Q2Qc 1.
Definition all_axes (_ : nat) : bool := true.
Definition qback (x : list Q) : QcR := qfun (mp v3line all_axes x).
Lemma mirrors3 s1 s2 : mirrors st3 [0; 2; 1] v3line [] QcR [dq s1 s2] all_axes mir3.
Proof.
  split.
  - intros s vs i v Hs Hi. destruct s as [|s]; [|destruct s; discriminate]. vm_compute in Hs. injection Hs as <-. destruct i as [|[|[|i]]]; [| | |destruct i; discriminate]; vm_compute in Hi; injection Hi as <-.
    + exists 0%nat. eexists. repeat split; reflexivity.
    + exists 2%nat. eexists. repeat split; reflexivity.
    + exists 1%nat. eexists. repeat split; reflexivity.
  - intros k Hk. change (k < 3)%nat in Hk. destruct k as [|[|[|k]]]; try lia; reflexivity.
  - intros k Hk. change (k < 3)%nat in Hk. destruct k as [|[|[|k]]]; try lia; reflexivity.
  - intros d Hd _. change (d < 1)%nat in Hd. destruct d; [reflexivity|lia].
  - intros e [].
Qed.
Lemma mirror_dq s1 s2 : mirror_dict QcR qsimp [dq s1 s2] mir3 ec3 ep3.
Proof.
  split.
  - intros f b i d Hb Hi. destruct b as [|[|b]]; try discriminate. injection Hb as <-. change (i < 3)%nat in Hi. destruct i as [|[|[|i]]]; try lia.
    + rewrite !dq_mom0. unfold mir3, ep3. cbn [nth Nat.eqb rmul rar QcR]. apply Qc_is_canon. qc_q. ring.
    + rewrite !dq_mom1. unfold mir3, ep3. cbn [nth Nat.eqb rmul rar QcR]. apply Qc_is_canon. qc_q. ring.
    + rewrite !dq_mom2. unfold mir3, ep3. cbn [nth Nat.eqb rmul rar QcR]. apply Qc_is_canon. qc_q. ring.
  - intros c b i Hm. apply dq_moment in Hm as (-> & -> & ->). reflexivity.
  - intros b i d val Hb Hi. destruct b as [|[|b]]; try discriminate. injection Hb as <-. change (i < 3)%nat in Hi.
    destruct i as [|[|[|i]]]; try lia; unfold eqv, signed, ep3, ec3; cbn [sd_eq dq nth teval qn Nat.eqb rmul rar QcR]; apply Qc_is_canon; qc_q; ring.
  - intros b i d val Hb Hi. destruct b as [|[|b]]; try discriminate. injection Hb as <-. change (i < 3)%nat in Hi. destruct i as [|[|[|i]]]; try lia; reflexivity.
  - intros c gt val Hc Hs. discriminate.
Qed.
Lemma given_q s1 s2 f rk x v : given_value QcR [dq s1 s2] [(ISym 5, f)] rk x v -> rk = 0%nat -> v = f x.
Proof.
  intros [(l1 & k & w & l2 & H1 & _ & _ & ->)|[H _]] ->.
  - destruct l1 as [|p l1]; [|injection H1 as _ H1; destruct l1; discriminate]. injection H1 as <- <- _. reflexivity.
  - destruct (H _ (or_introl eq_refl)). reflexivity.
Qed.
Lemma qfun_reg x y : Forall2 Qeq x y -> qfun x = qfun y.
Proof. intros H. exact (proj1 (qdata_ok 0 0) (ISym 5, qfun) x y (or_introl eq_refl) H). Qed.
Lemma mp_reg g flip x y : Forall2 Qeq x y -> Forall2 Qeq (mp g flip x) (mp g flip y).
Proof.
  intros H. unfold mp. induction (DomainModel.axes g) as [|d l IH]; [constructor|]. cbn [map]. constructor; [|exact IH].
  pose proof (Forall2_nth x y d H) as N. destruct (flip d); [now rewrite N|exact N].
Qed.
Example C89_example : exists a, qbuild (1 # 2) (1 # 3) = Some a /\ exists G,
  simulates st3 [0; 2; 1] v3line [] [] bb QcR Q2Qc (qinv qcands) qsimp [dq (1 # 2) (1 # 3)] a [(ISym 5, qfun)] qphi G /\
  simulates st3 [0; 2; 1] v3line [] [] bb QcR Q2Qc (qinv qcands) qsimp [dq (1 # 2) (1 # 3)] a [(ISym 5, qback)] qphi (fun t x k => G t (mg v3line all_axes x) (mir3 k)) /\
  mg v3line all_axes [1] = [4] /\ qfun [1%Q] <> qback [1%Q].
Proof.
  destruct (built_some (qbuild (1 # 2) (1 # 3))) as [a Ea]; [vm_compute; reflexivity|]. exists a. split; [exact Ea|].
  destruct (C89_mirror 1 [[0; 1; 2]] st3 [0; 2; 1] v3line [] [] bb D3 ms3 serial3 QcR Q2Qc (qinv qcands) qsimp 1 (Q2Qc 0) [dq (1 # 2) (1 # 3)] a (qinv_ok _) qsimp_ok (dq_ok _ _) (dq_ordered _ _) Ea
    (dq_below _ _) eq_refl quiet3 all_axes mir3 (mirrors3 _ _) ec3 ep3 (mirror_dq _ _) [(ISym 5, qfun)] [(ISym 5, qback)] qphi qphi) as (G & G1 & G2).
  - apply qdata_ok.
  - split.
    + intros p x y [<-|[]] H. cbn [snd]. unfold qback. apply qfun_reg. now apply mp_reg.
    + intros p [<-|[]]. exists 0%nat. split; [cbn; lia|reflexivity].
  - exact qphi_ok.
  - exact qphi_ok.
  - intros x rk c v Hx Hr Hv. destruct rk as [|[|rk]]; try discriminate. apply given_q in Hv; [|reflexivity]. subst v. left. exists [], (ISym 5), qback, []. split; [reflexivity|]. split; [reflexivity|]. split; [intros p []|].
    unfold qback, ec3. rewrite mc_cell, (qfun_reg _ _ (point_mc v3line all_axes (cell_of v3line x))). cbn [rmul rar QcR]. apply Qc_is_canon. qc_q. ring.
  - intros t lab x k Hk. reflexivity.
  - exists G. split; [exact G1|]. split; [exact G2|]. split; [reflexivity|]. vm_compute. discriminate.
Qed.

(* symmetric data: 1 in the two outer cells on each side, 0 in the middle; the odd moments of the
   cells 1 and 4 are opposite *)
Definition qsym (x : list Q) : QcR := if Qle_bool (hd 0%Q x + (1 # 2)) 3 || Qle_bool 5 (hd 0%Q x + (1 # 2)) then Q2Qc 1 else Q2Qc 0.
Lemma qsym_reg x y : Forall2 Qeq x y -> qsym x = qsym y.
Proof.
  intros H. unfold qsym. assert (X : (hd 0 x == hd 0 y)%Q) by (inversion H; [reflexivity|assumption]).
  assert (E1 : Qle_bool (hd 0 x + (1 # 2))%Q 3 = Qle_bool (hd 0 y + (1 # 2))%Q 3) by (apply Bool.eq_iff_eq_true; rewrite !Qle_bool_iff; now rewrite X).
  assert (E2 : Qle_bool 5 (hd 0 x + (1 # 2))%Q = Qle_bool 5 (hd 0 y + (1 # 2))%Q) by (apply Bool.eq_iff_eq_true; rewrite !Qle_bool_iff; now rewrite X).
  now rewrite E1, E2.
Qed.
Example C89_symmetric_example : exists a, qbuild (1 # 2) (1 # 3) = Some a /\ exists G,
  simulates st3 [0; 2; 1] v3line [] [] bb QcR Q2Qc (qinv qcands) qsimp [dq (1 # 2) (1 # 3)] a [(ISym 5, qsym)] qphi G /\
  forall t, mom QcR [dq (1 # 2) (1 # 3)] (G t [4%Z]) 0 1 = (- mom QcR [dq (1 # 2) (1 # 3)] (G t [1%Z]) 0 1)%Qc /\
            mom QcR [dq (1 # 2) (1 # 3)] (G t [4%Z]) 0 0 = mom QcR [dq (1 # 2) (1 # 3)] (G t [1%Z]) 0 0.
Proof.
  destruct (built_some (qbuild (1 # 2) (1 # 3))) as [a Ea]; [vm_compute; reflexivity|]. exists a. split; [exact Ea|].
  destruct (C89_symmetric 1 [[0; 1; 2]] st3 [0; 2; 1] v3line [] [] bb D3 ms3 serial3 QcR Q2Qc (qinv qcands) qsimp 1 (Q2Qc 0) [dq (1 # 2) (1 # 3)] a (qinv_ok _) qsimp_ok (dq_ok _ _) (dq_ordered _ _) Ea
    (dq_below _ _) eq_refl quiet3 all_axes mir3 (mirrors3 _ _) ec3 ep3 (mirror_dq _ _) [(ISym 5, qsym)] qphi) as (G & G1 & G2).
  - split.
    + intros p x y [<-|[]] H. cbn [snd]. now apply qsym_reg.
    + intros p [<-|[]]. exists 0%nat. split; [cbn; lia|reflexivity].
  - exact qphi_ok.
  - intros x rk c v [Lx Cx] Hr Hv. destruct rk as [|[|rk]]; try discriminate. apply given_q in Hv; [|reflexivity]. subst v. left. exists [], (ISym 5), qsym, []. split; [reflexivity|]. split; [reflexivity|]. split; [intros p []|].
    specialize (Cx 0%nat ltac:(cbn; lia)). change ((g_n v3line)@0) with 6 in Cx. destruct x as [|x0 [|? ?]]; try discriminate. cbn [nth] in Cx.
    assert (C : x0 = 0 \/ x0 = 1 \/ x0 = 2 \/ x0 = 3 \/ x0 = 4 \/ x0 = 5) by lia. destruct C as [-> |[-> |[-> |[-> |[-> | ->]]]]]; apply Qc_is_canon; vm_compute; reflexivity.
  - intros t lab x k Hk. reflexivity.
  - exists G. split; [exact G1|]. intros t. assert (H1 : cell_in v3line [1]) by (split; [reflexivity|]; intros d Hd; change (d < 1)%nat in Hd; destruct d; [cbn|]; lia).
    destruct (G2 t [1] H1) as [_ M]. split.
    + transitivity (ep3 0%nat 1%nat * mom QcR [dq (1 # 2) (1 # 3)] (G t [1%Z]) 0 1)%Qc; [exact (M 0%nat 1%nat _ eq_refl ltac:(cbn; lia))|]. unfold ep3. cbn [Nat.eqb]. apply Qc_is_canon. qc_q. ring.
    + transitivity (ep3 0%nat 0%nat * mom QcR [dq (1 # 2) (1 # 3)] (G t [1%Z]) 0 0)%Qc; [exact (M 0%nat 0%nat _ eq_refl ltac:(cbn; lia))|]. unfold ep3. cbn [Nat.eqb]. apply Qc_is_canon. qc_q. ring.
Qed.

(* The exchange of the axes is not such a symmetry: in the corner, the diagonal velocity meets both
   sides at the same distance and has the label of the side of the first axis. *)
Definition square (lx ly : Z) : grid := mkGrid [3; 3] [1; 1] [lx; lx; ly; ly] [[1; 1]; [-1; -1]] [0%Q; 0%Q] 1%Q.
Theorem C89_exchange_refuted : exists Da Db, domain_init (square 0 1) [] = Some Da /\ domain_init (square 1 0) [] = Some Db /\
  l_dist (d_link Da 0 [3; 3]) = (1 # 2)%Q /\ l_dist (d_link Db 0 [3; 3]) = (1 # 2)%Q /\ l_flag (d_link Da 0 [3; 3]) = 0 /\ l_flag (d_link Db 0 [3; 3]) = 1.
Proof.
  destruct (domain_init (square 0 1) []) as [Da|] eqn:EA; [|vm_compute in EA; discriminate]. destruct (domain_init (square 1 0) []) as [Db|] eqn:EB; [|vm_compute in EB; discriminate].
  exists Da, Db. split; [reflexivity|]. split; [reflexivity|].
  assert (XA : match domain_init (square 0 1) [] with Some D => (l_dist (d_link D 0 [3; 3]), l_flag (d_link D 0 [3; 3])) | None => (0%Q, 7) end = ((1 # 2)%Q, 0)) by (vm_compute; reflexivity).
  assert (XB : match domain_init (square 1 0) [] with Some D => (l_dist (d_link D 0 [3; 3]), l_flag (d_link D 0 [3; 3])) | None => (0%Q, 7) end = ((1 # 2)%Q, 1)) by (vm_compute; reflexivity).
  rewrite EA in XA. rewrite EB in XB. injection XA as -> ->. injection XB as -> ->. repeat split; reflexivity.
Qed.
Print Assumptions C89_exchange_refuted.
