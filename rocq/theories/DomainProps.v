(* Properties C14 and C15 of a Domain. *)
From Verif Require Import PyBase GridModel DomainModel DomainProofs.
From Coq Require Import QArith Qround Lqa.
Open Scope Z_scope.

(* C14.  Domain without element.  Positions are in units of dx from the corner of
   the box: pos g c v t is the centre of the cell c moved by t velocities, in_box
   is the closed box (a side labelled -2, interface with another process, is no
   wall).  The cells reach the walls only if the axes have enough cells, otherwise
   the construction fails (None). *)
Theorem C14_distance g D k v c : domain_init g [] = Some D ->
  nth_error (g_vel g) k = Some v -> interior g c = true ->
  let l := d_link D k c in
  (in_box g (pos g c v 1) /\ l_dist l = qvalin /\ l_flag l = valin /\ forall j, l_norm l j = 0%Q) \/
  (~ in_box g (pos g c v 1) /\ (0 < l_dist l < 1)%Q /\
   (forall t, (0 <= t)%Q -> (in_box g (pos g c v t) <-> (t <= l_dist l)%Q)) /\
   exists d, (d < dim g)%nat /\
     ((v@d < 0 /\ (g_lab g)@(2 * d) <> -2 /\ (pos g c v (l_dist l) d == 0)%Q /\
       l_flag l = (g_lab g)@(2 * d) /\ l_norm l d = (-1)%Q) \/
      (0 < v@d /\ (g_lab g)@(2 * d + 1) <> -2 /\ (pos g c v (l_dist l) d == inject_Z (g_n g)@d)%Q /\
       l_flag l = (g_lab g)@(2 * d + 1) /\ l_norm l d = 1%Q)) /\
     (forall j, j <> d -> l_norm l j = 0%Q) /\
     (* ties: the first axis wins *)
     (forall d', (d' < d)%nat ->
        (v@d' < 0 -> (g_lab g)@(2 * d') <> -2 -> (0 < pos g c v (l_dist l) d')%Q) /\
        (0 < v@d' -> (g_lab g)@(2 * d' + 1) <> -2 -> (pos g c v (l_dist l) d' < inject_Z (g_n g)@d')%Q))).
Proof.
  intros HD Hk Hc. unfold domain_init, add_init in HD. destruct (rows_exist g); [|discriminate].
  cbn [add_elems] in HD. injection HD as <-. cbn [clean d_link d_ioo]. rewrite Hc, andb_false_r. cbn [negb].
  cbv zeta. rewrite (init_links_cell g k c v Hc Hk).
  pose proof (axes_fold g c v Hc (dim g) (Nat.le_refl _)) as F. unfold axes.
  set (l := fold_left _ _ _) in *. clearbody l.
  assert (H01 : (0 <= 1)%Q) by lra. pose proof (in_box_iff g c v 1 Hc H01) as IB.
  destruct F as [[Hno ->]|(d & Hd & Hcd & Hl & Hf & Hn & Hmin & Hfirst)].
  - left. split; [|repeat split; reflexivity]. apply IB. intros d Hd He.
    destruct (exits_cases g c v d Hd Hc He) as [[C _]|[_ C]]; [rewrite Hno in C by exact Hd; discriminate|lra].
  - right. pose proof (T_range g c v d Hd Hc Hcd) as HT.
    assert (He : exits g v d = true) by (unfold crosses in Hcd; now apply andb_prop in Hcd).
    assert (K : forall t, (0 <= t)%Q -> (in_box g (pos g c v t) <-> (t <= l_dist l)%Q)).
    { intros t Ht. rewrite (in_box_iff g c v t Hc Ht), Hl. split; [intros H; now apply H|].
      intros H d' Hd' He'. destruct (exits_cases g c v d' Hd' Hc He') as [[C _]|[_ C]]; [|lra].
      specialize (Hmin d' Hd' C). lra. }
    split; [rewrite K by lra; rewrite Hl; lra|]. split; [rewrite Hl; lra|]. split; [exact K|].
    exists d. split; [exact Hd|]. split; [|split].
    + unfold exits in He. apply orb_prop in He. destruct He as [He|He]; apply andb_prop in He; destruct He as [He1 He2];
        apply Z.ltb_lt in He1; apply Bool.negb_true_iff, Z.eqb_neq in He2; [left|right].
      * unfold wall_label, toright in *. rewrite (proj2 (Z.ltb_ge 0 v@d)) in * by lia.
        repeat split; auto.
        { rewrite pos_left by exact He1. rewrite Hl. ring. }
        { rewrite Hn, Nat.eqb_refl. reflexivity. }
      * unfold wall_label, toright in *. rewrite (proj2 (Z.ltb_lt 0 v@d)) in * by lia.
        repeat split; auto.
        { pose proof (pos_right g c v d (l_dist l) He1) as P. rewrite Hl in *.
          setoid_replace (T g c v d - T g c v d)%Q with 0%Q in P by ring. lra. }
        { rewrite Hn, Nat.eqb_refl. reflexivity. }
    + intros j Hj. rewrite Hn. apply Nat.eqb_neq in Hj. now rewrite Hj.
    + intros d' Hd'. assert (Hd2 : (d' < dim g)%nat) by lia.
      assert (S : exits g v d' = true -> (l_dist l < T g c v d')%Q).
      { intros E. rewrite Hl. destruct (exits_cases g c v d' Hd2 Hc E) as [[C _]|[_ C]]; [now apply Hfirst|lra]. }
      split; intros Hv Hlab; apply Z.eqb_neq in Hlab.
      * assert (E : exits g v d' = true) by (unfold exits; rewrite (proj2 (Z.ltb_lt _ _) Hv), Hlab; reflexivity).
        rewrite pos_left by exact Hv. apply S in E. apply Qmult_lt_0_compat; [|lra].
        change 0%Q with (inject_Z 0). rewrite <- Zlt_Qlt. lia.
      * assert (E : exits g v d' = true) by (unfold exits; rewrite (proj2 (Z.ltb_lt _ _) Hv), Hlab; now rewrite orb_true_r).
        pose proof (pos_right g c v d' (l_dist l) Hv) as P. apply S in E.
        assert (0 < inject_Z (Z.abs v@d') * (T g c v d' - l_dist l))%Q; [|lra]. apply Qmult_lt_0_compat; [|lra].
        change 0%Q with (inject_Z 0). rewrite <- Zlt_Qlt. lia.
Qed.
(* The halo carries nothing, and the fluid is the box. *)
Theorem C14_fluid_is_the_box g D c : domain_init g [] = Some D ->
  (d_ioo D c = true <-> forall d, (d < dim g)%nat -> (g_h g)@d <= c@d < (g_h g)@d + (g_n g)@d) /\
  (d_ioo D c = false -> forall k, l_dist (d_link D k c) = qvalin /\ l_flag (d_link D k c) = valin).
Proof.
  intros HD. unfold domain_init, add_init in HD. destruct (rows_exist g); [|discriminate].
  cbn [add_elems] in HD. injection HD as <-. cbn [clean d_link d_ioo]. split; [apply interior_spec|].
  intros H k. rewrite (init_links_out g k c H), H. split; reflexivity.
Qed.
(* The construction fails only if a velocity is longer than the axis it leaves. *)
Theorem C14_exists g :
  (exists D, domain_init g [] = Some D) <->
  (forall d v, (d < dim g)%nat -> In v (g_vel g) ->
     (v@d < 0 -> (g_lab g)@(2 * d) <> -2 -> - v@d <= (g_n g)@d) /\
     (0 < v@d -> (g_lab g)@(2 * d + 1) <> -2 -> v@d <= (g_n g)@d)).
Proof.
  unfold domain_init, add_init. split.
  - intros [D H] d v Hd Hv. destruct (rows_exist g) eqn:E; [|discriminate]. unfold rows_exist in E.
    rewrite forallb_axes in E. specialize (E d Hd). rewrite forallb_forall in E. specialize (E v Hv). cbv zeta in E.
    split; intros Hs Hlab; apply Z.eqb_neq in Hlab.
    + rewrite (proj2 (Z.ltb_lt _ _) Hs), Hlab in E. cbn [andb negb] in E. now apply Z.leb_le.
    + rewrite (proj2 (Z.ltb_ge v@d 0)), (proj2 (Z.ltb_lt 0 _) Hs), Hlab in E by lia. cbn [andb negb] in E. now apply Z.leb_le.
  - intros H. assert (rows_exist g = true) as ->; [|cbn [add_elems]; eauto].
    unfold rows_exist. apply forallb_axes. intros d Hd. apply forallb_forall. intros v Hv. cbv zeta.
    destruct (H d v Hd Hv) as [H1 H2].
    destruct (Z.ltb_spec v@d 0); cbn [andb].
    + destruct (Z.eqb_spec (g_lab g)@(2 * d) (-2)); cbn [negb]; [|apply Z.leb_le; auto].
      rewrite (proj2 (Z.ltb_ge 0 v@d)) by lia. reflexivity.
    + destruct (Z.ltb_spec 0 v@d); cbn [andb]; [|reflexivity].
      destruct (Z.eqb_spec (g_lab g)@(2 * d + 1) (-2)); cbn [negb]; [reflexivity|apply Z.leb_le; auto].
Qed.
Print Assumptions C14_distance.
Print Assumptions C14_fluid_is_the_box.
Print Assumptions C14_exists.

(* A 4 by 3 box, four labels, a velocity of length two along x; the corner cell
   leaves by both sides, x first. *)
Definition ex_grid : grid :=
  mkGrid [4; 3] [2; 1] [10; 11; 12; 13] [[0; 0]; [-2; -1]; [1; 1]; [2; 0]] [0; 0]%Q 1%Q.
Example C14_ex : exists D, domain_init ex_grid [] = Some D /\
  interior ex_grid [3; 1] = true /\
  (l_dist (d_link D 1 [2; 1]%Z) == 1 # 4)%Q /\ l_flag (d_link D 1 [2; 1]) = 10 /\
  (l_dist (d_link D 1 [3; 1]%Z) == 1 # 2)%Q /\ l_flag (d_link D 1 [3; 1]) = 12 /\
  (l_dist (d_link D 2 [5; 3]%Z) == 1 # 2)%Q /\ l_flag (d_link D 2 [5; 3]) = 11 /\
  l_dist (d_link D 3 [3; 2]) = qvalin.
Proof. eexists. split; [reflexivity|]. vm_compute. repeat split; reflexivity. Qed.

(* ------------------------------------------------------------- C15 ------- *)
(* The last element that contains the centre of the cell decides. *)
Theorem C15_last_element_decides g es D c : wf_grid g -> (forall e, In e es -> bounds_ok g e) ->
  domain_init g es = Some D -> (forall d, (d < dim g)%nat -> 0 <= c@d) ->
  (interior g c = false /\ d_ioo D c = false) \/
  (interior g c = true /\ last_decides es (point g c) (d_ioo D c)).
Proof.
  intros W HB HD Hc. unfold domain_init, add_init in HD. destruct (rows_exist g); [|discriminate].
  destruct (add_elems g es _) as [D'|] eqn:E; [|discriminate]. injection HD as <-. cbn [clean d_ioo].
  eapply ioo_elems; eauto.
Qed.
(* After clean no cell out of the fluid carries a link. *)
Theorem C15_no_link_outside g es D : domain_init g es = Some D ->
  forall c, d_ioo D c = false -> forall k,
    l_dist (d_link D k c) = qvalin /\ l_flag (d_link D k c) = valin /\ forall j, l_norm (d_link D k c) j = 0%Q.
Proof.
  intros HD c Hc k. unfold domain_init, add_init in HD. destruct (rows_exist g); [|discriminate].
  destruct (add_elems g es _) as [D'|] eqn:E; [|discriminate]. injection HD as <-. cbn [clean d_ioo d_link] in *.
  pose proof (elems_pos g es _ D' E (fun k c => init_pos g k c) k c) as P. apply Qltb_true in P. rewrite P, Hc.
  repeat split; reflexivity.
Qed.
(* A fluid cell carries a link for a velocity exactly if the target is not fluid,
   for targets in the arrays' interior or behind a wall of the box. *)
Theorem C15_links g es D : wf_grid g ->
  (forall e, In e es -> bounds_ok g e /\ distance_ok g e) ->
  domain_init g es = Some D ->
  forall k v c, nth_error (g_vel g) k = Some v -> vzero g v = false -> interior g c = true -> d_ioo D c = true ->
  (interior g (shift g c v) = true \/
   (beyond_wall g c v /\ forall e, In e es -> e_fluid e = true -> e_in e (point g (shift g c v)) = false)) ->
  if d_ioo D (shift g c v)
  then l_dist (d_link D k c) = qvalin /\ l_flag (d_link D k c) = valin
  else (0 < l_dist (d_link D k c) <= 1)%Q.
Proof.
  intros W HE HD k v c Hk Hz Hc Hf Ht. unfold domain_init, add_init in HD. destruct (rows_exist g); [|discriminate].
  destruct (add_elems g es _) as [D'|] eqn:E; [|discriminate]. injection HD as <-. cbn [clean d_ioo d_link] in *.
  rewrite Hf, andb_false_r. cbn [negb].
  eapply (elems_links g es _ D' W HE E); eauto.
Qed.
(* With walls on all sides every target is of one of the two kinds. *)
Theorem C15_targets g c v : (forall i, (i < 2 * dim g)%nat -> (g_lab g)@i <> -2) -> interior g c = true ->
  interior g (shift g c v) = true \/ beyond_wall g c v.
Proof.
  intros HL Hc. destruct (interior g (shift g c v)) eqn:E; [now left|right]. intros H.
  apply Bool.not_true_iff_false in E. apply E. apply interior_spec. intros d Hd. rewrite shift_nth by exact Hd.
  destruct (H d Hd) as [H1 H2].
  assert (Q1 : (inject_Z (c@d - (g_h g)@d) + (1 # 2) + 1 * inject_Z v@d == inject_Z (c@d + v@d - (g_h g)@d) + (1 # 2))%Q).
  { unfold Z.sub. rewrite !inject_Z_plus. ring. }
  specialize (H1 (HL (2 * d)%nat ltac:(lia))). specialize (H2 (HL (2 * d + 1)%nat ltac:(lia))). unfold pos in H1, H2. rewrite Q1 in H1, H2.
  set (y := c@d + v@d - (g_h g)@d) in *.
  assert (0 <= y).
  { destruct (Z_lt_ge_dec y 0) as [C|]; [|lia]. exfalso. assert (y + 1 <= 0) by lia. 
    assert (inject_Z y + 1 <= 0)%Q; [|lra]. change 1%Q with (inject_Z 1). rewrite <- inject_Z_plus.
    change 0%Q with (inject_Z 0). now rewrite <- Zle_Qle. }
  assert (y < (g_n g)@d); [|unfold y in *; lia].
  destruct (Z_lt_ge_dec y (g_n g)@d) as [|C]; [assumption|]. exfalso.
  assert (inject_Z (g_n g)@d <= inject_Z y)%Q by (rewrite <- Zle_Qle; lia). lra.
Qed.
(* The construction does not fail if no element ends between 2h+2 and 2 cells on
   the left of the first cell of the halo, along any axis. *)
Theorem C15_exists g es : wf_grid g -> (exists D, domain_init g [] = Some D) ->
  (forall e, In e es -> forall d, (d < dim g)%nat ->
     ((g_x0 g)@@d - 2 * g_dx g < (e_hi e)@@d)%Q \/
     ((e_hi e)@@d <= (g_x0 g)@@d - inject_Z (2 * (g_h g)@d + 2) * g_dx g)%Q) ->
  exists D, domain_init g es = Some D.
Proof.
  intros W H0 H. unfold domain_init, add_init in *. destruct (rows_exist g); [|destruct H0; discriminate].
  destruct (add_elems_exist g es W) with (D := mkDom (interior g) (init_links g)) as [D' ->]; [|eauto].
  intros e He d Hd. apply nmax_far; auto.
Qed.
Print Assumptions C15_last_element_decides.
Print Assumptions C15_no_link_outside.
Print Assumptions C15_links.
Print Assumptions C15_targets.
Print Assumptions C15_exists.

(* Elements for the examples: intervals.  The distance is the smallest t in (0,1]
   at which x + t dv is an end of the interval (-1 if there is none), which is
   what the elements of pylbm give. *)
Definition hit (t : Q) : bool := Qltb 0 t && Qle_bool t 1.
Definition iv_alpha (lo hi x dv : Q) : Q :=
  if Qeq_bool dv 0 then (-1)%Q else
  let a := ((lo - x) / dv)%Q in
  let b := ((hi - x) / dv)%Q in
  if hit a then if hit b then (if Qltb a b then a else b) else a
  else if hit b then b else (-1)%Q.
Definition interval (fluid : bool) (lo hi : Q) (lab : Z) : elem :=
  mkElem fluid [lo] [hi]
    (fun x => Qle_bool lo x@@0 && Qle_bool x@@0 hi)
    (fun x dv => iv_alpha lo hi x@@0 dv@@0)
    (fun _ _ => lab) (fun _ dv _ => if Qltb 0 dv@@0 then 1%Q else (-1)%Q).

Lemma interval_bounds g fluid lo hi lab : dim g = 1%nat -> bounds_ok g (interval fluid lo hi lab).
Proof.
  intros Hdim x d H Hd. assert (d = 0%nat) as -> by lia. cbn [e_in interval e_lo e_hi nth] in *.
  apply andb_prop in H. destruct H as [H1 H2]. apply Qle_bool_iff in H1. apply Qle_bool_iff in H2. lra.
Qed.
Lemma hit_spec t : hit t = true <-> (0 < t <= 1)%Q.
Proof.
  unfold hit. split.
  - intros H. apply andb_prop in H. destruct H as [H1 H2]. apply Qltb_true in H1. apply Qle_bool_iff in H2. lra.
  - intros [H1 H2]. apply andb_true_intro. split; [now apply Qltb_true|now apply Qle_bool_iff].
Qed.
Lemma iv_alpha_spec lo hi x dv :
  (iv_alpha lo hi x dv = (-1)%Q /\
   (~ dv == 0 -> ~ (0 < (lo - x) / dv <= 1) /\ ~ (0 < (hi - x) / dv <= 1))%Q) \/
  (~ dv == 0 /\ 0 < iv_alpha lo hi x dv <= 1 /\
   (iv_alpha lo hi x dv == (lo - x) / dv \/ iv_alpha lo hi x dv == (hi - x) / dv))%Q.
Proof.
  unfold iv_alpha. destruct (Qeq_bool dv 0) eqn:E0.
  - left. split; [reflexivity|]. intros C. apply Qeq_bool_iff in E0. contradiction.
  - apply Qeq_bool_neq in E0. cbv zeta.
    destruct (hit ((lo - x) / dv)%Q) eqn:Ea, (hit ((hi - x) / dv)%Q) eqn:Eb;
      try (apply hit_spec in Ea); try (apply hit_spec in Eb).
    + right. split; [exact E0|]. destruct (Qltb _ _); split; auto; [left|right]; reflexivity.
    + right. split; [exact E0|]. split; auto. left. reflexivity.
    + right. split; [exact E0|]. split; auto. right. reflexivity.
    + left. split; [reflexivity|]. intros _. split; intros C; apply hit_spec in C; congruence.
Qed.
Lemma interval_distance g fluid lo hi lab : dim g = 1%nat -> (lo <= hi)%Q ->
  (forall c : Z, ~ ((g_x0 g)@@0 + g_dx g * inject_Z c == lo)%Q /\ ~ ((g_x0 g)@@0 + g_dx g * inject_Z c == hi)%Q) ->
  distance_ok g (interval fluid lo hi lab).
Proof.
  intros Hdim Hle Hne c v Hv. cbv zeta.
  assert (D0 : forall d, (d < dim g)%nat -> d = 0%nat) by (intros; lia).
  assert (H0 : (0 < dim g)%nat) by lia.
  cbn [interval e_alpha e_in e_fluid e_lo e_hi].
  rewrite !point_nth by exact H0. rewrite shift_nth by exact H0.
  unfold displacement. rewrite (nth_axes g _ 0 0%Q H0).
  set (x := ((g_x0 g)@@0 + g_dx g * inject_Z c@0)%Q). set (dv := (g_dx g * inject_Z v@0)%Q).
  assert (X : ((g_x0 g)@@0 + g_dx g * inject_Z (c@0 + v@0) == x + dv)%Q) by (rewrite inject_Z_plus; unfold x, dv; ring).
  set (x' := ((g_x0 g)@@0 + g_dx g * inject_Z (c@0 + v@0))%Q) in *.
  destruct (Hne c@0) as [N1 N2]. fold x in N1, N2.
  destruct (iv_alpha_spec lo hi x dv) as [[E Hn]|(Hdv & Hr & Ha)].
  - rewrite E. split; [lra|]. split; [intros C; exfalso; revert C; now compute|].
    intros I1 I2. exfalso.
    assert (In1 : forall y, (Qle_bool lo y && Qle_bool y hi) = true <-> (lo <= y <= hi)%Q).
    { intros y. rewrite andb_true_iff, !Qle_bool_iff. tauto. }
    assert (Dv : ~ (dv == 0)%Q).
    { intros C. assert (Xe : (x' == x)%Q) by (rewrite X, C; ring).
      assert (Qle_bool lo x' && Qle_bool x' hi = Qle_bool lo x && Qle_bool x hi).
      { apply Bool.eq_iff_eq_true. rewrite !In1, Xe. tauto. }
      rewrite H, I1 in I2. destruct fluid; discriminate. }
    destruct (Hn Dv) as [M1 M2].
    assert (K : forall b, ~ (x == b)%Q -> ((x < b <= x + dv)%Q \/ (x + dv <= b < x)%Q) -> (0 < (b - x) / dv <= 1)%Q).
    { intros b Hb [K|K].
      - split; [apply Qlt_shift_div_l; lra|apply Qle_shift_div_r; lra].
      - assert (Q1 : ((b - x) / dv == (x - b) / (- dv))%Q) by (field; exact Dv). rewrite Q1.
        split; [apply Qlt_shift_div_l; lra|apply Qle_shift_div_r; lra]. }
    assert (K1 : ~ ((x < lo <= x + dv)%Q \/ (x + dv <= lo < x)%Q)) by (intros C; apply M1, K; assumption).
    assert (K2 : ~ ((x < hi <= x + dv)%Q \/ (x + dv <= hi < x)%Q)) by (intros C; apply M2, K; assumption).
    assert (Inx : ((lo <= x <= hi) <-> (lo <= x' <= hi))%Q).
    { rewrite X. destruct (Qlt_le_dec lo x), (Qlt_le_dec lo (x + dv)), (Qlt_le_dec x hi), (Qlt_le_dec (x + dv) hi); 
        try (split; intros; lra).
      all: try (exfalso; apply K1; lra). all: try (exfalso; apply K2; lra).
      all: exfalso; first [apply N1; lra|apply N2; lra|lra|idtac].
      all: try (apply K1; split; lra). }
    rewrite <- !In1, I1, I2 in Inx. destruct fluid; destruct Inx; intuition discriminate.
  - split; [lra|]. split; [|intros; lra]. intros _. exists (iv_alpha lo hi x dv). split; [lra|].
    intros d Hd. rewrite (D0 d Hd). rewrite point_nth by exact H0. rewrite (nth_axes g _ 0 0%Q H0). fold x. fold dv.
    cbn [nth]. destruct Ha as [Ha|Ha]; rewrite Ha.
    + assert (Q1 : (x + (lo - x) / dv * dv == lo)%Q) by (field; exact Hdv). lra.
    + assert (Q1 : (x + (hi - x) / dv * dv == hi)%Q) by (field; exact Hdv). lra.
Qed.

Definition line (lab : list Z) : grid := mkGrid [6] [1] lab [[0]; [1]; [-1]] [0%Q] 1%Q.
Lemma line_wf lab : wf_grid (line lab).
Proof.
  split; [reflexivity|]. split.
  - intros d Hd. assert (d = 0%nat) as -> by (cbn in Hd; lia). cbn. lia.
  - intros v d Hv Hd. assert (d = 0%nat) as -> by (cbn in Hd; lia). cbn in Hv.
    destruct Hv as [<-|[<-|[<-|[]]]]; cbn; lia.
Qed.
Lemma line_off lab (b : Q) : Qden b <> 1%positive -> Z.gcd (Qnum b) (Zpos (Qden b)) = 1 ->
  forall c, ~ ((g_x0 (line lab))@@0 + g_dx (line lab) * inject_Z c == b)%Q.
Proof.
  intros Hd Hg c H. destruct b as [p q]. cbn [Qnum Qden] in *. cbn [g_x0 g_dx line nth] in H.
  assert (E : (inject_Z c == p # q)%Q) by (rewrite <- H; ring). unfold Qeq in E. cbn in E.
  rewrite Z.gcd_comm, <- (Z.gcd_mod p (Zpos q)) in Hg by lia. assert (p mod Zpos q = 0) as M.
  { rewrite <- (Z.mul_1_r p), <- E. apply Z_mod_mult. }
  rewrite M, Z.gcd_0_l in Hg. cbn in Hg. congruence.
Qed.
Lemma line_elem lab fluid lo hi l : (lo <= hi)%Q ->
  Qden lo <> 1%positive -> Z.gcd (Qnum lo) (Zpos (Qden lo)) = 1 ->
  Qden hi <> 1%positive -> Z.gcd (Qnum hi) (Zpos (Qden hi)) = 1 ->
  bounds_ok (line lab) (interval fluid lo hi l) /\ distance_ok (line lab) (interval fluid lo hi l).
Proof.
  intros Hle H1 H2 H3 H4. split; [now apply interval_bounds|]. apply interval_distance; auto.
  intros c. split; apply line_off; auto.
Qed.

(* A solid element over the cells 3 and 4, then the cell 4 opened again: the cell 5
   loses its link to 4, the cell 4 gets one to 3. *)
Definition ex_elems : list elem := [interval false (9 # 4) (19 # 4) 5; interval true (7 # 2) (9 # 2) 7].
Example C15_ex : exists D, domain_init (line [0; 0]) ex_elems = Some D /\
  (forall e, In e ex_elems -> bounds_ok (line [0; 0]) e /\ distance_ok (line [0; 0]) e) /\
  map (fun i => d_ioo D [i]) [0; 1; 2; 3; 4; 5; 6; 7] = [false; true; true; false; true; true; true; false] /\
  (l_dist (d_link D 2 [4%Z]) == 1 # 2)%Q /\ l_flag (d_link D 2 [4]) = 7 /\
  l_dist (d_link D 2 [5]) = qvalin /\
  (l_dist (d_link D 1 [2%Z]) == 1 # 4)%Q /\ l_flag (d_link D 1 [2]) = 5 /\
  l_dist (d_link D 1 [3]) = qvalin.
Proof.
  eexists. split; [reflexivity|]. split.
  - intros e [<-|[<-|[]]]; apply line_elem; first [discriminate|reflexivity|unfold Qle; cbn; lia].
  - vm_compute. repeat split; reflexivity.
Qed.

(* An element two cells on the left of the halo, for instance in the part of
   another process: the slices wrap and the construction fails. *)
Theorem C15_far_left_refuted : exists g e, wf_grid g /\ bounds_ok g e /\
  (exists D, domain_init g [] = Some D) /\ domain_init g [e] = None.
Proof.
  exists (line [-2; 0]), (interval false (-3) (-2) 5). split; [apply line_wf|]. split; [now apply interval_bounds|].
  split; [eexists; reflexivity|]. vm_compute. reflexivity.
Qed.
(* A fluid element that opens again cells covered by a solid one, and that goes
   through the wall of the box: the link to the wall is lost. *)
Theorem C15_reopened_wall_refuted : exists g es D k v c, wf_grid g /\
  (forall e, In e es -> bounds_ok g e /\ distance_ok g e) /\
  domain_init g es = Some D /\ nth_error (g_vel g) k = Some v /\ vzero g v = false /\
  interior g c = true /\ d_ioo D c = true /\ beyond_wall g c v /\ d_ioo D (shift g c v) = false /\
  l_dist (d_link D k c) = qvalin.
Proof.
  exists (line [0; 0]), [interval false (-9 # 2) (5 # 2) 5; interval true (-11 # 2) (3 # 2) 7].
  eexists. exists 2%nat, [-1], [1]. split; [apply line_wf|]. split.
  { intros e [<-|[<-|[]]]; apply line_elem; first [discriminate|reflexivity|unfold Qle; cbn; lia]. }
  split; [reflexivity|]. repeat (split; [reflexivity|]). split; [|split; vm_compute; reflexivity].
  intros H. destruct (H 0%nat) as [H1 _]; [cbn; lia|]. cbn in H1. specialize (H1 ltac:(lia)). revert H1. vm_compute. congruence.
Qed.
(* A fluid cell whose centre lies on the border of a fluid element: the distance is
   zero, so that the link to the solid cell behind is not set. *)
Theorem C15_on_border_refuted : exists g es D k v c, wf_grid g /\ (forall e, In e es -> bounds_ok g e) /\
  domain_init g es = Some D /\ nth_error (g_vel g) k = Some v /\ vzero g v = false /\
  interior g c = true /\ d_ioo D c = true /\ interior g (shift g c v) = true /\ d_ioo D (shift g c v) = false /\
  l_dist (d_link D k c) = qvalin.
Proof.
  exists (line [0; 0]), [interval false (1 # 2) (9 # 2) 5; interval true 2 (7 # 2) 7].
  eexists. exists 2%nat, [-1], [2]. split; [apply line_wf|]. split.
  { intros e [<-|[<-|[]]]; now apply interval_bounds. }
  split; [reflexivity|]. repeat (split; [reflexivity|]). vm_compute. reflexivity.
Qed.
(* Interface between processes: the halo is always counted as solid, so that a link
   set by a solid element stays although a later fluid element opens the target. *)
Theorem C15_interface_refuted : exists g es D k v c, wf_grid g /\
  (forall e, In e es -> bounds_ok g e /\ distance_ok g e) /\
  domain_init g es = Some D /\ nth_error (g_vel g) k = Some v /\ vzero g v = false /\
  interior g c = true /\ d_ioo D c = true /\ in_box g (pos g c v 1) /\
  last_decides es (point g (shift g c v)) true /\
  (0 < l_dist (d_link D k c) <= 1)%Q.
Proof.
  exists (line [-2; 0]), [interval false (-1 # 2) (1 # 2) 5; interval true (-3 # 4) (3 # 2) 7].
  eexists. exists 2%nat, [-1], [1]. split; [apply line_wf|]. split.
  { intros e [<-|[<-|[]]]; apply line_elem; first [discriminate|reflexivity|unfold Qle; cbn; lia]. }
  split; [reflexivity|]. repeat (split; [reflexivity|]). split; [|split].
  - intros d Hd. assert (d = 0%nat) as -> by (cbn in Hd; lia). cbn [g_lab line nth Nat.mul Nat.add]. split; [congruence|].
    intros _. vm_compute. congruence.
  - right. exists [interval false (-1 # 2) (1 # 2) 5], (interval true (-3 # 4) (3 # 2) 7), []. repeat split. intros e [].
  - vm_compute. split; congruence.
Qed.
Print Assumptions C15_far_left_refuted.
Print Assumptions C15_reopened_wall_refuted.
Print Assumptions C15_on_border_refuted.
Print Assumptions C15_interface_refuted.
