(* Lemmas for C57 with solid elements: the domain of a process is a part of the domain
   of one process. *)
From Verif Require Import PyBase VelocityModel VelocityProofs StencilModel StencilProofs GridModel GridProofs StorageModel
  ExchangeProofs StorageProps LinAlg AlgoModel AlgoProofs GlobalModel GlobalProofs DomainModel DomainProofs DomainProps
  BoundaryModel BoundaryProofs BoundaryProps BoundaryUpdProps VesselProofs ParallelModel ParallelProofs.
From Coq Require Import QArith Lqa.
Open Scope Z_scope.

(* The functions of the element depend on the numbers, not on the fractions. *)
Definition regular_elem (e : elem) : Prop := forall x y dv, Forall2 Qeq x y ->
  e_in e x = e_in e y /\ e_alpha e x dv = e_alpha e y dv /\ e_border e x dv = e_border e y dv /\ e_norm e x dv = e_norm e y dv.
(* If a segment between two cells starts outside of an element and meets it, then it ends
   inside it or inside one of the elements before it in the list. *)
Definition thick (g : grid) (es : list elem) : Prop := forall es1 e es2, es = es1 ++ e :: es2 ->
  forall x v, In v (g_vel g) -> interior g x = true -> interior g (shift g x v) = true ->
  e_in e (point g x) = false -> (0 < e_alpha e (point g x) (displacement g v))%Q ->
  exists e', In e' (es1 ++ [e]) /\ e_in e' (point g (shift g x v)) = true.
Record obstacle (g : grid) (labs : list Z) (e : elem) : Prop := {
  o_solid : e_fluid e = false;
  o_bounds : bounds_ok g e;
  o_dist : distance_ok g e;
  o_reg : regular_elem e;
  o_border : forall x dv, (0 < e_alpha e x dv)%Q -> In (e_border e x dv) labs
}.

Definition solid_step (e : elem) (x dv : list Q) (out : bool) (l : link) : link :=
  if e_in e x then mkLink qvalin valin (l_norm l)
  else if Qltb 0 (e_alpha e x dv) && out && Qltb (e_alpha e x dv) (l_dist l)
  then mkLink (e_alpha e x dv) (e_border e x dv) (fun j => (- e_norm e x dv j)%Q) else l.

Section View.
Variable g : grid.
Hypothesis W : wf_grid g.
Variable e : elem.
Hypothesis B : bounds_ok g e.
Hypothesis DK : distance_ok g e.

(* a cell from which a segment meets the element is in the view *)
Lemma view_of_alpha c v : In v (g_vel g) -> interior g c = true ->
  (0 < e_alpha e (point g c) (displacement g v))%Q -> in_view g e c = true.
Proof.
  intros Hvel Hc Ha. destruct (DK c v Hvel) as (_ & H2 & _). destruct (H2 Ha) as (t & Ht & Hb). clear H2.
  unfold in_view. apply forallb_axes. intros d Hd. cbv zeta.
  pose proof (proj1 (interior_spec g c) Hc d Hd) as Hcd. pose proof (wf_h g W d Hd). pose proof (wf_n g W d Hd).
  pose proof (wf_v g W _ _ Hvel Hd) as V. pose proof (wf_dx g W) as HX.
  specialize (Hb d Hd). rewrite point_nth in Hb by exact Hd. unfold displacement in Hb. rewrite nth_axes in Hb by exact Hd.
  set (q := (inject_Z c@d + t * inject_Z v@d)%Q).
  assert (Eq : (g_dx g * q == g_dx g * inject_Z c@d + t * (g_dx g * inject_Z v@d))%Q) by (unfold q; ring).
  assert (V1 : (inject_Z (- (g_h g)@d) <= inject_Z v@d <= inject_Z (g_h g)@d)%Q) by (rewrite <- !Zle_Qle; lia).
  assert (H0h : (0 <= inject_Z (g_h g)@d)%Q) by (change 0%Q with (inject_Z 0); rewrite <- Zle_Qle; lia).
  rewrite inject_Z_opp in V1.
  assert (Q1 : (inject_Z (c@d - (g_h g)@d) <= q <= inject_Z (c@d + (g_h g)@d))%Q).
  { unfold q, Z.sub. rewrite !inject_Z_plus, inject_Z_opp. split; nra. }
  assert (L : (((e_lo e)@@d - (g_x0 g)@@d) / g_dx g <= q)%Q) by (apply Qle_shift_div_r; [exact HX|]; rewrite Qmult_comm, Eq; lra).
  assert (U : (q <= ((e_hi e)@@d - (g_x0 g)@@d) / g_dx g)%Q) by (apply Qle_shift_div_l; [exact HX|]; rewrite Qmult_comm, Eq; lra).
  assert (L' : qtrunc (((e_lo e)@@d - (g_x0 g)@@d) / g_dx g) <= c@d + (g_h g)@d) by (apply qtrunc_le; [lia|lra]).
  assert (U' : c@d - (g_h g)@d <= qtrunc (((e_hi e)@@d - (g_x0 g)@@d) / g_dx g)) by (apply qtrunc_ge; [lia|lra]).
  assert (E1 : nmin g e d <= c@d) by (unfold nmin; lia).
  assert (E2 : c@d < nmax g e d) by (unfold nmax; lia).
  assert (E3 : 0 <= nmin g e d) by (unfold nmin; lia).
  assert (E4 : nmax g e d <= DomainModel.total g d) by (unfold nmax, DomainModel.total; lia).
  unfold sl_start, sl_len, norm_slice. assert (T0 : DomainModel.total g d = (g_n g)@d + 2 * (g_h g)@d) by reflexivity.
  destruct (nmin g e d <? 0) eqn:A1; [apply Z.ltb_lt in A1; lia|].
  destruct (nmax g e d <? 0) eqn:A2; [apply Z.ltb_lt in A2; lia|].
  apply andb_true_intro. split; [apply Z.leb_le|apply Z.ltb_lt]; lia.
Qed.

Lemma solid_link D D' k v c : e_fluid e = false -> add_elem g e D = Some D' -> nth_error (g_vel g) k = Some v ->
  vzero g v = false -> interior g c = true ->
  d_link D' k c = solid_step e (point g c) (displacement g v) (negb (d_ioo D' (shift g c v))) (d_link D k c).
Proof.
  intros Hs HD Hk Hz Hc. pose proof (nth_error_In _ _ Hk) as Hvel. unfold add_elem in HD. destruct (existsb _ _); [discriminate|].
  injection HD as <-. cbn [d_ioo d_link]. rewrite Hk, Hz. cbn [negb]. rewrite andb_true_r. unfold solid_step.
  destruct (in_view g e c) eqn:V.
  - rewrite (link_elem_eq g W e _ v c _ Hvel Hc V DK). cbv zeta. rewrite Hs.
    destruct (e_in e (point g c)) eqn:I; cbn [Bool.eqb]; [rewrite andb_false_r; reflexivity|]. rewrite andb_true_r. reflexivity.
  - destruct (e_in e (point g c)) eqn:I.
    + rewrite (view_inside g W e B c (interior_nonneg g c W Hc) I) in V. congruence.
    + destruct (Qltb 0 _) eqn:A; [|reflexivity]. apply Qltb_true in A. rewrite (view_of_alpha c v Hvel Hc A) in V. discriminate.
Qed.
Lemma zero_link D D' k v c : add_elem g e D = Some D' -> nth_error (g_vel g) k = Some v -> vzero g v = true -> d_link D' k c = d_link D k c.
Proof.
  intros HD Hk Hz. unfold add_elem in HD. destruct (existsb _ _); [discriminate|]. injection HD as <-. cbn [d_link]. rewrite Hk, Hz.
  now rewrite andb_false_r.
Qed.
Lemma solid_ioo D D' c : e_fluid e = false -> add_elem g e D = Some D' -> nonneg_cell g c ->
  d_ioo D' c = d_ioo D c && negb (interior g c && e_in e (point g c)).
Proof.
  intros Hs HD Hc. unfold add_elem in HD. destruct (existsb _ _); [discriminate|]. injection HD as <-. cbn [d_ioo].
  rewrite (ioo_elem_spec g W e B) by exact Hc. rewrite Hs. destruct (interior g c && e_in e (point g c)); cbn [negb]; now rewrite ?andb_true_r, ?andb_false_r.
Qed.
End View.

Lemma solid_out g es : forall D0 D1 : dom, (forall e, In e es -> e_fluid e = false) -> (forall i, interior g i = false -> d_ioo D0 i = false) ->
  add_elems g es D0 = Some D1 -> forall i, interior g i = false -> d_ioo D1 i = false.
Proof.
  induction es as [|e es IH]; intros D0 D1 HO H0 HA j Hj; cbn [add_elems] in HA; [injection HA as <-; now apply H0|].
  destruct (add_elem g e D0) as [D2|] eqn:E0; [|discriminate]. apply (IH D2 D1); try assumption; [intros; apply HO; now right|].
  intros i Hi. unfold add_elem in E0. destruct (existsb _ _); [discriminate|]. injection E0 as <-. cbn [d_ioo]. unfold ioo_elem.
  rewrite (HO e (or_introl eq_refl)). destruct (_ && _); [reflexivity|now apply H0].
Qed.
Lemma solid_out_init g es D : (forall e, In e es -> e_fluid e = false) -> domain_init g es = Some D ->
  forall i, interior g i = false -> d_ioo D i = false.
Proof.
  intros HO HD i Hi. unfold domain_init, add_init in HD. destruct (rows_exist g); [|discriminate]. destruct (add_elems g es _) as [D'|] eqn:Ec; [|discriminate].
  injection HD as <-. cbn [clean d_ioo]. refine (solid_out g es _ _ HO _ Ec i Hi). intros j Hj. exact Hj.
Qed.

Section Local.
Variables (g : grid) (ps : list nat).
Hypothesis Hok : Forall ax_ok (proc_axes g ps).
Hypothesis W : wf_grid g.
Variable c : list nat.
Hypothesis Hc : coords_ok (proc_axes g ps) c.
Notation lg := (local_grid g ps c).
Notation ser := (ser g ps c).

Lemma point_ser i : Forall2 Qeq (point lg i) (point g (ser i)).
Proof using.
  unfold point. rewrite lg_axes.
  assert (X : forall ds, (forall d, In d ds -> (d < dim g)%nat) ->
    Forall2 Qeq (map (fun d => ((g_x0 lg)@@d + g_dx lg * inject_Z i@d)%Q) ds) (map (fun d => ((g_x0 g)@@d + g_dx g * inject_Z (ser i)@d)%Q) ds)).
  { induction ds as [|d ds IH]; intros H; [constructor|]. cbn [map]. constructor; [|apply IH; intros; apply H; now right].
    pose proof (H d (or_introl eq_refl)) as Hd. rewrite ser_nth by exact Hd. cbn [local_grid g_x0 g_dx]. rewrite nth_axes_q by exact Hd.
    rewrite inject_Z_plus. ring. }
  apply X. intros d Hd. now apply axes_in.
Qed.
Lemma disp_ser v : displacement lg v = displacement g v.
Proof using. unfold displacement. rewrite lg_axes. reflexivity. Qed.
Lemma vzero_ser v : vzero lg v = vzero g v.
Proof using. unfold vzero. rewrite lg_axes. reflexivity. Qed.
Lemma Forall2_nth (l m : list Q) d : Forall2 Qeq l m -> (l@@d == m@@d)%Q.
Proof using.
  intros H. revert d. induction H as [|x y l m Hx H IH]; intros d; [destruct d; reflexivity|]. destruct d; [exact Hx|apply IH].
Qed.
Lemma bounds_ser e : regular_elem e -> bounds_ok g e -> bounds_ok lg e.
Proof using.
  intros R H i d Hx Hd. rewrite lg_dim in Hd. pose proof (proj1 (R _ _ [] (point_ser i))) as E. rewrite E in Hx.
  pose proof (Forall2_nth _ _ d (point_ser i)) as Q. specialize (H (ser i) d Hx Hd). split; lra.
Qed.
Lemma dist_ser e : regular_elem e -> distance_ok g e -> distance_ok lg e.
Proof using.
  intros R H i v Hv a. destruct (H (ser i) v Hv) as (A1 & A2 & A3).
  assert (Ea : a = e_alpha e (point g (ser i)) (displacement g v)).
  { unfold a. rewrite disp_ser. apply (R _ _ _ (point_ser i)). }
  rewrite Ea. split; [exact A1|]. split.
  - intros Hp. destruct (A2 Hp) as (t & Ht & Hb). exists t. split; [exact Ht|]. intros d Hd. rewrite lg_dim in Hd.
    pose proof (Forall2_nth _ _ d (point_ser i)) as E. rewrite disp_ser. specialize (Hb d Hd). split; lra.
  - intros H1 H2. apply A3.
    + rewrite <- H1. symmetry. apply (R _ _ [] (point_ser i)).
    + rewrite <- H2. symmetry. rewrite <- ser_shift. apply (R _ _ [] (point_ser (shift lg i v))).
Qed.

Section Elems.
Hypothesis HL : forall i, (i < 2 * dim g)%nat -> (g_lab g)@i <> -2.
Hypothesis HP : forall d, (d < dim g)%nat -> 0 < hi g ps c d - lo g ps c d.
Variable labs : list Z.

(* during the insertion of the elements *)
Record inv (es : list elem) (D Dc : dom) : Prop := {
  i_ioo : forall i, interior lg i = true -> d_ioo Dc i = d_ioo D (ser i);
  i_out : forall i, nonneg_cell lg i -> interior lg i = false -> d_ioo Dc i = false;
  i_sout : forall x, nonneg_cell g x -> interior g x = false -> d_ioo D x = false;
  i_sin : forall x, interior g x = true -> d_ioo D x = negb (existsb (fun e => e_in e (point g x)) es);
  i_link : forall k i, (k < length (g_vel g))%nat -> interior lg i = true -> d_link Dc k i = d_link D k (ser i);
  i_flag : forall k i, (k < length (g_vel g))%nat -> interior lg i = true ->
             In (l_flag (d_link Dc k i)) (valin :: g_lab lg ++ labs)
}.

Lemma shift_nonneg i v : In v (g_vel g) -> interior lg i = true -> nonneg_cell lg (shift lg i v).
Proof using W HP HL Hok Hc.
  intros Hv Hi d Hd. rewrite lg_dim in Hd. rewrite shift_nth by (rewrite lg_dim; exact Hd).
  pose proof (proj1 (lg_interior g ps c i) Hi d Hd) as H. rewrite ser_nth in H by exact Hd. pose proof (wf_v g W v d Hv Hd). lia.
Qed.
Lemma sshift_nonneg x v : In v (g_vel g) -> interior g x = true -> nonneg_cell g (shift g x v).
Proof using W HP HL Hok Hc.
  intros Hv Hi d Hd. rewrite shift_nth by exact Hd. pose proof (proj1 (interior_spec g x) Hi d Hd) as H. pose proof (wf_v g W v d Hv Hd). lia.
Qed.

Lemma inv_step es1 e es2 D D' Dc Dc' : thick g (es1 ++ e :: es2) -> obstacle g labs e -> inv es1 D Dc ->
  add_elem g e D = Some D' -> add_elem lg e Dc = Some Dc' -> inv (es1 ++ [e]) D' Dc'.
Proof using Hok W Hc HP HL.
  intros HT [Es Eb Ed Er Eo] I HD HDc. destruct I as [I1 I2 I3 I4 I5 I6].
  pose proof (lg_wf g ps Hok c Hc W HP) as Wl. pose proof (bounds_ser e Er Eb) as Bl. pose proof (dist_ser e Er Ed) as Dl.
  assert (EI : forall i, e_in e (point lg i) = e_in e (point g (ser i))) by (intros i; apply (Er _ _ [] (point_ser i))).
  assert (J1 : forall i, interior lg i = true -> d_ioo Dc' i = d_ioo D' (ser i)).
  { intros i Hi. pose proof (ser_interior g ps Hok c Hc i Hi) as Hsi.
    rewrite (solid_ioo lg Wl e Bl Dc Dc' i Es HDc (interior_nonneg lg i Wl Hi)), (solid_ioo g W e Eb D D' (ser i) Es HD (interior_nonneg g _ W Hsi)).
    now rewrite Hi, Hsi, EI, I1. }
  assert (J2 : forall i, nonneg_cell lg i -> interior lg i = false -> d_ioo Dc' i = false).
  { intros i Hn Hi. rewrite (solid_ioo lg Wl e Bl Dc Dc' i Es HDc Hn). now rewrite I2. }
  assert (J3 : forall x, nonneg_cell g x -> interior g x = false -> d_ioo D' x = false).
  { intros x Hn Hx. rewrite (solid_ioo g W e Eb D D' x Es HD Hn). now rewrite I3. }
  assert (J4 : forall x, interior g x = true -> d_ioo D' x = negb (existsb (fun e => e_in e (point g x)) (es1 ++ [e]))).
  { intros x Hx. rewrite (solid_ioo g W e Eb D D' x Es HD (interior_nonneg g _ W Hx)), Hx, (I4 x Hx), existsb_app. cbn [existsb andb].
    rewrite orb_false_r. now destruct (existsb _ es1), (e_in e (point g x)). }
  split; try assumption.
  - intros k i Hk Hi. pose proof (ser_interior g ps Hok c Hc i Hi) as Hsi.
    destruct (nth_error (g_vel g) k) as [v|] eqn:Ev; [|apply nth_error_None in Ev; lia]. pose proof (nth_error_In _ _ Ev) as Hvel.
    destruct (vzero g v) eqn:Hz.
    { rewrite (zero_link g e D D' k v _ HD Ev Hz). rewrite (zero_link lg e Dc Dc' k v _ HDc Ev); [|rewrite vzero_ser; exact Hz]. now apply I5. }
    rewrite (solid_link g W e Eb Ed D D' k v _ Es HD Ev Hz Hsi).
    rewrite (solid_link lg Wl e Bl Dl Dc Dc' k v _ Es HDc Ev); [|rewrite vzero_ser; exact Hz|exact Hi].
    rewrite (I5 k i Hk Hi), disp_ser. unfold solid_step. rewrite EI. destruct (Er _ _ (displacement g v) (point_ser i)) as (_ & -> & -> & ->).
    destruct (e_in e (point g (ser i))) eqn:Ei; [reflexivity|]. destruct (Qltb 0 (e_alpha e (point g (ser i)) (displacement g v))) eqn:Ea; [|reflexivity].
    apply Qltb_true in Ea. cbn [andb].
    assert (Eout : d_ioo Dc' (shift lg i v) = d_ioo D' (shift g (ser i) v)).
    { destruct (interior lg (shift lg i v)) eqn:Hs; [rewrite <- ser_shift; now apply J1|].
      rewrite (J2 _ (shift_nonneg i v Hvel Hi) Hs). symmetry.
      destruct (interior g (shift g (ser i) v)) eqn:Hs'; [|apply J3; [now apply sshift_nonneg|exact Hs']].
      rewrite (J4 _ Hs'). destruct (HT es1 e es2 eq_refl (ser i) v Hvel Hsi Hs' Ei Ea) as (e' & He' & Hin).
      apply negb_false_iff. apply existsb_exists. exists e'. split; assumption. }
    rewrite Eout. reflexivity.
  - intros k i Hk Hi. destruct (nth_error (g_vel g) k) as [v|] eqn:Ev; [|apply nth_error_None in Ev; lia].
    destruct (vzero lg v) eqn:Hz; [rewrite (zero_link lg e Dc Dc' k v _ HDc Ev Hz); now apply I6|].
    rewrite (solid_link lg Wl e Bl Dl Dc Dc' k v _ Es HDc Ev Hz Hi). unfold solid_step.
    destruct (e_in e _); [left; reflexivity|]. destruct (Qltb 0 _) eqn:Ea; cbn [andb]; [|now apply I6]. destruct (_ && _); [|now apply I6].
    cbn [l_flag]. right. apply in_or_app. right. apply Eo. now apply Qltb_true.
Qed.
Lemma inv_steps : forall es2 es1 D D' Dc Dc', thick g (es1 ++ es2) -> (forall e, In e es2 -> obstacle g labs e) -> inv es1 D Dc ->
  add_elems g es2 D = Some D' -> add_elems lg es2 Dc = Some Dc' -> inv (es1 ++ es2) D' Dc'.
Proof using Hok W Hc HP HL.
  induction es2 as [|e es2 IH]; intros es1 D D' Dc Dc' HT HO I HD HDc; cbn [add_elems] in HD, HDc.
  - injection HD as <-. injection HDc as <-. now rewrite app_nil_r.
  - destruct (add_elem g e D) as [D1|] eqn:E1; [|discriminate]. destruct (add_elem lg e Dc) as [Dc1|] eqn:E2; [|discriminate].
    replace (es1 ++ e :: es2) with ((es1 ++ [e]) ++ es2) in * by (rewrite <- app_assoc; reflexivity).
    eapply (IH (es1 ++ [e]) D1 D' Dc1 Dc'); try assumption.
    + intros e' He'. apply HO. now right.
    + eapply (inv_step es1 e es2); try eassumption; [|apply HO; now left]. rewrite <- app_assoc in HT. exact HT.
Qed.

Lemma init_flag k i : (k < length (g_vel g))%nat -> interior lg i = true -> In (l_flag (init_links lg k i)) (valin :: g_lab lg).
Proof using HP HL.
  intros Hk Hi. destruct (nth_error (g_vel g) k) as [v|] eqn:Ev; [|apply nth_error_None in Ev; lia].
  rewrite (init_links_cell lg k i v Hi Ev). unfold DomainModel.axes.
  destruct (axes_fold lg i v Hi (dim lg) (Nat.le_refl _)) as [[_ ->]|(d & Hd & Hcd & _ & Hl & _)]; [left; reflexivity|].
  right. rewrite Hl. unfold wall_label. apply nth_In. cbn [local_grid g_lab]. rewrite map_length, seq_length. rewrite lg_dim in Hd.
  destruct (toright v d); lia.
Qed.
Lemma obstacles_in es D Dc : (forall e, In e es -> obstacle g labs e) -> thick g es ->
  domain_init g es = Some D -> domain_init lg es = Some Dc ->
  (forall i, interior lg i = true -> d_ioo Dc i = d_ioo D (ser i)) /\
  (forall k i, (k < length (g_vel g))%nat -> interior lg i = true -> d_link Dc k i = d_link D k (ser i)) /\
  (forall k i, (k < length (g_vel g))%nat -> interior lg i = true -> In (l_flag (d_link Dc k i)) (valin :: g_lab lg ++ labs)).
Proof using Hok W Hc HP HL.
  intros HO HT HD HDc. unfold domain_init, add_init in HD, HDc. destruct (rows_exist g); [|discriminate]. destruct (rows_exist lg); [|discriminate].
  destruct (add_elems g es _) as [D'|] eqn:E; [|discriminate]. destruct (add_elems lg es _) as [Dc'|] eqn:Ec; [|discriminate].
  injection HD as <-. injection HDc as <-.
  assert (I0 : inv [] (mkDom (interior g) (init_links g)) (mkDom (interior lg) (init_links lg))).
  { split; cbn [d_ioo d_link].
    - intros i Hi. rewrite Hi. symmetry. now apply ser_interior.
    - auto.
    - auto.
    - intros x Hx. rewrite Hx. reflexivity.
    - intros k i Hk Hi. now apply init_links_lg.
    - intros k i Hk Hi. destruct (init_flag k i Hk Hi) as [H|H]; [left; exact H|right; apply in_or_app; now left]. }
  pose proof (inv_steps es [] _ D' _ Dc' HT HO I0 E Ec) as [I1 I2 I3 I4 I5 I6]. cbn [clean d_ioo d_link].
  split; [exact I1|]. split.
  - intros k i Hk Hi. cbv zeta. rewrite (I5 k i Hk Hi), (I1 i Hi). reflexivity.
  - intros k i Hk Hi. cbv zeta. destruct (_ && _); [left; reflexivity|]. now apply I6.
Qed.
End Elems.

Theorem obstacles_part labs es D Dc : (forall i, (i < 2 * dim g)%nat -> (g_lab g)@i <> -2) ->
  (forall e, In e es -> obstacle g labs e) -> thick g es ->
  domain_init g es = Some D -> domain_init lg es = Some Dc ->
  part_of g D ps c Dc /\
  (forall i, interior lg i = true -> d_ioo Dc i = d_ioo D (ser i)) /\
  (forall k i, (k < length (g_vel g))%nat -> interior lg i = true -> In (l_flag (d_link Dc k i)) (valin :: g_lab lg ++ labs)).
Proof using Hok W Hc.
  intros HL HO HT HD HDc.
  assert (HP : forall i, interior lg i = true -> forall d, (d < dim g)%nat -> 0 < hi g ps c d - lo g ps c d).
  { intros i Hi d Hd. pose proof (proj1 (lg_interior g ps c i) Hi d Hd). lia. }
  split; [split|split].
  - intros k i Hk _ Hi. now apply (obstacles_in HL (HP i Hi) labs es D Dc).
  - intros k i Hi. apply (C15_no_link_outside lg es Dc HDc i).
    exact (solid_out_init lg es Dc (fun e He => o_solid _ _ _ (HO e He)) HDc i Hi).
  - intros i Hi. now apply (obstacles_in HL (HP i Hi) labs es D Dc).
  - intros k i Hk Hi. now apply (obstacles_in HL (HP i Hi) labs es D Dc).
Qed.
End Local.
