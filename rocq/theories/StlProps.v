(* C62: the elements given by a mesh of triangles. *)
From Verif Require Import PyBase GridModel DomainModel DomainProofs DomainProps StlModel StlProofs.
From Coq Require Import QArith Qminmax Lqa Permutation.
Open Scope Q_scope.

(* ---- the intersection with a triangle ---- *)
(* No number if the direction is in the plane of the triangle; otherwise the number s >= 0
   where the half line meets the triangle, or inf if it does not. *)
Theorem C62_intersection x v T :
  (intersection x v T = None <-> parallel_to v T) /\
  (forall s, intersection x v T = Some (Some s) -> 0 <= s /\ on_tri T (at_ x v s) /\ forall s', 0 <= s' -> on_tri T (at_ x v s') -> s' == s) /\
  (intersection x v T = Some None -> forall s, 0 <= s -> ~ on_tri T (at_ x v s)).
Proof.
  pose proof (inter_spec x v T) as H. destruct (intersection x v T) as [[s|]|].
  - destruct H as [N H]. split; [split; [discriminate|tauto]|]. split; [intros s' E; injection E as <-; exact H|discriminate].
  - destruct H as [N H]. split; [split; [discriminate|tauto]|]. split; [discriminate|auto].
  - split; [split; auto|]. split; discriminate.
Qed.
(* The distance: the first intersection with the mesh, among the triangles that are not
   parallel and up to dmax, with the label of the element and the normal of the first
   triangle of the mesh which gives it; otherwise inf, the label -1 and no normal. *)
Theorem C62_distance mesh label x v dmax :
  match stl_distance mesh label x v dmax with
  | (Some a, border, n) => border = label /\ within dmax a /\
      (exists l1 T l2, mesh = l1 ++ T :: l2 /\ hits x v T a /\ n = t_n T /\ forall T' s, In T' l1 -> hits x v T' s -> within dmax s -> a < s) /\
      (forall T s, In T mesh -> hits x v T s -> within dmax s -> a <= s)
  | (None, border, n) => border = (-1)%Z /\ n = P3 0 0 0 /\ forall T s, In T mesh -> hits x v T s -> ~ within dmax s
  end.
Proof. pose proof (dist_loop label x v dmax mesh) as H. destruct (stl_distance _ _ _ _ _) as [[[a|] border] n]; exact H. Qed.

(* ---- the inside ---- *)
Theorem C62_point_inside mesh B p : body mesh B -> Forall normal_ok mesh -> ~ on_mesh mesh p ->
  (forall v, In v directions -> crosses mesh B p v) -> (point_inside mesh p = true <-> B p).
Proof. apply inside_body. Qed.
(* For the surface of a convex body: the points inside are found; so are the points
   outside, if the half lines along the axes which meet the surface go through the body. *)
Theorem C62_convex mesh p : convex mesh ->
  (strictly_inside mesh p -> point_inside mesh p = true) /\
  (~ on_mesh mesh p ->
   (forall v, In v directions -> (exists s, 0 <= s /\ on_mesh mesh (at_ p v s)) -> exists s, 0 <= s /\ strictly_inside mesh (at_ p v s)) ->
   point_inside mesh p = true -> strictly_inside mesh p).
Proof. intros H. split; [now apply convex_inside_in|]. intros Hp HG. now apply convex_inside. Qed.
(* The box of the mesh contains the surface and the body. *)
Theorem C62_bounds mesh p : (on_mesh mesh p \/ (convex mesh /\ strictly_inside mesh p)) -> in_box mesh p.
Proof. intros [H|[H1 H2]]; [now apply on_mesh_box|now apply convex_box]. Qed.
Print Assumptions C62_intersection.
Print Assumptions C62_distance.
Print Assumptions C62_point_inside.
Print Assumptions C62_convex.
Print Assumptions C62_bounds.

(* ---- the domain ---- *)
(* no point of the grid is on the surface, and no half line along an axis from a point of
   the grid only touches the body *)
Definition general (g : grid) (mesh : list tri) : Prop := forall c, let p := pt (point g c) in
  ~ on_mesh mesh p /\
  forall v, In v directions -> (exists s, 0 <= s /\ on_mesh mesh (at_ p v s)) -> exists s, 0 <= s /\ strictly_inside mesh (at_ p v s).

Lemma stl_in g big fluid label mesh c : convex mesh -> general g mesh ->
  (e_in (stl_elem big fluid label mesh) (point g c) = true <-> strictly_inside mesh (pt (point g c))).
Proof. intros HX HG. destruct (HG c) as [G1 G2]. cbn [stl_elem e_in]. now apply convex_inside. Qed.
Lemma pt_nth x d : (d < 3)%nat -> nth d (coordinates (pt x)) 0 = x@@d.
Proof. intros H. destruct d as [|[|[|d]]]; [reflexivity|reflexivity|reflexivity|lia]. Qed.
Lemma stl_bounds_ok g big fluid label mesh : dim g = 3%nat -> convex mesh -> general g mesh -> bounds_ok g (stl_elem big fluid label mesh).
Proof.
  intros H3 HX HG c d Hin Hd. rewrite H3 in Hd. apply (stl_in g) in Hin; auto. pose proof (convex_box mesh _ HX Hin d Hd) as H.
  rewrite pt_nth in H by exact Hd. exact H.
Qed.
Lemma pt_shift g c v t : dim g = 3%nat -> forall d, (d < 3)%nat ->
  nth d (coordinates (at_ (pt (point g c)) (pt (displacement g v)) t)) 0 == (point g c)@@d + t * (displacement g v)@@d.
Proof. intros H3 d Hd. destruct d as [|[|[|d]]]; [| | |lia]; unfold coordinates, at_, pt; cbn [nth qx qy qz]; ring. Qed.
Lemma pt_shift1 g c v : dim g = 3%nat -> eq3 (at_ (pt (point g c)) (pt (displacement g v)) 1) (pt (point g (shift g c v))).
Proof.
  intros H3. unfold eq3, at_, pt. cbn [qx qy qz]. rewrite !point_nth by (rewrite H3; lia). unfold displacement. rewrite !nth_axes by (rewrite H3; lia).
  rewrite !shift_nth by (rewrite H3; lia). rewrite !inject_Z_plus. repeat split; ring.
Qed.
(* a segment between the inside and the outside hits the surface *)
Lemma convex_hit mesh p v : convex mesh -> (strictly_inside mesh p <-> ~ strictly_inside mesh (at_ p v 1)) -> exists T s, In T mesh /\ hits p v T s /\ s <= 1.
Proof.
  intros HX HD. pose proof (x_normal _ HX) as HN. rewrite Forall_forall in HN.
  assert (K : forall T s, In T mesh -> on_tri T (at_ p v s) -> side T p < 0 \/ side T (at_ p v 1) < 0 -> ~ parallel_to v T).
  { intros T s HT Ho H C. apply (normal_parallel v T (HN T HT)) in C. rewrite dot3_sym in C. pose proof (side_plane T _ (HN T HT) Ho) as Z.
    rewrite !side_at in *. rewrite C in *. lra. }
  destruct (inside_dec mesh p) as [I|I].
  - destruct (convex_exit mesh p v HX I) as [L|(t & Ht & T & HT & Ho)]; [exfalso; now apply HD|].
    exists T, t. split; [exact HT|]. split; [|apply Ht]. split; [lra|]. split; [exact Ho|]. apply (K T t HT Ho). left. now apply I.
  - destruct (inside_dec mesh (at_ p v 1)) as [J|J]; [|exfalso; tauto].
    set (w := P3 (- qx v) (- qy v) (- qz v)).
    assert (E : forall t, eq3 (at_ (at_ p v 1) w t) (at_ p v (1 - t))) by (intros t; unfold eq3, at_, w; cbn [qx qy qz]; repeat split; ring).
    destruct (convex_exit mesh (at_ p v 1) w HX J) as [L|(t & Ht & T & HT & Ho)].
    + exfalso. apply I. apply (inside_eq mesh (at_ (at_ p v 1) w 1)); [|exact L]. destruct (E 1) as (E1 & E2 & E3). destruct (at_0 p v) as (F1 & F2 & F3).
      destruct (at_eq p v (1 - 1) 0) as (G1 & G2 & G3); [ring|]. repeat split; (etransitivity; [eassumption|]); (etransitivity; eassumption).
    + apply (on_tri_eq T _ _ (E t)) in Ho. exists T, (1 - t). split; [exact HT|]. split; [|lra]. split; [lra|]. split; [exact Ho|].
      apply (K T (1 - t) HT Ho). right. now apply J.
Qed.
Lemma stl_alpha g big label fluid mesh c v : ~ on_mesh mesh (pt (point g c)) ->
  let a := e_alpha (stl_elem big fluid label mesh) (point g c) (displacement g v) in
  (a = big /\ forall T s, In T mesh -> hits (pt (point g c)) (pt (displacement g v)) T s -> 1 < s) \/
  (0 < a <= 1 /\ e_border (stl_elem big fluid label mesh) (point g c) (displacement g v) = label /\
   (exists T, In T mesh /\ hits (pt (point g c)) (pt (displacement g v)) T a /\
      forall j, e_norm (stl_elem big fluid label mesh) (point g c) (displacement g v) j = nth j (coordinates (t_n T)) 0) /\
   forall T s, In T mesh -> hits (pt (point g c)) (pt (displacement g v)) T s -> a <= s).
Proof.
  intros Hp. cbn [stl_elem e_alpha e_border e_norm]. set (p := pt (point g c)) in *. set (w := pt (displacement g v)).
  pose proof (C62_distance mesh label p w (Some 1)) as H. destruct (stl_distance _ _ _ _ _) as [[[a|] border] n]; cbn [fst snd within] in *.
  - right. destruct H as (H1 & H2 & (l1 & T & l2 & E & HT & Hn & _) & H4). assert (I : In T mesh) by (rewrite E; apply in_app_iff; right; now left).
    split; [split; [|exact H2]|].
    + destruct HT as (H0 & Ho & _). apply Qle_lteq in H0. destruct H0 as [H0|H0]; [exact H0|]. exfalso. apply Hp. exists T. split; [exact I|].
      apply (on_tri_eq T (at_ p w a)); [|exact Ho]. destruct (at_eq p w a 0) as (A1 & A2 & A3); [now symmetry|]. destruct (at_0 p w) as (A4 & A5 & A6).
      repeat split; etransitivity; eassumption.
    + split; [exact H1|]. split; [exists T; split; [exact I|]; split; [exact HT|now rewrite Hn]|]. intros T' s HT' Hs.
      destruct (Qlt_le_dec 1 s); [lra|]. now apply (H4 T').
  - left. destruct H as (_ & _ & H). split; [reflexivity|]. intros T s HT Hs. specialize (H T s HT Hs). now apply Qnot_le_lt.
Qed.
Lemma stl_distance_ok g fluid label mesh : dim g = 3%nat -> convex mesh -> general g mesh -> distance_ok g (stl_elem (-1) fluid label mesh).
Proof.
  intros H3 HX HG c v Hv. cbv zeta. destruct (HG c) as [Hp _].
  assert (X : e_in (stl_elem (-1) fluid label mesh) (point g c) = fluid -> e_in (stl_elem (-1) fluid label mesh) (point g (shift g c v)) = negb fluid ->
    exists T s, In T mesh /\ hits (pt (point g c)) (pt (displacement g v)) T s /\ s <= 1).
  { intros E1 E2. apply convex_hit; [exact HX|]. pose proof (stl_in g (-1) fluid label mesh c HX HG) as I1.
    pose proof (stl_in g (-1) fluid label mesh (shift g c v) HX HG) as I2. rewrite E1 in I1. rewrite E2 in I2.
    assert (J : strictly_inside mesh (at_ (pt (point g c)) (pt (displacement g v)) 1) <-> strictly_inside mesh (pt (point g (shift g c v)))).
    { pose proof (pt_shift1 g c v H3) as E. split; apply inside_eq; [exact E|now apply eq3_sym]. }
    rewrite J, <- I1, <- I2. destruct fluid; cbn [negb]; intuition discriminate. }
  destruct (stl_alpha g (-1) label fluid mesh c v Hp) as [[Ea Hn]|(Ha & _ & (T & HT & Hh & _) & _)].
  - rewrite Ea. split; [lra|]. split; [intros C; exfalso; lra|]. intros E1 E2. destruct (X E1 E2) as (T & s & HT & Hs & L). specialize (Hn T s HT Hs). lra.
  - split; [apply Ha|]. split; [|intros _ _; apply Ha]. intros _. eexists. split; [split; [apply Qlt_le_weak|]; apply Ha|]. intros d Hd. rewrite H3 in Hd.
    destruct Hh as (_ & Ho & _). pose proof (on_mesh_box mesh _ (ex_intro _ T (conj HT Ho)) d Hd) as B. rewrite pt_shift in B by assumption. exact B.
Qed.

(* Where the distance is inf: for a solid element the domain is the same as if distance
   gave -1, as it does for the other elements. *)
Definition minus_one (e e' : elem) : Prop :=
  (e' = e /\ forall x dv, e_alpha e x dv <= 1) \/
  exists big label mesh, 999 < big /\ e = stl_elem big false label mesh /\ e' = stl_elem (-1) false label mesh.
Definition small (D : dom) : Prop := forall k c, l_dist (d_link D k c) <= 999.
Definition same_dom (D D' : dom) : Prop := (forall c, d_ioo D c = d_ioo D' c) /\ forall k c, d_link D k c = d_link D' k c.

Lemma link_ioo g e ioo ioo' v c l : (forall c, ioo c = ioo' c) -> link_elem g e ioo v c l = link_elem g e ioo' v c l.
Proof. intros H. unfold link_elem. now rewrite !H. Qed.
Lemma qvalin_small : qvalin <= 999. Proof. discriminate. Qed.
Lemma link_small g e ioo v c l : l_dist l <= 999 -> (forall x dv, e_alpha e x dv <= 1) -> l_dist (link_elem g e ioo v c l) <= 999.
Proof.
  intros Hl Ha. unfold link_elem. cbv zeta. destruct (_ && (if e_fluid e then _ else _)); [cbn [l_dist]; specialize (Ha (point g c) (displacement g v)); lra|].
  pose proof qvalin_small. destruct (e_fluid e); [destruct (_ && _)|destruct (e_in _ _)]; auto.
Qed.
Lemma stl_minus_small label mesh x dv : e_alpha (stl_elem (-1) false label mesh) x dv <= 1.
Proof.
  cbn [stl_elem e_alpha]. pose proof (C62_distance mesh label (pt x) (pt dv) (Some 1)) as H. destruct (stl_distance _ _ _ _ _) as [[[a|] border] n]; cbn [fst within] in *; [apply H|lra].
Qed.
Lemma link_big g big label mesh ioo v c l : 999 < big -> l_dist l <= 999 ->
  link_elem g (stl_elem big false label mesh) ioo v c l = link_elem g (stl_elem (-1) false label mesh) ioo v c l.
Proof.
  intros Hb Hl. unfold link_elem. cbv zeta. cbn [stl_elem e_fluid e_in e_alpha e_border e_norm].
  change (shifted g (stl_elem big false label mesh) v c) with (shifted g (stl_elem (-1) false label mesh) v c).
  change (empty_shift g (stl_elem big false label mesh) v) with (empty_shift g (stl_elem (-1) false label mesh) v).
  destruct (stl_distance _ _ _ _ _) as [[[a|] border] n]; cbn [fst snd]; [reflexivity|].
  set (l1 := if point_inside _ _ then _ else l).
  assert (H1 : l_dist l1 <= 999) by (unfold l1; destruct (point_inside _ _); [apply qvalin_small|exact Hl]).
  assert (E : Qltb big (l_dist l1) = false) by (apply Qltb_false; lra). rewrite E, andb_false_r.
  assert (E' : Qltb 0 (-1) = false) by reflexivity. now rewrite E'.
Qed.
Lemma add_same g e e' D D' : minus_one e e' -> small D -> same_dom D D' ->
  match add_elem g e D, add_elem g e' D' with
  | Some D1, Some D1' => small D1 /\ same_dom D1 D1' | None, None => True | _, _ => False
  end.
Proof.
  intros HM HS [H1 H2]. unfold add_elem.
  assert (EI : forall e0, forall c, ioo_elem g e0 (d_ioo D) c = ioo_elem g e0 (d_ioo D') c) by (intros e0 c; unfold ioo_elem; now rewrite H1).
  destruct HM as [[-> Ha]|(big & label & mesh & Hb & -> & ->)].
  - destruct (existsb _ _); [exact I|]. split; [|split].
    + intros k c. cbn [d_link]. destruct (nth_error _ k) as [v|]; [|apply HS]. destruct (_ && _); [|apply HS]. apply link_small; [apply HS|exact Ha].
    + exact (EI e).
    + intros k c. cbn [d_link]. rewrite <- H2. destruct (nth_error _ k) as [v|]; [|reflexivity]. destruct (_ && _); [|reflexivity]. apply link_ioo, EI.
  - change (existsb (shape_error g (stl_elem big false label mesh)) (g_vel g)) with (existsb (shape_error g (stl_elem (-1) false label mesh)) (g_vel g)).
    destruct (existsb _ _); [exact I|]. change (in_view g (stl_elem big false label mesh)) with (in_view g (stl_elem (-1) false label mesh)).
    change (ioo_elem g (stl_elem big false label mesh)) with (ioo_elem g (stl_elem (-1) false label mesh)).
    split; [|split].
    + intros k c. cbn [d_link]. destruct (nth_error _ k) as [v|]; [|apply HS]. destruct (_ && _); [|apply HS]. rewrite link_big by (try exact Hb; apply HS).
      apply link_small; [apply HS|apply stl_minus_small].
    + exact (EI _).
    + intros k c. cbn [d_link]. rewrite <- H2. destruct (nth_error _ k) as [v|]; [|reflexivity]. destruct (_ && _); [|reflexivity].
      rewrite link_big by (try exact Hb; apply HS). apply link_ioo, EI.
Qed.
Lemma init_small g D : add_init g = Some D -> small D.
Proof.
  unfold add_init. destruct (rows_exist g); [|discriminate]. intros H. injection H as <-. intros k c. cbn [d_link].
  destruct (interior g c) eqn:Hc; [|rewrite (init_links_out g k c Hc); discriminate].
  destruct (nth_error (g_vel g) k) as [v|] eqn:Hk; [|rewrite (init_links_novel g k c Hk); discriminate].
  rewrite (init_links_cell g k c v Hc Hk). destruct (axes_fold g c v Hc (dim g) (Nat.le_refl _)) as [[_ E]|(d & Hd & Hcd & Hl & _)].
  - unfold axes. rewrite E. discriminate.
  - unfold axes. rewrite Hl. pose proof (T_range g c v d Hd Hc Hcd). lra.
Qed.
Theorem C62_infinity g es es' : Forall2 minus_one es es' ->
  match domain_init g es, domain_init g es' with
  | Some D, Some D' => (forall c, d_ioo D c = d_ioo D' c) /\ forall k c, d_link D k c = d_link D' k c
  | None, None => True
  | _, _ => False
  end.
Proof.
  intros H. unfold domain_init. destruct (add_init g) as [D0|] eqn:E0; [|exact I]. apply init_small in E0.
  assert (G : forall D D', small D -> same_dom D D' ->
    match add_elems g es D, add_elems g es' D' with Some D1, Some D1' => same_dom D1 D1' | None, None => True | _, _ => False end).
  { induction H as [|e e' es es' He H IH]; intros D D' HS HD; cbn [add_elems]; [exact HD|].
    pose proof (add_same g e e' D D' He HS HD) as A. destruct (add_elem g e D) as [D1|], (add_elem g e' D') as [D1'|]; try contradiction; [|exact I]. destruct A. now apply IH. }
  specialize (G D0 D0 E0 (conj (fun _ => eq_refl) (fun _ _ => eq_refl))). destruct (add_elems g es D0) as [D1|], (add_elems g es' D0) as [D1'|]; try contradiction; [|exact I].
  destruct G as [G1 G2]. cbn [clean d_ioo d_link]. split; [exact G1|]. intros k c. now rewrite G1, G2.
Qed.

(* Solid elements: the fluid cells are those outside of all the bodies, and a fluid cell
   has a link exactly where the next cell is not fluid. *)
Definition solids (big : Q) (ms : list (Z * list tri)) : list elem := map (fun m => stl_elem big false (fst m) (snd m)) ms.
Lemma solids_minus big ms : 999 < big -> Forall2 minus_one (solids big ms) (solids (-1) ms).
Proof. intros Hb. induction ms as [|m ms IH]; [constructor|]. constructor; [|exact IH]. right. exists big, (fst m), (snd m). auto. Qed.
Theorem C62_domain g ms big D : wf_grid g -> dim g = 3%nat -> 999 < big ->
  (forall m, In m ms -> convex (snd m) /\ general g (snd m)) -> domain_init g (solids big ms) = Some D ->
  (forall c, interior g c = true -> (d_ioo D c = true <-> forall m, In m ms -> ~ strictly_inside (snd m) (pt (point g c)))) /\
  (forall k v c, nth_error (g_vel g) k = Some v -> vzero g v = false -> interior g c = true -> d_ioo D c = true ->
     interior g (shift g c v) = true \/ beyond_wall g c v ->
     if d_ioo D (shift g c v) then l_dist (d_link D k c) = qvalin /\ l_flag (d_link D k c) = valin else 0 < l_dist (d_link D k c) <= 1).
Proof.
  intros W H3 Hb HM HD. pose proof (C62_infinity g _ _ (solids_minus big ms Hb)) as HI. rewrite HD in HI.
  destruct (domain_init g (solids (-1) ms)) as [D'|] eqn:HD'; [|contradiction]. destruct HI as [I1 I2].
  assert (HE : forall e, In e (solids (-1) ms) -> exists m, In m ms /\ e = stl_elem (-1) false (fst m) (snd m)).
  { intros e He. apply in_map_iff in He. destruct He as (m & <- & Hm). eauto. }
  assert (HE2 : forall e, In e (solids (-1) ms) -> bounds_ok g e /\ distance_ok g e).
  { intros e He. destruct (HE e He) as (m & Hm & ->). destruct (HM m Hm). split; [now apply stl_bounds_ok|now apply stl_distance_ok]. }
  split.
  - intros c Hc. rewrite I1. destruct (C15_last_element_decides g _ D' c W (fun e He => proj1 (HE2 e He)) HD' (interior_nonneg g c W Hc)) as [[C _]|[_ L]]; [congruence|].
    split.
    + intros Ht m Hm C. rewrite Ht in L. destruct L as [[L _]|(l1 & e & l2 & E & Lin & _ & Lf)].
      * assert (Hin : In (stl_elem (-1) false (fst m) (snd m)) (solids (-1) ms)) by (apply in_map_iff; eauto). specialize (L _ Hin). destruct (HM m Hm).
        apply (stl_in g (-1) false (fst m)) in C; auto. congruence.
      * assert (Hin : In e (solids (-1) ms)) by (rewrite E; apply in_app_iff; right; now left). destruct (HE e Hin) as (m' & _ & ->). discriminate.
    + intros HN. destruct L as [[_ L]|(l1 & e & l2 & E & Lin & _ & Lf)]; [exact L|]. exfalso.
      assert (Hin : In e (solids (-1) ms)) by (rewrite E; apply in_app_iff; right; now left). destruct (HE e Hin) as (m & Hm & ->). destruct (HM m Hm).
      apply (HN m Hm). apply (stl_in g (-1) false (fst m)) in Lin; auto.
  - intros k v c Hk Hv Hc Hf Ht. rewrite I1, I2. rewrite I1 in Hf. apply (C15_links g _ D' W HE2 HD' k v c Hk Hv Hc Hf).
    destruct Ht as [Ht|Ht]; [now left|right]. split; [exact Ht|]. intros e He Ef. destruct (HE e He) as (m & _ & ->). discriminate.
Qed.
(* One solid element: the link from a fluid cell into the body carries the first
   intersection with the surface, the label and the normal vector to the inside. *)
Theorem C62_link g label mesh big D : wf_grid g -> dim g = 3%nat -> 999 < big -> convex mesh -> general g mesh ->
  domain_init g [stl_elem big false label mesh] = Some D ->
  forall k v c, nth_error (g_vel g) k = Some v -> vzero g v = false -> interior g c = true -> d_ioo D c = true ->
  interior g (shift g c v) = true -> d_ioo D (shift g c v) = false ->
  l_flag (d_link D k c) = label /\
  (exists T, In T mesh /\ hits (pt (point g c)) (pt (displacement g v)) T (l_dist (d_link D k c)) /\
     forall j, l_norm (d_link D k c) j = - nth j (coordinates (t_n T)) 0) /\
  (forall T s, In T mesh -> hits (pt (point g c)) (pt (displacement g v)) T s -> l_dist (d_link D k c) <= s).
Proof.
  intros W H3 Hb HX HG HD k v c Hk Hv Hc Hf Hs Hfs.
  pose proof (C62_infinity g _ _ (solids_minus big [(label, mesh)] Hb)) as HI. cbn [solids map fst snd] in HI. rewrite HD in HI.
  destruct (domain_init g [stl_elem (-1) false label mesh]) as [D'|] eqn:HD'; [|contradiction]. destruct HI as [I1 I2]. rewrite I1 in Hf, Hfs. rewrite I2.
  set (e := stl_elem (-1) false label mesh) in *.
  assert (B : bounds_ok g e) by now apply stl_bounds_ok. assert (DK : distance_ok g e) by now apply stl_distance_ok.
  assert (Hvel : In v (g_vel g)) by (eapply nth_error_In; eassumption).
  unfold domain_init, add_init in HD'. destruct (rows_exist g); [|discriminate]. cbn [add_elems] in HD'. unfold add_elem in HD'.
  destruct (existsb _ _); [discriminate|]. injection HD' as <-. cbn [clean d_ioo d_link] in *. rewrite Hf, andb_false_r. cbn [negb].
  rewrite !(ioo_elem_spec g W e B) in Hf by (now apply interior_nonneg). rewrite !(ioo_elem_spec g W e B) in Hfs by (now apply interior_nonneg).
  rewrite Hc in Hf. rewrite Hs in Hfs. cbn [andb e_fluid e stl_elem] in Hf, Hfs.
  destruct (e_in e (point g c)) eqn:Ec; [discriminate|]. destruct (e_in e (point g (shift g c v))) eqn:Es; [|congruence].
  rewrite Hk. destruct (DK c v Hvel) as (_ & _ & Hpos). specialize (Hpos Ec Es).
  assert (V : in_view g e c = true).
  { apply (view_of_near g W e B c (shift g c v) Es); [|exact Hc]. intros d Hd. split; [now apply (interior_nonneg g _ W Hs)|].
    rewrite shift_nth by exact Hd. pose proof (wf_v g W _ _ Hvel Hd). lia. }
  rewrite V, Hv. cbn [andb negb]. rewrite (link_elem_eq g W e _ v c _ Hvel Hc V DK). cbv zeta.
  rewrite !(ioo_elem_spec g W e B) by (now apply interior_nonneg). rewrite Hs, Ec, Es. cbn [andb e_fluid e stl_elem negb Bool.eqb].
  fold e. rewrite (proj2 (Qltb_true _ _) Hpos). cbn [andb].
  destruct (init_unflagged g c k v Hc Hk) as [L0 _]. rewrite (L0 (interior_in_box g c v Hc Hs)).
  pose proof (stl_alpha g (-1) label false mesh c v (proj1 (HG c))) as A. fold e in A. cbv zeta in A. destruct A as [[Ea _]|(Ha & Hbd & (T & HT & Hh & Hn) & Hm)].
  - exfalso. rewrite Ea in Hpos. lra.
  - assert (El : Qltb (e_alpha e (point g c) (displacement g v)) (l_dist link0) = true) by (apply Qltb_true; change (l_dist link0) with 999; lra).
    rewrite El. cbn [l_flag l_dist l_norm]. split; [exact Hbd|]. split; [|exact Hm]. exists T. split; [exact HT|]. split; [exact Hh|]. intros j. now rewrite Hn.
Qed.
Print Assumptions C62_infinity.
Print Assumptions C62_domain.
Print Assumptions C62_link.

(* ---- examples: the meshes of the boxes ---- *)
(* a triangle with the normal vector of numpy-stl *)
Definition facet (a b c : p3) : tri := mkTri a b c (cross3 (sub3 b a) (sub3 c a)).
Definition quad (a b c d : p3) : list tri := [facet a b c; facet a c d].
Definition box_mesh (lo hi : p3) : list tri :=
  let p x y z := P3 x y z in
  let x0 := qx lo in let y0 := qy lo in let z0 := qz lo in let x1 := qx hi in let y1 := qy hi in let z1 := qz hi in
  quad (p x0 y0 z0) (p x0 y0 z1) (p x0 y1 z1) (p x0 y1 z0) ++ quad (p x1 y0 z0) (p x1 y1 z0) (p x1 y1 z1) (p x1 y0 z1) ++
  quad (p x0 y0 z0) (p x1 y0 z0) (p x1 y0 z1) (p x0 y0 z1) ++ quad (p x0 y1 z0) (p x0 y1 z1) (p x1 y1 z1) (p x1 y1 z0) ++
  quad (p x0 y0 z0) (p x0 y1 z0) (p x1 y1 z0) (p x1 y0 z0) ++ quad (p x0 y0 z1) (p x1 y0 z1) (p x1 y1 z1) (p x0 y1 z1).
Definition lt3 (p q : p3) : Prop := qx p < qx q /\ qy p < qy q /\ qz p < qz q.
Definition le3 (p q : p3) : Prop := qx p <= qx q /\ qy p <= qy q /\ qz p <= qz q.

Section Box.
Variables lo hi : p3.
Hypothesis L : lt3 lo hi.
Notation B := (box_mesh lo hi).
(* the six planes *)
Definition plane (i : nat) (q : p3) : Q :=
  match i with 0%nat => qx lo - qx q | 1%nat => qx q - qx hi | 2%nat => qy lo - qy q | 3%nat => qy q - qy hi | 4%nat => qz lo - qz q | _ => qz q - qz hi end.
Definition area (i : nat) : Q :=
  match i with 0%nat | 1%nat => (qy hi - qy lo) * (qz hi - qz lo) | 2%nat | 3%nat => (qx hi - qx lo) * (qz hi - qz lo) | _ => (qx hi - qx lo) * (qy hi - qy lo) end.
Lemma area_pos i : 0 < area i.
Proof. destruct L as (L1 & L2 & L3). destruct i as [|[|[|[|[|i]]]]]; cbn [area]; nra. Qed.
Lemma box_side T : In T B -> exists i, (i < 6)%nat /\ forall q, side T q == area i * plane i q.
Proof.
  unfold box_mesh, quad. cbn [app]. intros H. repeat (destruct H as [<-|H]; [|]); try contradiction;
    [exists 0%nat|exists 0%nat|exists 1%nat|exists 1%nat|exists 2%nat|exists 2%nat|exists 3%nat|exists 3%nat|exists 4%nat|exists 4%nat|exists 5%nat|exists 5%nat];
    (split; [lia|]); intros q; unfold side, facet, dot3, cross3, sub3, area, plane; cbn [t_n t_a t_b t_c qx qy qz]; ring.
Qed.
Lemma box_face i : (i < 6)%nat -> exists T, In T B /\ forall q, side T q == area i * plane i q.
Proof.
  intros H. exists (nth (i + i) B (facet lo lo lo)). split; [apply nth_In; cbn; lia|]. intros q.
  destruct i as [|[|[|[|[|[|i]]]]]]; [| | | | | |lia]; cbn [Nat.add]; unfold box_mesh, quad; cbn [app nth];
    unfold side, facet, dot3, cross3, sub3, area, plane; cbn [t_n t_a t_b t_c qx qy qz]; ring.
Qed.
Lemma box_closed q : (forall T, In T B -> side T q <= 0) <-> le3 lo q /\ le3 q hi.
Proof.
  assert (E : (forall T, In T B -> side T q <= 0) <-> forall i, (i < 6)%nat -> plane i q <= 0).
  { split.
    - intros H i Hi. destruct (box_face i Hi) as (T & HT & ET). specialize (H T HT). rewrite ET in H. pose proof (area_pos i). nra.
    - intros H T HT. destruct (box_side T HT) as (i & Hi & ->). specialize (H i Hi). pose proof (area_pos i). nra. }
  rewrite E. unfold le3. split.
  - intros H. pose proof (H 0%nat). pose proof (H 1%nat). pose proof (H 2%nat). pose proof (H 3%nat). pose proof (H 4%nat). pose proof (H 5%nat). cbn [plane] in *.
    repeat match goal with H : (_ < _)%nat -> _ |- _ => specialize (H ltac:(lia)) end. lra.
  - intros H i Hi. destruct i as [|[|[|[|[|[|i]]]]]]; cbn [plane]; lra || lia.
Qed.
Lemma box_open q : strictly_inside B q <-> lt3 lo q /\ lt3 q hi.
Proof.
  assert (E : strictly_inside B q <-> forall i, (i < 6)%nat -> plane i q < 0).
  { split.
    - intros H i Hi. destruct (box_face i Hi) as (T & HT & ET). specialize (H T HT). rewrite ET in H. pose proof (area_pos i). nra.
    - intros H T HT. destruct (box_side T HT) as (i & Hi & ->). specialize (H i Hi). pose proof (area_pos i). nra. }
  rewrite E. unfold lt3. split.
  - intros H. pose proof (H 0%nat). pose proof (H 1%nat). pose proof (H 2%nat). pose proof (H 3%nat). pose proof (H 4%nat). pose proof (H 5%nat). cbn [plane] in *.
    repeat match goal with H : (_ < _)%nat -> _ |- _ => specialize (H ltac:(lia)) end. lra.
  - intros H i Hi. destruct i as [|[|[|[|[|[|i]]]]]]; cbn [plane]; lra || lia.
Qed.
(* a point of a rectangle is on one of its two triangles *)
Lemma frac_range a b x : a < b -> a <= x <= b -> 0 <= (x - a) / (b - a) <= 1 /\ x == a + (x - a) / (b - a) * (b - a).
Proof.
  intros H1 H2. split; [split; [apply Qle_shift_div_l|apply Qle_shift_div_r]; lra|]. field. lra.
Qed.
Lemma on_quad a b c d q u w : 0 <= u <= 1 -> 0 <= w <= 1 ->
  (forall f, In f [qx; qy; qz] -> f q == f a + u * (f b - f a) + w * (f d - f a) /\ f c == f b + f d - f a) ->
  on_tri (facet a b c) q \/ on_tri (facet a c d) q.
Proof.
  intros Hu Hw H. destruct (H qx) as [X1 X2]; [cbn; auto|]. destruct (H qy) as [Y1 Y2]; [cbn; auto|]. destruct (H qz) as [Z1 Z2]; [cbn; auto|].
  destruct (Qlt_le_dec u w).
  - right. exists (w - u), u. cbn [facet t_a t_b t_c]. repeat (split; [lra|]). rewrite X1, Y1, Z1, X2, Y2, Z2. repeat split; ring.
  - left. exists w, (u - w). cbn [facet t_a t_b t_c]. repeat (split; [lra|]). rewrite X1, Y1, Z1, X2, Y2, Z2. repeat split; ring.
Qed.
Lemma box_cover q : le3 lo q -> le3 q hi -> (exists i, (i < 6)%nat /\ plane i q == 0) -> on_mesh B q.
Proof.
  intros (A1 & A2 & A3) (B1 & B2 & B3) (i & Hi & E). destruct L as (L1 & L2 & L3).
  destruct (frac_range _ _ (qx q) L1 (conj A1 B1)) as [Fx Ex]. destruct (frac_range _ _ (qy q) L2 (conj A2 B2)) as [Fy Ey].
  destruct (frac_range _ _ (qz q) L3 (conj A3 B3)) as [Fz Ez]. set (u := (qx q - qx lo) / (qx hi - qx lo)) in *. set (v := (qy q - qy lo) / (qy hi - qy lo)) in *.
  set (w := (qz q - qz lo) / (qz hi - qz lo)) in *. clearbody u v w.
  assert (K : forall a b c d s t, (exists l r, B = l ++ quad a b c d ++ r) -> 0 <= s <= 1 -> 0 <= t <= 1 ->
    (forall f, In f [qx; qy; qz] -> f q == f a + s * (f b - f a) + t * (f d - f a) /\ f c == f b + f d - f a) -> on_mesh B q).
  { intros a b c d s t (l & r & EB) Hs Ht H. destruct (on_quad a b c d q s t Hs Ht H) as [O|O]; eexists; (split; [|exact O]); rewrite EB; apply in_or_app; right; apply in_or_app; left; cbn; auto. }
  destruct i as [|[|[|[|[|[|i]]]]]]; [| | | | | |lia]; cbn [plane] in E.
  - eapply (K _ _ _ _ w v); [exists (firstn 0 B), (skipn 2 B); reflexivity|assumption|assumption|].
    intros f [<-|[<-|[<-|[]]]]; cbn [qx qy qz]; (split; [|ring]); lra.
  - eapply (K _ _ _ _ v w); [exists (firstn 2 B), (skipn 4 B); reflexivity|assumption|assumption|].
    intros f [<-|[<-|[<-|[]]]]; cbn [qx qy qz]; (split; [|ring]); lra.
  - eapply (K _ _ _ _ u w); [exists (firstn 4 B), (skipn 6 B); reflexivity|assumption|assumption|].
    intros f [<-|[<-|[<-|[]]]]; cbn [qx qy qz]; (split; [|ring]); lra.
  - eapply (K _ _ _ _ w u); [exists (firstn 6 B), (skipn 8 B); reflexivity|assumption|assumption|].
    intros f [<-|[<-|[<-|[]]]]; cbn [qx qy qz]; (split; [|ring]); lra.
  - eapply (K _ _ _ _ v u); [exists (firstn 8 B), (skipn 10 B); reflexivity|assumption|assumption|].
    intros f [<-|[<-|[<-|[]]]]; cbn [qx qy qz]; (split; [|ring]); lra.
  - eapply (K _ _ _ _ u v); [exists (firstn 10 B), (skipn 12 B); reflexivity|assumption|assumption|].
    intros f [<-|[<-|[<-|[]]]]; cbn [qx qy qz]; (split; [|ring]); lra.
Qed.
Lemma box_corner T p : In T B -> In p [t_a T; t_b T; t_c T] -> le3 lo p /\ le3 p hi.
Proof.
  destruct L as (L1 & L2 & L3). unfold box_mesh, quad. cbn [app]. intros H. repeat (destruct H as [<-|H]; [|]); try contradiction;
    cbn [facet t_a t_b t_c]; intros [<-|[<-|[<-|[]]]]; unfold le3; cbn [qx qy qz]; lra.
Qed.
Lemma box_on q : on_mesh B q -> le3 lo q /\ le3 q hi /\ exists i, (i < 6)%nat /\ plane i q == 0.
Proof.
  intros (T & HT & Ho).
  destruct (box_corner T (t_a T) HT) as ((A1 & A2 & A3) & (A4 & A5 & A6)); [cbn; auto|]. destruct (box_corner T (t_b T) HT) as ((B1 & B2 & B3) & (B4 & B5 & B6)); [cbn; auto|].
  destruct (box_corner T (t_c T) HT) as ((C1 & C2 & C3) & (C4 & C5 & C6)); [cbn; auto|].
  assert (Z : side T q == 0).
  { apply side_plane; [|exact Ho]. exists 1. split; [lra|]. cbv zeta.
    assert (E : t_n T = cross3 (sub3 (t_b T) (t_a T)) (sub3 (t_c T) (t_a T))).
    { unfold box_mesh, quad in HT. cbn [app] in HT. repeat (destruct HT as [<-|HT]; [reflexivity|]). contradiction. }
    rewrite E. repeat split; ring. }
  destruct Ho as (a & b & Ha & Hb & Hab & E1 & E2 & E3). unfold le3. rewrite E1, E2, E3. split; [repeat split; nra|]. split; [repeat split; nra|].
  destruct (box_side T HT) as (i & Hi & E). exists i. split; [exact Hi|]. rewrite E in Z. apply Qmult_integral in Z. pose proof (area_pos i). destruct Z; [lra|assumption].
Qed.
Lemma box_convex : convex B.
Proof.
  split.
  - apply Forall_forall. intros T HT. exists 1. split; [lra|]. cbv zeta.
    assert (E : t_n T = cross3 (sub3 (t_b T) (t_a T)) (sub3 (t_c T) (t_a T))).
    { unfold box_mesh, quad in HT. cbn [app] in HT. repeat (destruct HT as [<-|HT]; [reflexivity|]). contradiction. }
    rewrite E. repeat split; ring.
  - intros T T' q HT HT' Ho. destruct (box_on q (ex_intro _ T' (conj HT' Ho))) as (H1 & H2 & _). now apply box_closed.
  - intros T q HT Hc Z. apply box_closed in Hc. destruct Hc as [H1 H2]. apply box_cover; auto. destruct (box_side T HT) as (i & Hi & E). exists i. split; [exact Hi|].
    rewrite E in Z. apply Qmult_integral in Z. pose proof (area_pos i). destruct Z; [lra|assumption].
  - intros v Hv. assert (K : exists d, (d < 3)%nat /\ v = nth d directions (P3 0 0 0)).
    { destruct Hv as [<-|[<-|[<-|[]]]]; [exists 0%nat|exists 1%nat|exists 2%nat]; (split; [lia|reflexivity]). }
    destruct K as (d & Hd & ->). destruct (box_face (2 * d + 1)) as (T & HT & E); [lia|]. destruct (box_face (2 * d)) as (T' & HT' & E'); [lia|].
    exists T, T'. split; [exact HT|]. split; [exact HT'|]. set (v := nth d directions (P3 0 0 0)).
    assert (D : forall T0, dot3 (t_n T0) v == side T0 (at_ lo v 1) - side T0 lo) by (intros T0; rewrite side_at; ring).
    rewrite !D, !E, !E'. pose proof (area_pos (2 * d + 1)). pose proof (area_pos (2 * d)).
    subst v. destruct d as [|[|[|d]]]; [| | |lia]; cbn [Nat.mul Nat.add plane nth directions at_ qx qy qz] in *; split; nra.
Qed.
Definition off (p : p3) : Prop :=
  ~ qx p == qx lo /\ ~ qx p == qx hi /\ ~ qy p == qy lo /\ ~ qy p == qy hi /\ ~ qz p == qz lo /\ ~ qz p == qz hi.
Lemma box_off p : off p -> ~ on_mesh B p /\
  forall v, In v directions -> (exists s, 0 <= s /\ on_mesh B (at_ p v s)) -> exists s, 0 <= s /\ strictly_inside B (at_ p v s).
Proof.
  intros O. split.
  - intros H. destruct (box_on p H) as (_ & _ & i & Hi & E). destruct O as (O1 & O2 & O3 & O4 & O5 & O6).
    destruct i as [|[|[|[|[|[|i]]]]]]; cbn [plane] in E; [apply O1|apply O2|apply O3|apply O4|apply O5|apply O6|lia]; lra.
  - intros v Hv (s & Hs & Ho). destruct (box_on _ Ho) as ((A1 & A2 & A3) & (B1 & B2 & B3) & _). destruct L as (L1 & L2 & L3).
    destruct O as (O1 & O2 & O3 & O4 & O5 & O6).
    assert (K : forall a b x, a < b -> ~ x == a -> ~ x == b -> a <= x + s * 1 -> x + s * 1 <= b -> exists s0, 0 <= s0 /\ a < x + s0 * 1 < b).
    { intros a b x Lab Na Nb H1 H2. destruct (Qlt_le_dec a x) as [C|C].
      - exists 0. split; [lra|]. assert (x <= b) by lra. apply Qle_lteq in H. destruct H; [lra|contradiction].
      - exists ((a + b) / 2 - x). assert (E : (a + b) / 2 == (1 # 2) * (a + b)) by field. rewrite E. lra. }
    assert (Z : forall a x, a <= x + s * 0 -> ~ x == a -> a < x).
    { intros a x H N. assert (H' : a <= x) by lra. apply Qle_lteq in H'. destruct H' as [H'|H']; [exact H'|]. exfalso. apply N. lra. }
    assert (Z' : forall b x, x + s * 0 <= b -> ~ x == b -> x < b).
    { intros b x H N. assert (H' : x <= b) by lra. apply Qle_lteq in H'. destruct H' as [H'|H']; [exact H'|]. exfalso. apply N. lra. }
    destruct Hv as [<-|[<-|[<-|[]]]]; unfold at_ in *; cbn [qx qy qz] in *.
    + destruct (K _ _ _ L1 O1 O2 A1 B1) as (s0 & H0 & H). exists s0. split; [exact H0|]. apply box_open. unfold lt3. cbn [qx qy qz].
      pose proof (Z _ _ A2 O3). pose proof (Z _ _ A3 O5). pose proof (Z' _ _ B2 O4). pose proof (Z' _ _ B3 O6). lra.
    + destruct (K _ _ _ L2 O3 O4 A2 B2) as (s0 & H0 & H). exists s0. split; [exact H0|]. apply box_open. unfold lt3. cbn [qx qy qz].
      pose proof (Z _ _ A1 O1). pose proof (Z _ _ A3 O5). pose proof (Z' _ _ B1 O2). pose proof (Z' _ _ B3 O6). lra.
    + destruct (K _ _ _ L3 O5 O6 A3 B3) as (s0 & H0 & H). exists s0. split; [exact H0|]. apply box_open. unfold lt3. cbn [qx qy qz].
      pose proof (Z _ _ A1 O1). pose proof (Z _ _ A2 O3). pose proof (Z' _ _ B1 O2). pose proof (Z' _ _ B2 O4). lra.
Qed.
(* the mesh of a box: a point which is on none of the six planes is inside the element
   exactly if it is inside the box *)
Theorem C62_box p : off p -> (point_inside B p = true <-> lt3 lo p /\ lt3 p hi).
Proof. intros O. destruct (box_off p O) as [H1 H2]. rewrite <- box_open. apply convex_inside; auto. apply box_convex. Qed.
End Box.
Print Assumptions C62_box.

(* A domain of 4 x 3 x 3 cells of size 1, the label i on the side i. *)
Definition sgrid : grid := mkGrid [4; 3; 3]%Z [1; 1; 1]%Z [1; 2; 3; 4; 5; 6]%Z [[0; 0; 0]; [1; 0; 0]; [-1; 0; 0]; [0; 0; 1]; [0; 1; 1]]%Z
  [-1 # 2; -1 # 2; -1 # 2] 1.
Lemma sgrid_wf : wf_grid sgrid.
Proof.
  split; [reflexivity|]. split.
  - intros d Hd. cbn in Hd. destruct d as [|[|[|d]]]; [| | |lia]; cbn; lia.
  - intros v d Hv Hd. cbn in Hd, Hv. repeat (destruct Hv as [<-|Hv]; [|]); try contradiction; destruct d as [|[|[|d]]]; try lia; cbn; lia.
Qed.
Definition dom0 : dom := mkDom (fun _ => false) (fun _ _ => link0).
Definition dom_of (es : list elem) : dom := match domain_init sgrid es with Some D => D | None => dom0 end.
(* a box which contains the two cells [2;2;2] and [3;2;2]; its planes are off the points *)
Definition ex_box : list tri := box_mesh (P3 (5 # 4) (5 # 4) (5 # 4)) (P3 (11 # 4) (7 # 4) (9 # 5)).
Definition off_grid (q : Q) : bool := negb (Qden (Qred (q + (1 # 2))) =? 1)%positive.
Lemma half_off (q : Q) (z : Z) : off_grid q = true -> ~ (-1 # 2) + 1 * inject_Z z == q.
Proof.
  intros Hd H. assert (E : inject_Z z == q + (1 # 2)) by (rewrite <- H; ring). unfold off_grid in Hd. rewrite <- (Qred_complete _ _ E) in Hd.
  assert (R : Qred (inject_Z z) = inject_Z z).
  { unfold inject_Z, Qred. pose proof (Z.ggcd_gcd z 1) as G. pose proof (Z.ggcd_correct_divisors z 1) as C. destruct (Z.ggcd z 1) as [g [a b]]. cbn [fst] in G.
    rewrite Z.gcd_1_r in G. subst g. destruct C as [C1 C2]. rewrite Z.mul_1_l in C1, C2. subst. reflexivity. }
  rewrite R in Hd. discriminate.
Qed.
Lemma box_general lo hi : lt3 lo hi -> forallb off_grid [qx lo; qx hi; qy lo; qy hi; qz lo; qz hi] = true -> general sgrid (box_mesh lo hi).
Proof.
  intros L H c. cbv zeta. apply box_off; [exact L|]. rewrite forallb_forall in H.
  assert (K : forall q z, In q [qx lo; qx hi; qy lo; qy hi; qz lo; qz hi] -> ~ (-1 # 2) + 1 * inject_Z z == q).
  { intros q z Hq. apply half_off. now apply H. }
  unfold off, pt. cbn [qx qy qz]. rewrite !point_nth by (cbn; lia). cbn [sgrid g_x0 g_dx nth]. repeat split; apply K; cbn; auto 10.
Qed.
Example C62_ex : wf_grid sgrid /\ dim sgrid = 3%nat /\ convex ex_box /\ general sgrid ex_box /\
  let D := dom_of [stl_elem 1000 false 7 ex_box] in
  domain_init sgrid [stl_elem 1000 false 7 ex_box] = Some D /\
  map (fun i => d_ioo D [i; 2; 2]%Z) [0; 1; 2; 3; 4; 5]%Z = [false; true; false; false; true; false] /\
  l_dist (d_link D 1 [1; 2; 2]%Z) == 3 # 4 /\ l_flag (d_link D 1 [1; 2; 2]%Z) = 7%Z /\
  (* the wall *)
  l_dist (d_link D 2 [1; 2; 2]%Z) == 1 # 2 /\ l_flag (d_link D 2 [1; 2; 2]%Z) = 1%Z /\
  (* a diagonal velocity *)
  l_dist (d_link D 4 [2; 1; 1]%Z) == 3 # 4 /\ l_flag (d_link D 4 [2; 1; 1]%Z) = 7%Z.
Proof.
  assert (L : lt3 (P3 (5 # 4) (5 # 4) (5 # 4)) (P3 (11 # 4) (7 # 4) (9 # 5))) by (repeat split; reflexivity).
  split; [exact sgrid_wf|]. split; [reflexivity|]. split; [now apply box_convex|]. split; [apply box_general; [exact L|reflexivity]|].
  cbv zeta. split; [|vm_compute; repeat split].
  unfold dom_of. destruct (domain_init sgrid [stl_elem 1000 false 7 ex_box]) as [D|] eqn:E; [reflexivity|]. exfalso. revert E.
  unfold domain_init, add_init. change (rows_exist sgrid) with true. cbn [add_elems]. unfold add_elem.
  assert (X : existsb (shape_error sgrid (stl_elem 1000 false 7 ex_box)) (g_vel sgrid) = false) by (vm_compute; reflexivity). rewrite X. discriminate.
Qed.

(* ---- what does not hold ---- *)
(* A half line which only touches an edge of the body, shared by a triangle seen from the
   outside and one seen from the inside: the answer depends on the order of the triangles
   in the file, and a point outside of the body, even of its box, may count as inside. *)
Definition tetra : list tri := let o := P3 0 0 0 in let a := P3 2 0 0 in let b := P3 0 2 0 in let c := P3 0 0 2 in
  [facet a b c; facet o c b; facet o a c; facet o b a].
Lemma tetra_closed q : (forall T, In T tetra -> side T q <= 0) <-> 0 <= qx q /\ 0 <= qy q /\ 0 <= qz q /\ qx q + qy q + qz q <= 2.
Proof.
  unfold tetra. split.
  - intros H. pose proof (H _ (or_introl eq_refl)) as H1. pose proof (H _ (or_intror (or_introl eq_refl))) as H2.
    pose proof (H _ (or_intror (or_intror (or_introl eq_refl)))) as H3. pose proof (H _ (or_intror (or_intror (or_intror (or_introl eq_refl))))) as H4.
    unfold side, facet, dot3, cross3, sub3 in *. cbn [t_n t_a t_b t_c qx qy qz] in *. lra.
  - intros H T HT. repeat (destruct HT as [<-|HT]; [|]); try contradiction; unfold side, facet, dot3, cross3, sub3; cbn [t_n t_a t_b t_c qx qy qz]; lra.
Qed.
Lemma tetra_convex : convex tetra.
Proof.
  assert (N : forall T, In T tetra -> t_n T = cross3 (sub3 (t_b T) (t_a T)) (sub3 (t_c T) (t_a T))).
  { intros T HT. unfold tetra in HT. repeat (destruct HT as [<-|HT]; [reflexivity|]). contradiction. }
  split.
  - apply Forall_forall. intros T HT. exists 1. split; [lra|]. cbv zeta. rewrite (N T HT). repeat split; ring.
  - intros T T' q HT HT' (a & b & Ha & Hb & Hab & E1 & E2 & E3). apply tetra_closed; [|exact HT]. unfold tetra in HT'.
    repeat (destruct HT' as [<-|HT']; [|]); try contradiction; cbn [facet t_a t_b t_c qx qy qz] in *; lra.
  - intros T q HT Hc Z. apply tetra_closed in Hc. destruct Hc as (C1 & C2 & C3 & C4). exists T. split; [exact HT|]. unfold tetra in HT.
    repeat (destruct HT as [<-|HT]; [|]); try contradiction; unfold side, facet, dot3, cross3, sub3 in Z; cbn [t_n t_a t_b t_c qx qy qz] in Z.
    + exists (qz q * (1 # 2)), (qy q * (1 # 2)). cbn [facet t_a t_b t_c qx qy qz]. repeat (split; [lra|]). lra.
    + exists (qy q * (1 # 2)), (qz q * (1 # 2)). cbn [facet t_a t_b t_c qx qy qz]. repeat (split; [lra|]). lra.
    + exists (qz q * (1 # 2)), (qx q * (1 # 2)). cbn [facet t_a t_b t_c qx qy qz]. repeat (split; [lra|]). lra.
    + exists (qx q * (1 # 2)), (qy q * (1 # 2)). cbn [facet t_a t_b t_c qx qy qz]. repeat (split; [lra|]). lra.
  - intros v Hv. exists (facet (P3 2 0 0) (P3 0 2 0) (P3 0 0 2)).
    destruct Hv as [<-|[<-|[<-|[]]]]; [exists (facet (P3 0 0 0) (P3 0 0 2) (P3 0 2 0))|exists (facet (P3 0 0 0) (P3 2 0 0) (P3 0 0 2))|exists (facet (P3 0 0 0) (P3 0 2 0) (P3 2 0 0))];
      (split; [cbn; auto|]); (split; [cbn; auto|]); split; reflexivity.
Qed.
Theorem C62_grazing_refuted : exists mesh mesh' p, convex mesh /\ convex mesh' /\ Permutation mesh mesh' /\
  ~ in_box mesh p /\ point_inside mesh p = true /\ point_inside mesh' p = false.
Proof.
  exists tetra, (rev tetra), (P3 (-1) 1 1). split; [exact tetra_convex|].
  assert (P : Permutation tetra (rev tetra)) by apply Permutation_rev.
  split.
  { destruct tetra_convex as [X1 X2 X3 X4].
    assert (I : forall T, In T (rev tetra) <-> In T tetra) by (intros T; symmetry; apply in_rev).
    assert (O : forall q, on_mesh tetra q -> on_mesh (rev tetra) q) by (intros q (T & HT & Ho); exists T; split; [now apply I|exact Ho]).
    split.
    - apply Forall_forall. intros T HT. apply I in HT. rewrite Forall_forall in X1. now apply X1.
    - intros T T' q HT HT'. apply I in HT, HT'. now apply X2.
    - intros T q HT Hc Z. apply I in HT. apply O. apply (X3 T q HT); [|exact Z]. intros T' HT'. apply Hc. now apply I.
    - intros v Hv. destruct (X4 v Hv) as (T & T' & HT & HT' & H). exists T, T'. split; [now apply I|]. split; [now apply I|]. exact H. }
  split; [exact P|]. split.
  - intros C. specialize (C 0%nat ltac:(lia)). revert C. vm_compute. intros [C _]. now apply C.
  - split; vm_compute; reflexivity.
Qed.
(* A point of the grid on the surface: a distance 0 is a hit.  The cell counts as fluid,
   the next cell is inside the body, and there is no link. *)
Definition low_box : list tri := box_mesh (P3 (5 # 4) (5 # 4) (1 # 2)) (P3 (11 # 4) (7 # 4) (9 # 4)).
Theorem C62_on_surface_refuted : exists mesh k v c, convex mesh /\ on_mesh mesh (pt (point sgrid c)) /\
  nth_error (g_vel sgrid) k = Some v /\ interior sgrid c = true /\ interior sgrid (shift sgrid c v) = true /\
  strictly_inside mesh (pt (point sgrid (shift sgrid c v))) /\
  forall big, 999 < big -> exists D, domain_init sgrid [stl_elem big false 7 mesh] = Some D /\
    d_ioo D c = true /\ d_ioo D (shift sgrid c v) = false /\ l_dist (d_link D k c) = qvalin /\ l_flag (d_link D k c) = valin.
Proof.
  assert (L : lt3 (P3 (5 # 4) (5 # 4) (1 # 2)) (P3 (11 # 4) (7 # 4) (9 # 4))) by (repeat split; reflexivity).
  exists low_box, 3%nat, [0; 0; 1]%Z, [2; 2; 1]%Z. split; [now apply box_convex|]. split.
  { apply box_cover; [exact L|repeat split; discriminate|repeat split; discriminate|]. exists 4%nat. split; [lia|]. vm_compute. reflexivity. }
  split; [reflexivity|]. split; [reflexivity|]. split; [reflexivity|]. split.
  { apply box_open; [exact L|]. repeat split; reflexivity. }
  intros big Hb. pose proof (C62_infinity sgrid _ _ (solids_minus big [(7%Z, low_box)] Hb)) as HI. cbn [solids map fst snd] in HI.
  destruct (domain_init sgrid [stl_elem (-1) false 7 low_box]) as [D'|] eqn:E.
  - destruct (domain_init sgrid [stl_elem big false 7 low_box]) as [D|]; [|contradiction]. destruct HI as [I1 I2]. exists D. split; [reflexivity|].
    rewrite !I1, I2. assert (X : D' = dom_of [stl_elem (-1) false 7 low_box]) by (unfold dom_of; now rewrite E). rewrite X. vm_compute. repeat split.
  - exfalso. revert E. unfold domain_init, add_init. change (rows_exist sgrid) with true. cbn [add_elems]. unfold add_elem.
    assert (X : existsb (shape_error sgrid (stl_elem (-1) false 7 low_box)) (g_vel sgrid) = false) by (vm_compute; reflexivity). rewrite X. discriminate.
Qed.
(* A fluid element that goes through a wall of the box: where the velocity does not meet
   the surface the distance is inf, larger than the distance of the wall, so that the link
   of the wall is replaced by the label -1 at the distance inf.  With -1 in the place of
   inf the wall stays. *)
Definition wide_box : list tri := box_mesh (P3 (-9 # 4) (-9 # 4) (-9 # 4)) (P3 (25 # 4) (25 # 4) (25 # 4)).
Theorem C62_fluid_refuted : exists mesh k v c, convex mesh /\ general sgrid mesh /\
  nth_error (g_vel sgrid) k = Some v /\ vzero sgrid v = false /\ interior sgrid c = true /\ beyond_wall sgrid c v /\
  (forall big, 999 < big -> exists D, domain_init sgrid [stl_elem big true 7 mesh] = Some D /\
    d_ioo D c = true /\ l_dist (d_link D k c) = big /\ l_flag (d_link D k c) = (-1)%Z) /\
  (exists D, domain_init sgrid [stl_elem (-1) true 7 mesh] = Some D /\
    d_ioo D c = true /\ l_dist (d_link D k c) == 1 # 2 /\ l_flag (d_link D k c) = 1%Z).
Proof.
  assert (L : lt3 (P3 (-9 # 4) (-9 # 4) (-9 # 4)) (P3 (25 # 4) (25 # 4) (25 # 4))) by (repeat split; reflexivity).
  exists wide_box, 2%nat, [-1; 0; 0]%Z, [1; 2; 2]%Z. split; [now apply box_convex|]. split; [apply box_general; [exact L|reflexivity]|].
  split; [reflexivity|]. split; [reflexivity|]. split; [reflexivity|]. split.
  { intros H. destruct (H 0%nat) as [H1 _]; [cbn; lia|]. cbn in H1. specialize (H1 ltac:(lia)). revert H1. vm_compute. congruence. }
  assert (DI : forall big, domain_init sgrid [stl_elem big true 7 wide_box] =
    Some (clean (let ioo := ioo_elem sgrid (stl_elem big true 7 wide_box) (interior sgrid) in
      mkDom ioo (fun k c => match nth_error (g_vel sgrid) k with
        | Some v => if in_view sgrid (stl_elem big true 7 wide_box) c && negb (vzero sgrid v) then link_elem sgrid (stl_elem big true 7 wide_box) ioo v c (init_links sgrid k c) else init_links sgrid k c
        | None => init_links sgrid k c end)))).
  { intros big. unfold domain_init, add_init. change (rows_exist sgrid) with true. cbn [add_elems]. unfold add_elem.
    assert (X : existsb (shape_error sgrid (stl_elem big true 7 wide_box)) (g_vel sgrid) = false) by (vm_compute; reflexivity). now rewrite X. }
  split.
  - intros big Hb. eexists. split; [apply DI|]. cbn [clean d_ioo d_link]. cbv zeta.
    set (e := stl_elem big true 7 wide_box). set (ioo := ioo_elem sgrid e (interior sgrid)).
    assert (E1 : ioo [1; 2; 2]%Z = true) by (vm_compute; reflexivity). rewrite E1. rewrite andb_false_r. cbn [negb].
    split; [reflexivity|].
    assert (E2 : in_view sgrid e [1; 2; 2]%Z = true) by (vm_compute; reflexivity). change (nth_error (g_vel sgrid) 2) with (Some [-1; 0; 0]%Z). cbv iota beta.
    rewrite E2. change (vzero sgrid [-1; 0; 0]%Z) with false. cbn [andb negb]. unfold link_elem. cbv zeta. cbn [e stl_elem e_fluid e_in e_alpha e_border e_norm].
    assert (E3 : stl_distance wide_box 7 (pt (point sgrid [1; 2; 2]%Z)) (pt (displacement sgrid [-1; 0; 0]%Z)) (Some 1) = (None, (-1)%Z, P3 0 0 0)) by (vm_compute; reflexivity).
    rewrite E3. cbn [fst snd]. assert (E4 : point_inside wide_box (pt (point sgrid [1; 2; 2]%Z)) = true) by (vm_compute; reflexivity). rewrite E4.
    assert (E5 : ioo (shifted sgrid e [-1; 0; 0]%Z [1; 2; 2]%Z) = false) by (vm_compute; reflexivity). fold e. rewrite E5. cbn [negb andb].
    assert (E6 : l_dist (init_links sgrid 2 [1; 2; 2]%Z) = 1 # 2) by (vm_compute; reflexivity). rewrite E6.
    assert (E7 : Qltb 0 big = true) by (apply Qltb_true; lra). assert (E8 : Qltb (1 # 2) big = true) by (apply Qltb_true; lra). rewrite E7, E8, orb_true_r. cbn [andb orb l_dist l_flag].
    split; reflexivity.
  - eexists. split; [apply DI|]. vm_compute. repeat split.
Qed.
Print Assumptions C62_grazing_refuted.
Print Assumptions C62_on_surface_refuted.
Print Assumptions C62_fluid_refuted.
