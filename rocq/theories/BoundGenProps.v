(* Property C85: the generated kernels of the boundary conditions on the buffers; the accesses of
   the generated code stay inside of the arrays. *)
From Verif Require Import PyBase VelocityModel VelocityProofs StencilModel StencilProofs GridModel LinAlg StorageModel StorageProofs StorageProps DomainModel DomainProofs DomainProps
  ExchangeProofs BoundaryModel BoundaryProofs BoundaryProps BoundaryUpdProps BoundGenModel.
From Coq Require Import QArith Permutation.
Open Scope Z_scope.

(* ---- accesses ---- *)
Lemma index_in be shape idx : in_shape idx shape -> index_all be shape idx = Some idx.
Proof.
  intros H. induction H as [|i n idx shape Hi H IH]; [reflexivity|]. cbn [index_all]. rewrite IH.
  assert (E : (0 <=? i) && (i <? n) = true) by (apply andb_true_intro; split; [apply Z.leb_le|apply Z.ltb_lt]; lia). unfold index1. rewrite E. now destruct be.
Qed.
Lemma index_cython shape : forall idx, index_all Cython shape idx <> None -> in_shape idx shape.
Proof.
  induction shape as [|n shape IH]; intros [|i idx] H; cbn [index_all] in H; try congruence; [constructor|]. unfold index1 in H.
  destruct ((0 <=? i) && (i <? n)) eqn:E; [|congruence]. apply andb_prop in E. destruct E as [E1 E2]. apply Z.leb_le in E1. apply Z.ltb_lt in E2.
  destruct (index_all Cython shape idx) eqn:E3; [|congruence]. constructor; [lia|]. apply IH. congruence.
Qed.
Lemma place_in be sorder shape row : is_order sorder (length shape) -> shape <> [] -> in_shape row shape ->
  place be sorder (scatter 0 sorder shape) row = Some (rowmajor (scatter 0 sorder shape) (scatter 0 sorder row)).
Proof.
  intros Ho Hne Hr. assert (Lr : length row = length shape) by (eapply Forall2_length; exact Hr). unfold place.
  assert (sorder <> []) by (intros ->; apply is_order_length in Ho; destruct shape; [congruence|discriminate]).
  rewrite (set_order_scatter 0) by (try assumption; now rewrite Lr). unfold access. rewrite index_in; [reflexivity|]. now apply scatter_in_shape.
Qed.

Section Kernel.
Variable K : ring.
Variable qk : Q -> K.
Variable g : grid.
Variable vel : nat -> list Z.
Variable sym : nat -> nat.
Variable feq : blink -> nat -> K.
Variable sorder : list nat.
Variable shape : list Z.
Hypothesis Ho : is_order sorder (length shape).
Hypothesis Hne : shape <> [].
Notation bvalue := (bvalue K qk g vel sym feq).
Notation bupdate := (bupdate K qk g vel sym feq).
Notation loads := (loads g vel sym).
Definition inside (p : nat * cell) : Prop := in_shape (row_of p) shape.
Definition off (p : nat * cell) : Z := rowmajor (scatter 0 sorder shape) (scatter 0 sorder (row_of p)).
Definition agree (F : dfield K) (f : Z -> K) : Prop := forall p, inside p -> f (off p) = at_ K F p.
Lemma off_inj p q : inside p -> inside q -> off p = off q -> p = q.
Proof.
  intros Hp Hq E. unfold off, rowmajor in E. apply rowmajor_inj in E; [|now apply scatter_in_shape|now apply scatter_in_shape]. destruct E as [_ E].
  apply scatter_inj in E.
  - destruct p as [k c], q as [k' c']. unfold row_of in E. cbn in E. injection E as E1 ->. f_equal. lia.
  - unfold inside in Hp. apply Forall2_length in Hp. now rewrite Hp.
  - unfold inside in *. apply Forall2_length in Hp, Hq. lia.
Qed.
Definition from_copy (m : method) : bool := match m with MBouzidi => true | _ => false end.
Lemma eval_right be m l F Fc f fcopy ix b : agree F f -> agree Fc fcopy -> nth_error l ix = Some b -> (forall p, In p (loads m b) -> inside p) ->
  eval K be sorder (scatter 0 sorder shape) (args_of K qk g vel sym feq m l) f fcopy ix (right_side m) = Some (bvalue m (if from_copy m then Fc else F) b).
Proof.
  intros Hf Hc Hb Hl.
  assert (P : forall p, In p (loads m b) -> place be sorder (scatter 0 sorder shape) (row_of p) = Some (off p)) by (intros p Hp; apply place_in; auto; now apply Hl).
  assert (G : forall p, In p (loads m b) -> f (off p) = at_ K F p /\ fcopy (off p) = at_ K Fc p) by (intros p Hp; split; [apply Hf|apply Hc]; now apply Hl).
  unfold BoundaryModel.bvalue. cbv zeta.
  destruct m; cbn [right_side eval args_of g_iload g_rhs g_dist nth_error from_copy]; rewrite ?nth_error_map, ?Hb; cbn [option_map];
    cbn [BoundaryProofs.loads] in P, G; rewrite !P by (cbn; tauto); cbn [option_map];
    repeat match goal with |- context [ f (off ?p) ] => rewrite (proj1 (G p ltac:(cbn; tauto))) end;
    repeat match goal with |- context [ fcopy (off ?p) ] => rewrite (proj2 (G p ltac:(cbn; tauto))) end; reflexivity.
Qed.
Lemma agree_store F f b x : agree F f -> inside (b_k b, b_cell b) -> agree (dupd K F (b_k b) (b_cell b) x) (fun o => if o =? off (b_k b, b_cell b) then x else f o).
Proof.
  intros H Hb [k c] Hp. unfold at_. cbn [fst snd]. destruct (Z.eqb_spec (off (k, c)) (off (b_k b, b_cell b))) as [E|E].
  - apply off_inj in E; [|exact Hp|exact Hb]. injection E as -> ->. now rewrite dupd_same.
  - rewrite dupd_other; [now apply H|]. intros E'. apply E. now rewrite E'.
Qed.
Lemma store_ok be m l f ix b x : nth_error l ix = Some b -> inside (b_k b, b_cell b) ->
  store_at K be sorder (scatter 0 sorder shape) (args_of K qk g vel sym feq m l) f ix x = Some (fun o => if o =? off (b_k b, b_cell b) then x else f o).
Proof. intros Hb Hi. unfold store_at. cbn [args_of g_istore]. rewrite nth_error_map, Hb. cbn [option_map]. now rewrite place_in. Qed.
Definition links_inside (m : method) (l : list blink) : Prop := forall b, In b l -> inside (b_k b, b_cell b) /\ forall p, In p (loads m b) -> inside p.
Lemma cython_loop m l F0 f0 : links_inside m l -> agree F0 f0 -> forall l2 l1 F f, l = l1 ++ l2 -> agree F f ->
  exists f', fold_left (fun acc ix => bind acc (fun f => bind (eval K Cython sorder (scatter 0 sorder shape) (args_of K qk g vel sym feq m l) f f0 ix (right_side m)) (store_at K Cython sorder (scatter 0 sorder shape) (args_of K qk g vel sym feq m l) f ix)))
    (seq (length l1) (length l2)) (Some f) = Some f' /\
    agree (fold_left (fun F b => dupd K F (b_k b) (b_cell b) (bvalue m (if from_copy m then F0 else F) b)) l2 F) f'.
Proof.
  intros Hl H0. induction l2 as [|b l2 IH]; intros l1 F f E HF; [exists f; now split|].
  assert (Hb : nth_error l (length l1) = Some b) by (rewrite E, nth_error_app2, Nat.sub_diag by lia; reflexivity).
  destruct (Hl b) as [B1 B2]; [rewrite E; apply in_or_app; right; now left|].
  cbn [length seq fold_left bind]. rewrite (eval_right Cython m l F F0 f f0 (length l1) b) by assumption. cbn [bind]. rewrite (store_ok Cython m l f _ b) by assumption.
  destruct (IH (l1 ++ [b]) (dupd K F (b_k b) (b_cell b) (bvalue m (if from_copy m then F0 else F) b)) (fun o => if o =? off (b_k b, b_cell b) then bvalue m (if from_copy m then F0 else F) b else f o)) as [f' [E1 E2]].
  - now rewrite <- app_assoc.
  - now apply agree_store.
  - exists f'. split; [|exact E2]. rewrite app_length in E1. cbn [length] in E1. rewrite Nat.add_1_r in E1. exact E1.
Qed.
Lemma numpy_reads m l F0 f0 : links_inside m l -> agree F0 f0 -> forall l2 l1, l = l1 ++ l2 ->
  mapM (fun ix => eval K Numpy sorder (scatter 0 sorder shape) (args_of K qk g vel sym feq m l) f0 f0 ix (right_side m)) (seq (length l1) (length l2)) = Some (map (bvalue m F0) l2).
Proof.
  intros Hl H0. induction l2 as [|b l2 IH]; intros l1 E; [reflexivity|].
  assert (Hb : nth_error l (length l1) = Some b) by (rewrite E, nth_error_app2, Nat.sub_diag by lia; reflexivity).
  destruct (Hl b) as [B1 B2]; [rewrite E; apply in_or_app; right; now left|].
  cbn [length seq mapM map]. rewrite (eval_right Numpy m l F0 F0 f0 f0 (length l1) b) by assumption.
  specialize (IH (l1 ++ [b])). rewrite app_length, <- app_assoc in IH. cbn [length app] in IH. rewrite Nat.add_1_r in IH. rewrite (IH E). now destruct (from_copy m).
Qed.
Lemma numpy_stores m l F0 : links_inside m l -> forall l2 l1 F f, l = l1 ++ l2 -> agree F f ->
  exists f', fold_left (fun acc p => bind acc (fun f => store_at K Numpy sorder (scatter 0 sorder shape) (args_of K qk g vel sym feq m l) f (fst p) (snd p)))
    (combine (seq (length l1) (length l2)) (map (bvalue m F0) l2)) (Some f) = Some f' /\
    agree (fold_left (fun F b => dupd K F (b_k b) (b_cell b) (bvalue m F0 b)) l2 F) f'.
Proof.
  intros Hl. induction l2 as [|b l2 IH]; intros l1 F f E HF; [exists f; now split|].
  assert (Hb : nth_error l (length l1) = Some b) by (rewrite E, nth_error_app2, Nat.sub_diag by lia; reflexivity).
  destruct (Hl b) as [B1 B2]; [rewrite E; apply in_or_app; right; now left|].
  cbn [length seq map combine fold_left bind fst snd]. rewrite (store_ok Numpy m l f _ b) by assumption.
  destruct (IH (l1 ++ [b]) (dupd K F (b_k b) (b_cell b) (bvalue m F0 b)) (fun o => if o =? off (b_k b, b_cell b) then bvalue m F0 b else f o)) as [f' [E1 E2]].
  - now rewrite <- app_assoc.
  - now apply agree_store.
  - exists f'. split; [|exact E2]. rewrite app_length in E1. cbn [length] in E1. rewrite Nat.add_1_r in E1. exact E1.
Qed.
Lemma kernel_ok be m l x F : a_ind x = sorder -> a_shape x = shape -> links_inside m l -> agree F (a_buf x) ->
  exists y, kernel K qk g vel sym feq be m l x = Some y /\ a_ind y = sorder /\ a_shape y = shape /\ agree (bupdate be m l F) (a_buf y).
Proof.
  intros E1 E2 Hl HF. unfold kernel. rewrite E1, E2. unfold BoundaryModel.bupdate. destruct be.
  - destruct (cython_loop m l F (a_buf x) Hl HF l [] F (a_buf x) eq_refl HF) as [f' [R1 R2]]. unfold run_cython. cbn [args_of g_istore]. rewrite map_length.
    cbn [length] in R1. change (mkBargs K _ _ _ _) with (args_of K qk g vel sym feq m l). rewrite R1. cbn [option_map]. eexists. split; [reflexivity|]. split; [reflexivity|]. split; [reflexivity|]. cbn [a_buf].
    destruct m; exact R2.
  - unfold run_numpy. cbn [args_of g_istore]. rewrite map_length. change (mkBargs K _ _ _ _) with (args_of K qk g vel sym feq m l).
    pose proof (numpy_reads m l F (a_buf x) Hl HF l [] eq_refl) as R. cbn [length] in R. rewrite R. cbn [bind].
    destruct (numpy_stores m l F Hl l [] F (a_buf x) eq_refl HF) as [f' [R1 R2]]. cbn [length] in R1. rewrite R1. cbn [option_map]. eexists. split; [reflexivity|]. split; [reflexivity|]. split; [reflexivity|]. exact R2.
Qed.
End Kernel.

(* The kernel of a method, in any storage order: if the cells of the links are in the array, no
   access leaves the array and the distributions are those of the update of C16-C20. *)
Theorem C85_kernel : forall (K : ring) qk g vel sym feq be m l (x : array (V := K)),
  is_order (a_ind x) (length (a_shape x)) -> a_shape x <> [] ->
  (forall b p, In b l -> p = (b_k b, b_cell b) \/ In p (loads g vel sym m b) -> in_shape (Z.of_nat (fst p) :: snd p) (a_shape x)) ->
  exists y, kernel K qk g vel sym feq be m l x = Some y /\ a_ind y = a_ind x /\ a_shape y = a_shape x /\
    forall k c, in_shape (Z.of_nat k :: c) (a_shape x) -> getitem y (Z.of_nat k :: c) = bupdate K qk g vel sym feq be m l (fun k c => getitem x (Z.of_nat k :: c)) k c.
Proof.
  intros K qk g vel sym feq be m l x Ho Hne Hl.
  destruct (kernel_ok K qk g vel sym feq (a_ind x) (a_shape x) Ho Hne be m l x (fun k c => getitem x (Z.of_nat k :: c)) eq_refl eq_refl) as (y & E1 & E2 & E3 & E4).
  - intros b Hb. split; [|intros p Hp]; apply (Hl b); auto.
  - intros p Hp. reflexivity.
  - exists y. split; [exact E1|]. split; [exact E2|]. split; [exact E3|]. intros k c Hk. specialize (E4 (k, c) Hk). unfold off, row_of in E4. cbn [fst snd] in E4.
    unfold getitem, offset. rewrite E2, E3. exact E4.
Qed.
Print Assumptions C85_kernel.

(* ---- the links of a domain ---- *)
Definition array_shape (st : stencil) (g : grid) : list Z := Z.of_nat (length (get_all_velocities st)) :: map (DomainModel.total g) (axes g).
Lemma in_array st g k c : (k < length (get_all_velocities st))%nat -> length c = dim g -> (forall d, (d < dim g)%nat -> 0 <= c@d < DomainModel.total g d) ->
  in_shape (Z.of_nat k :: c) (array_shape st g).
Proof.
  intros Hk Hl Hc. constructor; [lia|]. apply Forall2_of_nth with (a := 0) (b := 0); [rewrite map_length; unfold axes; rewrite seq_length; exact Hl|].
  intros d Hd. rewrite nth_axes by lia. apply Hc. lia.
Qed.
Lemma links_in dimz schemes st g es D conds labels ms r :
  nonneg schemes -> build_stencil dimz schemes = Some st -> g_vel g = map vel_list (sunique st) -> wf_grid g ->
  (forall e, In e es -> bounds_ok g e) -> domain_init g es = Some D -> boundary st g D conds labels = Some ms -> ~ In valin labels ->
  stencil_get_symmetric st None = Some r ->
  forall m b, has ms m b -> forall p, p = (b_k b, b_cell b) \/ In p (loads g (velk st) (symk r) m b) -> in_shape (Z.of_nat (fst p) :: snd p) (array_shape st g).
Proof.
  intros Hn Hb Hg W HE HD HB Hval Hr m b H. apply (boundary_links dimz schemes st Hn Hb g D conds labels ms HB) in H.
  destruct H as (lab & s & vs & i & v & num & w & x & L1 & L2 & L3 & L4 & Hs & Hi & Hw & Ew & Hx & Hf & ->).
  assert (Hk : nth_error (g_vel g) num = Some (vel_list w)) by (rewrite Hg; now apply map_nth_error).
  assert (Hfl : l_flag (d_link D num x) <> valin) by (intros C; apply Hval; congruence).
  apply array_cells_in in Hx. destruct Hx as [Lx Hx].
  assert (Hin : interior g x = true).
  { destruct (C15_last_element_decides g es D x W HE HD) as [[_ C]|[C _]]; [intros d Hd; now apply Hx| |exact C].
    destruct Hfl. now apply (C15_no_link_outside g es D HD x C num). }
  pose proof (proj1 (interior_spec g x) Hin) as Hi'.
  assert (Hv : forall d, (d < dim g)%nat -> Z.abs (vel_list v)@d <= (g_h g)@d).
  { intros d Hd. pose proof (wf_v g W _ d (nth_error_In _ _ Hk) Hd) as A. rewrite Ew, nth_opp in A. lia. }
  assert (Lv : length (get_all_velocities st) = length (concat (sv st))) by (unfold get_all_velocities; apply map_length).
  assert (R1 : (row st s i < length (get_all_velocities st))%nat).
  { rewrite Lv. apply nth_error_Some. unfold row. rewrite (concat_nth_inv (sv st) s i vs v Hs Hi). discriminate. }
  assert (R2 : (symk r (row st s i) < length (get_all_velocities st))%nat).
  { destruct (sym_table_entry dimz schemes st (build_facts dimz schemes st Hn Hb) None ltac:(discriminate) r Hr) as [_ T]. destruct (T s i vs v Hs Hi) as (j & u & Hj & _ & E & _). rewrite Lv. unfold symk, row. rewrite (nth_error_nth _ _ 0 E), Nat2Z.id.
    apply nth_error_Some. rewrite (concat_nth_inv (sv st) s j vs u Hs Hj). discriminate. }
  assert (Bd : forall c, length c = dim g -> (forall d, (d < dim g)%nat -> Z.abs (c@d - x@d) <= (g_h g)@d) -> length c = dim g /\ forall d, (d < dim g)%nat -> 0 <= c@d < DomainModel.total g d).
  { intros c Lc Hc. split; [exact Lc|]. intros d Hd. specialize (Hi' d Hd). specialize (Hc d Hd). unfold DomainModel.total. lia. }
  set (b := mkB _ _ _ _ _). assert (Ek : b_k b = row st s i) by reflexivity. assert (Ec : b_cell b = shift g x (map Z.opp (vel_list v))) by (unfold b; cbn [b_cell]; now rewrite Ew).
  assert (C0 : forall d, (d < dim g)%nat -> (b_cell b)@d = x@d - (vel_list v)@d) by (intros d Hd; rewrite Ec, shift_nth, nth_opp by exact Hd; lia).
  assert (Vk : velk st (b_k b) = vel_list v) by (rewrite Ek; apply (row_velk st s vs i v Hs Hi)).
  assert (S0 : forall c, length c = dim g /\ (forall d, (d < dim g)%nat -> 0 <= c@d < DomainModel.total g d) -> in_shape (Z.of_nat (row st s i) :: c) (array_shape st g) /\ in_shape (Z.of_nat (symk r (row st s i)) :: c) (array_shape st g)).
  { intros c [Lc Hc]. split; now apply in_array. }
  assert (B0 : length (b_cell b) = dim g /\ forall d, (d < dim g)%nat -> 0 <= (b_cell b)@d < DomainModel.total g d).
  { apply Bd; [rewrite Ec; apply shift_len|]. intros d Hd. rewrite C0 by exact Hd. specialize (Hv d Hd). lia. }
  assert (B1 : length (ahead g (velk st) b) = dim g /\ forall d, (d < dim g)%nat -> 0 <= (ahead g (velk st) b)@d < DomainModel.total g d).
  { unfold ahead. rewrite Vk. apply Bd; [apply shift_len|]. intros d Hd. rewrite shift_nth, C0 by exact Hd. specialize (Hv d Hd). lia. }
  assert (B2 : length (ahead2 g (velk st) b) = dim g /\ forall d, (d < dim g)%nat -> 0 <= (ahead2 g (velk st) b)@d < DomainModel.total g d).
  { unfold ahead2. rewrite Vk. apply Bd; [apply shift_len|]. intros d Hd. rewrite shift_nth, C0 by exact Hd. specialize (Hv d Hd).
    rewrite (map_nth (fun z => 2 * z) (vel_list v) 0 d : (map (fun z => 2 * z) (vel_list v))@d = 2 * (vel_list v)@d). lia. }
  assert (B3 : forall a, length (ahead_axis g (velk st) a b) = dim g /\ forall d, (d < dim g)%nat -> 0 <= (ahead_axis g (velk st) a b)@d < DomainModel.total g d).
  { intros a. unfold ahead_axis. rewrite Vk. apply Bd; [apply shift_len|]. intros d Hd. rewrite shift_nth, C0 by exact Hd. specialize (Hv d Hd). rewrite nth_axes by exact Hd. destruct (Nat.eqb d a); lia. }
  intros p [->|Hp]; cbn [fst snd]; [rewrite Ek; now apply S0|].
  assert (I1 : forall q, q = iload1 g (velk st) (symk r) b -> in_shape (Z.of_nat (fst q) :: snd q) (array_shape st g)).
  { intros q ->. unfold iload1. rewrite Ek. destruct (near b); cbn [fst snd]; now apply S0. }
  destruct m; cbn [loads In] in Hp; repeat destruct Hp as [<-|Hp]; try contradiction; try (now apply I1); unfold iload0; rewrite Ek; cbn [fst snd]; now apply S0.
Qed.
(* All the kernels of a simulation with any elements and conditions, on an array of the size of the
   domain with its halo: no access leaves the array, the result is that of the model. *)
Theorem C85_boundary : forall (K : ring) qk feq be dimz schemes st g es D conds labels ms r (x : array (V := K)),
  nonneg schemes -> build_stencil dimz schemes = Some st -> g_vel g = map vel_list (sunique st) -> wf_grid g ->
  (forall e, In e es -> bounds_ok g e) -> domain_init g es = Some D -> boundary st g D conds labels = Some ms -> ~ In valin labels ->
  stencil_get_symmetric st None = Some r ->
  a_shape x = array_shape st g -> is_order (a_ind x) (S (dim g)) ->
  exists y, kernels K qk g (velk st) (symk r) feq be ms x = Some y /\ a_ind y = a_ind x /\ a_shape y = a_shape x /\
    forall k c, in_shape (Z.of_nat k :: c) (a_shape x) ->
      getitem y (Z.of_nat k :: c) = boundary_condition K qk g (velk st) (symk r) feq be ms (fun k c => getitem x (Z.of_nat k :: c)) k c.
Proof.
  intros K qk feq be dimz schemes st g es D conds labels ms r x Hn Hb Hg W HE HD HB Hval Hr Sx Ho.
  pose proof (links_in dimz schemes st g es D conds labels ms r Hn Hb Hg W HE HD HB Hval Hr) as HL.
  assert (Ls : length (a_shape x) = S (dim g)) by (rewrite Sx; unfold array_shape, axes; cbn [length]; now rewrite map_length, seq_length).
  assert (Hne : a_shape x <> []) by (destruct (a_shape x); [discriminate|discriminate]). rewrite <- Ls in Ho.
  assert (G : forall ms', incl ms' ms -> forall F x', a_ind x' = a_ind x -> a_shape x' = a_shape x -> agree K (a_ind x) (a_shape x) F (a_buf x') ->
    exists y, fold_left (fun acc ml => bind acc (kernel K qk g (velk st) (symk r) feq be (fst ml) (snd ml))) ms' (Some x') = Some y /\ a_ind y = a_ind x /\ a_shape y = a_shape x /\
      agree K (a_ind x) (a_shape x) (boundary_condition K qk g (velk st) (symk r) feq be ms' F) (a_buf y)).
  { induction ms' as [|[m l] ms' IH]; intros Hi F x' E1 E2 HF; [exists x'; now repeat split|]. cbn [fold_left fst snd bind].
    destruct (kernel_ok K qk g (velk st) (symk r) feq (a_ind x) (a_shape x) Ho Hne be m l x' F E1 E2) as (y & Ey & I1 & I2 & I3); [|exact HF|].
    - intros b Hb'. assert (Hh : has ms m b) by (exists l; split; [apply Hi; now left|exact Hb']). unfold inside, row_of. rewrite Sx. split; [|intros p Hp]; apply (HL m b Hh); auto.
    - rewrite Ey. cbn [bind]. apply (IH (fun q Hq => Hi q (or_intror Hq)) _ y I1 I2 I3). }
  destruct (G ms (incl_refl ms) (fun k c => getitem x (Z.of_nat k :: c)) x eq_refl eq_refl) as (y & Ey & I1 & I2 & I3); [intros p Hp; reflexivity|].
  exists y. split; [exact Ey|]. split; [exact I1|]. split; [exact I2|]. intros k c Hk. specialize (I3 (k, c) Hk). unfold getitem, offset. rewrite I1, I2. exact I3.
Qed.
Print Assumptions C85_boundary.

(* ---- the accesses of the time steps ---- the loop variable of the axis d runs over
   [h_d, h_d + n_d) in the array with halo; the access with the shift v.  In an order which keeps
   the axes of the space, the accesses of all the turns stay inside of the array exactly if the
   velocity is not larger than the halo. *)
Definition with_halo (n h : list Z) : list Z := map (fun d => n@d + 2 * h@d) (seq 0 (length n)).
Definition loop_values (n h x : list Z) : Prop := length x = length n /\ forall d, (d < length n)%nat -> h@d <= x@d < h@d + n@d.
Lemma nth_map_seq (f : nat -> Z) n d : (d < n)%nat -> nth d (map f (seq 0 n)) 0 = f d.
Proof. intros Hd. rewrite (nth_indep _ 0 (f 0%nat)) by (rewrite map_length, seq_length; exact Hd). rewrite map_nth, seq_nth by exact Hd. reflexivity. Qed.
Lemma halo_nth n h d : (d < length n)%nat -> (with_halo n h)@d = n@d + 2 * h@d.
Proof. intros Hd. unfold with_halo. exact (nth_map_seq (fun d => n@d + 2 * h@d) (length n) d Hd). Qed.
Lemma zip_add_nth x : forall v d, length x = length v -> (zip_add x v)@d = x@d + v@d.
Proof. induction x as [|a x IH]; intros [|b v] [|d] H; try discriminate; cbn; try reflexivity. apply IH. cbn in H. lia. Qed.
Lemma zip_add_len x : forall v, length x = length v -> length (zip_add x v) = length x.
Proof. induction x as [|a x IH]; intros [|b v] H; try discriminate; cbn; [reflexivity|]. f_equal. apply IH. cbn in H. lia. Qed.
Lemma in_shape_nth k s : in_shape k s -> forall d, (d < length s)%nat -> 0 <= nth d k 0 < nth d s 0.
Proof. intros H. induction H as [|x n k s Hx H IH]; intros [|d] Hd; cbn in *; try lia. apply IH. lia. Qed.
Lemma scatter_shape_inv ind k shape : is_order ind (length shape) -> length k = length shape -> in_shape (scatter 0 ind k) (scatter 0 ind shape) -> in_shape k shape.
Proof.
  intros Ho Hl H. pose proof (in_shape_nth _ _ H) as Hn. destruct (scatter_spec 0 ind shape Ho) as [L1 S1]. rewrite <- Hl in Ho. destruct (scatter_spec 0 ind k Ho) as [L2 S2].
  apply Forall2_of_nth with (a := 0) (b := 0); [exact Hl|]. intros d Hd. destruct (nth_error ind d) as [j|] eqn:E; [|apply nth_error_None in E; rewrite (is_order_length _ _ Ho) in E; lia].
  assert (Hj : (j < length shape)%nat) by (rewrite <- Hl; eapply is_order_lt; [exact Ho|]; eapply nth_error_In; exact E).
  specialize (Hn j ltac:(lia)). assert (N1 := S1 d j E). assert (N2 := S2 d j E).
  rewrite (nth_error_nth' _ 0) in N1 by lia. rewrite (nth_error_nth' shape 0) in N1 by lia. injection N1 as N1.
  rewrite (nth_error_nth' _ 0) in N2 by lia. rewrite (nth_error_nth' k 0) in N2 by lia. injection N2 as N2. now rewrite N1, N2 in Hn.
Qed.
Theorem C85_step : forall sorder n h v k nv,
  (1 <= length n <= 3)%nat -> is_order sorder (S (length n)) -> increasing (tl sorder) -> length h = length n -> length v = length n -> 0 <= k < nv ->
  (forall d, (d < length n)%nat -> 0 <= h@d /\ 1 <= n@d) ->
  ((forall x, loop_values n h x -> exists acc, indexed_velocity sorder k v = Some acc /\ access Cython (scatter 0 sorder (nv :: with_halo n h)) (map (sidx_eval x) acc) <> None) <->
   forall d, (d < length n)%nat -> Z.abs v@d <= h@d).
Proof.
  intros sorder n h v k nv Hd Ho Hs Lh Lv Hk Hn. assert (Lw : length (with_halo n h) = length n) by (unfold with_halo; now rewrite map_length, seq_length).
  assert (Ho' : is_order sorder (length (nv :: with_halo n h))) by (cbn [length]; now rewrite Lw).
  assert (A : forall x, loop_values n h x -> (exists acc, indexed_velocity sorder k v = Some acc /\ access Cython (scatter 0 sorder (nv :: with_halo n h)) (map (sidx_eval x) acc) <> None) <->
    forall d, (d < length n)%nat -> 0 <= x@d + v@d < n@d + 2 * h@d).
  { intros x [Lx Hx]. destruct (C13_generated_access_partial sorder (length n) k v x Hd Ho Hs Lv Lx) as [acc [E1 E2]].
    assert (Lz : length (k :: zip_add x v) = length (nv :: with_halo n h)) by (cbn [length]; rewrite zip_add_len by lia; lia).
    assert (Q : access Cython (scatter 0 sorder (nv :: with_halo n h)) (map (sidx_eval x) acc) <> None <-> in_shape (k :: zip_add x v) (nv :: with_halo n h)).
    { rewrite E2. unfold access. split.
      - intros H. apply (scatter_shape_inv sorder); [exact Ho'|exact Lz|]. apply index_cython. now destruct (index_all _ _ _).
      - intros H. rewrite index_in; [discriminate|]. now apply scatter_in_shape. }
    split.
    - intros (acc' & E1' & H). replace acc' with acc in H by congruence. apply Q in H. intros d Hd'. pose proof (in_shape_nth _ _ H (S d) ltac:(cbn [length]; lia)) as B. cbn [nth] in B. rewrite zip_add_nth, halo_nth in B by lia. lia.
    - intros H. exists acc. split; [exact E1|]. apply Q. constructor; [exact Hk|]. apply Forall2_of_nth with (a := 0) (b := 0); [rewrite zip_add_len; lia|].
      intros d Hd'. rewrite zip_add_len in Hd' by lia. rewrite zip_add_nth, halo_nth by lia. apply H. lia. }
  split.
  - intros H d Hd'. assert (X1 : loop_values n h h) by (split; [exact Lh|]; intros e He; specialize (Hn e He); lia).
    set (hi := map (fun e => h@e + n@e - 1) (seq 0 (length n))).
    assert (Nh : forall e, (e < length n)%nat -> hi@e = h@e + n@e - 1).
    { intros e He. exact (nth_map_seq (fun e => h@e + n@e - 1) (length n) e He). }
    assert (X2 : loop_values n h hi) by (split; [unfold hi; now rewrite map_length, seq_length|]; intros e He; rewrite Nh by exact He; specialize (Hn e He); lia).
    pose proof (proj1 (A h X1) (H h X1) d Hd') as B1. pose proof (proj1 (A hi X2) (H hi X2) d Hd') as B2. rewrite Nh in B2 by exact Hd'. lia.
  - intros H x Hx. apply (A x Hx). intros d Hd'. destruct Hx as [_ Hx]. specialize (Hx d Hd'). specialize (H d Hd'). specialize (Hn d Hd'). lia.
Qed.
Print Assumptions C85_step.

(* A stencil with velocities of one sign: vmax is the largest component (0 here), the arrays have no
   halo and the step of the last cell reads behind the end of the array (C08, C85_step). *)
Theorem C85_onesided_refuted : exists dimz schemes st h k v acc x,
  build_stencil dimz schemes = Some st /\ vmax st 0 = Some h /\ nth_error (get_all_velocities st) k = Some v /\
  indexed_velocity [0; 1]%nat (Z.of_nat k) (map Z.opp v) = Some acc /\ loop_values [6] [h] x /\
  access Cython (scatter 0 [0; 1]%nat (Z.of_nat (length (get_all_velocities st)) :: with_halo [6] [h])) (map (sidx_eval x) acc) = None.
Proof.
  exists 1, [[0; 2]]. eexists. exists 0, 1%nat, [-1]. eexists. exists [5].
  split; [vm_compute; reflexivity|]. split; [reflexivity|]. split; [reflexivity|]. split; [reflexivity|]. split; [|reflexivity].
  split; [reflexivity|]. intros [|d] Hd; cbn in *; lia.
Qed.
Print Assumptions C85_onesided_refuted.
(* Negative indices: undefined with Cython (wraparound=False), while NumPy reads from the end of the
   axis, without an error. *)
Theorem C85_negative : forall shape idx idx', in_shape idx' shape -> Forall2 (fun i p => i = fst p \/ i = fst p - snd p) idx (combine idx' shape) ->
  access Numpy shape idx = access Numpy shape idx' /\ access Numpy shape idx <> None /\ ((exists i, In i idx /\ i < 0) -> access Cython shape idx = None).
Proof.
  intros shape idx idx' Hin Hf.
  assert (X : index_all Numpy shape idx = Some idx').
  { revert idx Hf. induction Hin as [|j n idx' shape Hj Hin IH]; intros idx Hf; inversion Hf as [|i p t ? Hi Ht]; subst; [reflexivity|]. cbn [index_all]. rewrite (IH t Ht). cbn [fst snd] in Hi.
    unfold index1. destruct Hi as [-> | ->].
    - destruct (Z.leb_spec 0 j), (Z.ltb_spec j n); try lia. reflexivity.
    - destruct (Z.leb_spec 0 (j - n)); [lia|]. destruct (Z.leb_spec (- n) (j - n)), (Z.ltb_spec (j - n) 0); try lia. cbn. now replace (j - n + n) with j by lia. }
  unfold access. rewrite X, (index_in Numpy shape idx' Hin). split; [reflexivity|]. split; [discriminate|]. intros (i & Hi & Hneg).
  destruct (index_all Cython shape idx) eqn:E; [|reflexivity]. assert (S0 : in_shape idx shape) by (apply index_cython; congruence).
  exfalso. clear - S0 Hi Hneg. induction S0 as [|i0 n idx shape Hj H IH]; [destruct Hi|]. destruct Hi as [<-|Hi]; [lia|now apply IH].
Qed.
Print Assumptions C85_negative.
Example C85_negative_example : access Numpy [3; 4] [-1; 1] = Some 9 /\ access Numpy [3; 4] [-1; -3] = Some 9 /\ access Numpy [3; 4] [-4; 0] = None /\ access Cython [3; 4] [-1; 1] = None.
Proof. repeat split; reflexivity. Qed.
(* An order which exchanges two axes of the space, on a domain which is not square (C13): even the
   entry of the cell itself is outside of the array. *)
Theorem C85_order_refuted : exists sorder n h k nv acc x,
  is_order sorder (S (length n)) /\ 0 <= k < nv /\ indexed_velocity sorder k [0; 0] = Some acc /\ loop_values n h x /\
  access Cython (scatter 0 sorder (nv :: with_halo n h)) (map (sidx_eval x) acc) = None.
Proof.
  exists [0; 2; 1]%nat, [8; 3], [1; 1], 0, 9. eexists. exists [8; 1].
  split; [constructor; apply perm_swap|]. split; [lia|]. split; [reflexivity|]. split; [|reflexivity].
  split; [reflexivity|]. intros [|[|d]] Hd; cbn in *; lia.
Qed.
Print Assumptions C85_order_refuted.
(* The label 999 is the value of flag in the cells without link: the links of the cells of the halo
   write outside of the array. *)
Definition bad_D : dom := match domain_init (line [999; 999]) [] with Some D => D | None => mkDom (fun _ => false) (fun _ _ => link0) end.
Definition bad_ms : list (method * list blink) := match boundary line_st (line [999; 999]) bad_D (fun _ => [(0%nat, MBounceBack)]) [999] with Some ms => ms | None => [] end.
Theorem C85_label_refuted : exists g st D conds labels ms r (x : array (V := Z)),
  wf_grid g /\ build_stencil 1 [[0; 1; 2]] = Some st /\ g_vel g = map vel_list (sunique st) /\ domain_init g [] = Some D /\ boundary st g D conds labels = Some ms /\
  stencil_get_symmetric st None = Some r /\ a_shape x = array_shape st g /\ is_order (a_ind x) 2 /\
  kernels ZR (fun _ => 0) g (velk st) (symk r) (fun _ _ => 0) Cython ms x = None.
Proof.
  exists (line [999; 999]), line_st, bad_D, (fun _ => [(0%nat, MBounceBack)]), [999], bad_ms, [0; 2; 1], (mkArray [0; 1]%nat [3; 8] (fun o => o)).
  split; [apply line_wf|]. split; [reflexivity|]. split; [reflexivity|]. split; [reflexivity|]. split; [reflexivity|]. split; [reflexivity|]. split; [reflexivity|].
  split; [apply Permutation_refl|]. vm_compute. reflexivity.
Qed.
Print Assumptions C85_label_refuted.

(* The channel of C16_ex in both orders: the arrays hold 10 k + x, written at the cells 3 and 5. *)
Definition chan_array (ind : list nat) : array (V := Z) :=
  fold_left (fun x k => fold_left (fun x i => setitem x [k; i] (10 * k + i)) [0; 1; 2; 3; 4; 5; 6; 7] x) [0; 1; 2] (array_new 0 ind [3; 8]).
Definition chan_read (y : option (array (V := Z))) : option (list (list Z)) :=
  option_map (fun y => map (fun k => map (fun i => getitem y [k; i]) [2; 3; 4; 5; 6]) [0; 1; 2]) y.
Example C85_example : forall be, Forall (fun ind => chan_read (kernels ZR (fun _ => 0) (line [0; 0]) (velk line_st) (symk [0; 2; 1]) (fun _ k => 100 * Z.of_nat k) be (chan_ms MBounceBack) (chan_array ind))
  = Some [[2; 3; 4; 5; 6]; [12; -76; 14; 15; 16]; [22; 23; 24; 114; 26]]) [[0; 1]; [1; 0]]%nat.
Proof. intros []; repeat constructor. Qed.
(* ... to which C85_boundary applies, for each method and each order *)
Example C85_applies : forall m be ind feq, is_order ind 2 ->
  exists y, kernels ZR (fun _ => 0) (line [0; 0]) (velk line_st) (symk [0; 2; 1]) feq be (chan_ms m) (mkArray ind [3; 8] (fun o => o)) = Some y.
Proof.
  intros m be ind feq Ho.
  destruct (C85_boundary ZR (fun _ => 0) feq be 1 [[0; 1; 2]] line_st (line [0; 0]) chan_elems chan_D (fun _ => [(0%nat, m)]) [0; 5] (chan_ms m) [0; 2; 1] (mkArray ind [3; 8] (fun o => o))) as (y & E & _).
  - apply line_nonneg.
  - reflexivity.
  - reflexivity.
  - apply line_wf.
  - intros e [<-|[<-|[]]]; apply interval_bounds; reflexivity.
  - reflexivity.
  - destruct m; reflexivity.
  - intros [C|[C|[]]]; discriminate.
  - reflexivity.
  - reflexivity.
  - exact Ho.
  - exists y. exact E.
Qed.
Example C85_step_example : forall x, loop_values [6] [1] x -> exists acc, indexed_velocity [1; 0]%nat 2 [1] = Some acc /\ access Cython (scatter 0 [1; 0]%nat (3 :: with_halo [6] [1])) (map (sidx_eval x) acc) <> None.
Proof.
  apply (C85_step [1; 0]%nat [6] [1] [1] 2 3); cbn; try lia.
  - apply perm_swap.
  - repeat constructor.
  - intros [|d] Hd; cbn; lia.
  - intros [|d] Hd; cbn; lia.
Qed.
