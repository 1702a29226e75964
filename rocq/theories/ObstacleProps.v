(* Property C57 with solid elements: which elements satisfy the hypotheses, an example, and
   two ways in which several processes differ from one. *)
From Coq Require Import QArith Qcanon Lqa.
From Verif Require Import PyBase VelocityModel VelocityProofs Velocity3Proofs StencilModel StencilProofs GridModel GridProofs StorageModel
  ExchangeProofs StorageProps LinAlg AlgoModel AlgoProofs RelVelProofs KernelProofs GlobalModel GlobalProofs TorusProofs DomainModel DomainProofs DomainProps
  BoundaryModel BoundaryProofs BoundaryProps BoundaryUpdProps AlgoProps GlobalProps VesselProofs VesselProps ChannelProps
  ParallelModel ParallelProofs ObstacleProofs ParallelProps.
Open Scope Z_scope.

(* ---- the flags in_or_out of the processes ---- *)
Theorem C57_cells dimz schemes st r g es labs conds D ms ps Ds mss :
  serial dimz schemes st r g es labs conds D ms -> parallel st g es labs conds ps Ds mss ->
  forall c i x, coords_ok (proc_axes g ps) c -> interior (local_grid g ps c) i = true -> length x = dim g ->
  (forall d, (d < dim g)%nat -> x@d = i@d + ax_lo (proc_axis g ps d) (nth d c 0%nat)) ->
  d_ioo (Ds c) i = d_ioo D x /\ d_ioo D x = negb (existsb (fun e => e_in e (point g x)) es).
Proof.
  intros E [Hok HP] c i x Hc Hi Lx Hx. destruct (HP c Hc) as [HD _].
  assert (Es : x = ser g ps c i).
  { apply (cell_ext g); [exact Lx|apply ser_len|]. intros d Hd. rewrite ser_nth by exact Hd. now apply Hx. }
  rewrite Es.
  destruct (obstacles_part g ps Hok (e_wf _ _ _ _ _ _ _ _ _ _ E) c Hc labs es D (Ds c) (lab_ok _ _ _ _ _ _ _ _ _ _ E) (e_obst _ _ _ _ _ _ _ _ _ _ E)
    (e_thick _ _ _ _ _ _ _ _ _ _ E) (e_dom _ _ _ _ _ _ _ _ _ _ E) HD) as (_ & H & _).
  split; [now apply H|]. pose proof (ser_interior g ps Hok c Hc i Hi) as Hs.
  pose proof (e_wf _ _ _ _ _ _ _ _ _ _ E) as W. pose proof (e_dom _ _ _ _ _ _ _ _ _ _ E) as HDg. pose proof (e_obst _ _ _ _ _ _ _ _ _ _ E) as HO. clear H.
  unfold domain_init, add_init in HDg. destruct (rows_exist g); [|discriminate]. destruct (add_elems g es _) as [D'|] eqn:Ec; [|discriminate].
  injection HDg as <-. cbn [clean d_ioo].
  assert (X : forall es D0 D1, (forall e, In e es -> obstacle g labs e) -> add_elems g es D0 = Some D1 ->
    d_ioo D1 (ser g ps c i) = d_ioo D0 (ser g ps c i) && negb (existsb (fun e => e_in e (point g (ser g ps c i))) es)).
  { clear - W Hs. induction es as [|e es IH]; intros D0 D1 HO HA; cbn [add_elems] in HA; [injection HA as <-; now rewrite andb_true_r|].
    destruct (add_elem g e D0) as [D2|] eqn:E0; [|discriminate]. rewrite (IH D2 D1 (fun e' He' => HO e' (or_intror He')) HA).
    rewrite (solid_ioo g W e (o_bounds _ _ _ (HO e (or_introl eq_refl))) D0 D2 _ (o_solid _ _ _ (HO e (or_introl eq_refl))) E0 (interior_nonneg g _ W Hs)).
    rewrite Hs. cbn [existsb]. now destruct (d_ioo D0 _), (e_in e _), (existsb _ es). }
  rewrite (X es _ _ HO Ec). cbn [d_ioo]. now rewrite Hs.
Qed.
Print Assumptions C57_cells.

(* ---- elements whose functions depend on the numbers ---- *)
Definition by_value (e : elem) : elem := mkElem (e_fluid e) (e_lo e) (e_hi e) (fun x => e_in e (map Qred x))
  (fun x => e_alpha e (map Qred x)) (fun x => e_border e (map Qred x)) (fun x => e_norm e (map Qred x)).
Lemma map_Qred x y : Forall2 Qeq x y -> map Qred x = map Qred y.
Proof. induction 1 as [|a b x y H _ IH]; [reflexivity|]. cbn [map]. rewrite IH. f_equal. now apply Qred_complete. Qed.
Lemma Qred_all x : Forall2 Qeq (map Qred x) x.
Proof. induction x; constructor; [apply Qred_correct|assumption]. Qed.
Lemma by_value_regular e : regular_elem (by_value e).
Proof. intros x y dv H. cbn [by_value e_in e_alpha e_border e_norm]. now rewrite (map_Qred _ _ H). Qed.
Lemma by_value_bounds g e : (forall x y, Forall2 Qeq x y -> e_in e x = e_in e y) -> bounds_ok g e -> bounds_ok g (by_value e).
Proof.
  intros HI B c d H Hd. cbn [by_value e_in e_lo e_hi] in *. rewrite (HI _ _ (Qred_all _)) in H. apply (B c d H Hd).
Qed.
Lemma by_value_distance g e : (forall x y, Forall2 Qeq x y -> e_in e x = e_in e y) ->
  (forall x y dv, Forall2 Qeq x y -> (e_alpha e x dv == e_alpha e y dv)%Q) -> distance_ok g e -> distance_ok g (by_value e).
Proof.
  intros HI HA D c v Hv. cbv zeta. destruct (D c v Hv) as (A1 & A2 & A3). cbn [by_value e_in e_lo e_hi e_fluid e_alpha].
  rewrite (HI _ _ (Qred_all (point g c))), (HI _ _ (Qred_all (point g (shift g c v)))). pose proof (HA _ _ (displacement g v) (Qred_all (point g c))) as H.
  split; [lra|]. split; [intros; apply A2; lra|]. intros H1 H2. rewrite H. now apply A3.
Qed.
Lemma Qltb_ext a b a' b' : (a == a')%Q -> (b == b')%Q -> Qltb a b = Qltb a' b'.
Proof. intros H1 H2. apply Bool.eq_iff_eq_true. rewrite !Qltb_true. now rewrite H1, H2. Qed.
Lemma hit_ext a b : (a == b)%Q -> hit a = hit b.
Proof. intros H. apply Bool.eq_iff_eq_true. rewrite !hit_spec. now rewrite H. Qed.
Lemma iv_alpha_ext lo hi x y dv : (x == y)%Q -> (iv_alpha lo hi x dv == iv_alpha lo hi y dv)%Q.
Proof.
  intros H. unfold iv_alpha. destruct (Qeq_bool dv 0); [reflexivity|]. cbv zeta.
  assert (H1 : ((lo - x) / dv == (lo - y) / dv)%Q) by now rewrite H. assert (H2 : ((hi - x) / dv == (hi - y) / dv)%Q) by now rewrite H.
  rewrite (hit_ext _ _ H1), (hit_ext _ _ H2), (Qltb_ext _ _ _ _ H1 H2). destruct (hit _), (hit _); [destruct (Qltb _ _)| | |]; auto; reflexivity.
Qed.
Lemma interval_by_value g fluid lo hi lab : dim g = 1%nat -> (lo <= hi)%Q ->
  (forall c : Z, ~ ((g_x0 g)@@0 + g_dx g * inject_Z c == lo)%Q /\ ~ ((g_x0 g)@@0 + g_dx g * inject_Z c == hi)%Q) ->
  bounds_ok g (by_value (interval fluid lo hi lab)) /\ distance_ok g (by_value (interval fluid lo hi lab)).
Proof.
  intros H1 H2 H3.
  assert (HI : forall x y, Forall2 Qeq x y -> e_in (interval fluid lo hi lab) x = e_in (interval fluid lo hi lab) y).
  { intros x y H. cbn [interval e_in]. apply (Forall2_nth _ _ 0) in H. apply Bool.eq_iff_eq_true. now rewrite !andb_true_iff, !Qle_bool_iff, H. }
  split; [now apply by_value_bounds, interval_bounds|]. apply by_value_distance; [exact HI| |now apply interval_distance].
  - intros x y dv H. cbn [interval e_alpha]. apply iv_alpha_ext. now apply (Forall2_nth _ _ 0).
Qed.

(* ---- examples ---- a line of n cells, velocities 1 and -1 *)
Definition sline (n : Z) : grid := mkGrid [n] [1] [2; 2] [[1]; [-1]] [0%Q] 1%Q.
Definition sst : stencil := match build_stencil 1 [[1; 2]] with Some st => st | None => st0 end.
Definition sconds (lab : Z) : list (nat * method) := [(0%nat, if lab =? 5 then MBounceBack else MAnti)].
Definition sD n es : dom := match domain_init (sline n) es with Some D => D | None => mkDom (fun _ => false) (fun _ _ => link0) end.
Definition sms n es : list (method * list blink) := match boundary sst (sline n) (sD n es) sconds (labels_of (sline n) [5]) with Some ms => ms | None => [] end.
Definition solid (lo hi : Q) : elem := by_value (interval false lo hi 5).
Lemma sline_wf n : 0 < n -> wf_grid (sline n).
Proof.
  intros Hn. split; [reflexivity|]. split.
  - intros d Hd. assert (d = 0%nat) as -> by (cbn in Hd; lia). cbn. lia.
  - intros v d Hv Hd. assert (d = 0%nat) as -> by (cbn in Hd; lia). cbn in Hv. destruct Hv as [<-|[<-|[]]]; cbn; lia.
Qed.
Lemma solid_obstacle n lo hi : (lo <= hi)%Q -> Qden lo <> 1%positive -> Z.gcd (Qnum lo) (Zpos (Qden lo)) = 1 ->
  Qden hi <> 1%positive -> Z.gcd (Qnum hi) (Zpos (Qden hi)) = 1 -> obstacle (sline n) [5] (solid lo hi).
Proof.
  intros H1 H2 H3 H4 H5. destruct (interval_by_value (sline n) false lo hi 5 eq_refl H1) as [B DK].
  { intros c. split; [apply (line_off [2; 2] lo H2 H3)|apply (line_off [2; 2] hi H4 H5)]. }
  split; [reflexivity|exact B|exact DK|apply by_value_regular|]. intros x dv _. left. reflexivity.
Qed.
Lemma sserial n es : 0 < n -> (forall e, In e es -> obstacle (sline n) [5] e) -> thick (sline n) es ->
  (exists D, domain_init (sline n) es = Some D) ->
  boundary sst (sline n) (sD n es) sconds (labels_of (sline n) [5]) = Some (sms n es) ->
  serial 1 [[1; 2]] sst [1; 0] (sline n) es [5] sconds (sD n es) (sms n es).
Proof.
  intros Hn HO HT [D HD] HB. split; try assumption.
  - intros s x [<-|[]] Hx. cbn in Hx. lia.
  - reflexivity.
  - reflexivity.
  - reflexivity.
  - split; [reflexivity|]. cbn. lia.
  - now apply sline_wf.
  - intros lb s m1 m2 [E1|[]] [E2|[]]; congruence.
  - reflexivity.
  - split; cbn; unfold valin; intuition discriminate.
  - cbn. unfold valin. intuition discriminate.
  - unfold sD. now rewrite HD.
Qed.
(* one element: the cells of the line *)
Lemma sthick n e : 
  (forall x v, 1 <= x <= n -> 1 <= x + v <= n -> v = 1 \/ v = -1 -> e_in e [inject_Z x] = true \/ (e_alpha e [inject_Z x] [inject_Z v] <= 0)%Q \/
     e_in e [inject_Z (x + v)] = true) -> regular_elem e -> thick (sline n) [e].
Proof.
  intros H R es1 e' es2 E x v Hv Hx Hs HI HA. destruct es1 as [|e1 es1]; [|destruct es1; discriminate]. injection E as <- <-.
  pose proof (proj1 (interior_spec _ _) Hx 0%nat (Nat.lt_0_succ 0)) as X. pose proof (proj1 (interior_spec _ _) Hs 0%nat (Nat.lt_0_succ 0)) as Y.
  rewrite shift_nth in Y by exact (Nat.lt_0_succ 0). cbn [sline g_h g_n nth] in X, Y.
  assert (Ev : v@0 = 1 \/ v@0 = -1) by (destruct Hv as [<-|[<-|[]]]; cbn; auto).
  assert (P : forall y, Forall2 Qeq (point (sline n) y) [inject_Z (y@0)]).
  { intros y. constructor; [|constructor]. cbn [sline g_x0 g_dx nth]. rewrite Qplus_0_l, Qmult_1_l. reflexivity. }
  assert (Pd : displacement (sline n) v = [inject_Z (v@0)]).
  { destruct Hv as [<-|[<-|[]]]; reflexivity. }
  exists e. split; [now left|].
  rewrite Pd in HA. destruct (R _ _ [inject_Z v@0] (P x)) as (R1 & R2 & _). rewrite R1 in HI. rewrite R2 in HA.
  destruct (R _ _ [] (P (shift (sline n) x v))) as (R3 & _). rewrite R3. rewrite shift_nth by exact (Nat.lt_0_succ 0).
  destruct (H (x@0) (v@0)) as [C|[C|C]]; try lia; [congruence| |exact C]. exfalso. lra.
Qed.
Lemma sok n p : 0 < n -> In (n, p) [(6, 2%nat); (6, 1%nat); (12, 2%nat)] -> Forall ax_ok (proc_axes (sline n) [p]).
Proof.
  intros Hn [E|[E|[E|[]]]]; injection E as <- <-; repeat constructor; cbn; try lia; intros [|[|c]] Hc; cbn in Hc; try lia; vm_compute; discriminate.
Qed.
(* The cells 3 and 4 of a line of 6 cells are solid; two processes have three cells each. *)
Definition wall34 : list elem := [solid (9 # 4) (19 # 4)].
Lemma wall34_serial : serial 1 [[1; 2]] sst [1; 0] (sline 6) wall34 [5] sconds (sD 6 wall34) (sms 6 wall34).
Proof.
  apply sserial; [lia| | |eexists; reflexivity|vm_compute; reflexivity].
  - intros e [<-|[]]. apply solid_obstacle; first [discriminate|reflexivity|unfold Qle; cbn; lia].
  - apply sthick; [|apply by_value_regular]. intros x v Hx Hy Hv.
    assert (C : In x [1; 2; 3; 4; 5; 6]) by (cbn; lia). cbn in C.
    destruct Hv as [-> | ->]; repeat (destruct C as [<-|C]; [first [left; vm_compute; reflexivity|right; left; vm_compute; discriminate|right; right; vm_compute; reflexivity]|]); contradiction.
Qed.
Definition sF n p : fields Zring := fun c i k => 100 * (globc (proc_axes (sline n) [p]) c i)@0 + Z.of_nat k.
Definition srun n es p : fields Zring :=
  fst (two_run (K := Zring) (fun _ => 0) a_ex sst [1; 0] (sline n) [p] Cython (links_at sst (sline n) es [5] sconds [p]) (fun _ => 0) (fun _ => 0)
    [fun (_ : Z) (_ : list Q) (_ : nat) => 0] (sF n p, sF n p)).
Lemma sexists : parallel sst (sline 6) wall34 [5] sconds [2%nat] (dom_at (sline 6) wall34 [2%nat]) (links_at sst (sline 6) wall34 [5] sconds [2%nat]).
Proof.
  eapply C57_exists; [exact wall34_serial|apply sok; cbn; auto; lia|]. right. intros c Hc.
  assert (E : c = [0%nat] \/ c = [1%nat]).
  { pose proof (Forall2_length _ _ _ Hc) as L. destruct c as [|c0 [|c1 c]]; try discriminate. inversion Hc as [|? ? ? ? H0 H1]. cbn in H0.
    destruct c0 as [|[|c0]]; [auto|auto|lia]. }
  split.
  - split; [reflexivity|]. split.
    + intros d Hd. assert (d = 0%nat) as -> by (cbn in Hd; lia). destruct E as [-> | ->]; vm_compute; split; (discriminate || reflexivity).
    + intros v d Hv Hd. assert (d = 0%nat) as -> by (cbn in Hd; lia). cbn in Hv. destruct Hv as [<-|[<-|[]]]; vm_compute; discriminate.
  - intros e [<-|[]] d Hd. assert (d = 0%nat) as -> by (cbn in Hd; lia). left. destruct E as [-> | ->]; vm_compute; reflexivity.
Qed.
Example C57_obstacle_example :
  serial 1 [[1; 2]] sst [1; 0] (sline 6) wall34 [5] sconds (sD 6 wall34) (sms 6 wall34) /\
  parallel sst (sline 6) wall34 [5] sconds [2%nat] (dom_at (sline 6) wall34 [2%nat]) (links_at sst (sline 6) wall34 [5] sconds [2%nat]) /\
  quiet sst [1; 0] (sline 6) (sms 6 wall34) /\
  map (fun x => d_ioo (sD 6 wall34) [x]) [0; 1; 2; 3; 4; 5; 6; 7] = [false; true; true; false; false; true; true; false] /\
  (* the links of the element and of the sides: two of each, one of each for each process *)
  map (fun b => (b_lab b, b_cell b)) (concat (map snd (sms 6 wall34))) = [(2, [0]); (2, [7]); (5, [4]); (5, [3])] /\
  map (fun b => (b_lab b, b_cell b)) (concat (map snd (links_at sst (sline 6) wall34 [5] sconds [2%nat] [1%nat]))) = [(2, [4]); (5, [1])] /\
  srun 6 wall34 2%nat [1%nat] [2] 0%nat = srun 6 wall34 1%nat [0%nat] [5] 0%nat.
Proof.
  split; [exact wall34_serial|]. split; [exact sexists|]. split.
  { eapply C57_quiet; [exact wall34_serial|]. intros m b (L & HL & _). apply (in_map fst) in HL. vm_compute in HL. unfold simple. intuition. }
  split; [vm_compute; reflexivity|]. split; [vm_compute; reflexivity|]. split; vm_compute; reflexivity.
Qed.

(* A thin element, between the cells 3 and 4 of the line: one process ignores it, but the
   ghost cells between two processes count as outside, and the processes give it links. *)
Definition thin : list elem := [solid (13 # 4) (15 # 4)].
Theorem C57_thin_refuted : exists dimz schemes st r g es labs conds D ms ps,
  nonneg schemes /\ build_stencil dimz schemes = Some st /\ stencil_get_symmetric st None = Some r /\ g_vel g = map vel_list (sunique st) /\
  Z.of_nat (dim g) = dimz /\ wf_grid g /\ (forall e, In e es -> obstacle g labs e) /\ ~ In valin labs /\
  domain_init g es = Some D /\ boundary st g D conds (labels_of g labs) = Some ms /\
  (forall c, coords_ok (proc_axes g ps) c -> exists Dc msc,
     domain_init (local_grid g ps c) es = Some Dc /\ boundary st (local_grid g ps c) Dc conds (labels_of (local_grid g ps c) labs) = Some msc) /\
  (* a process has a link with the label of the element, the serial domain has none *)
  (exists c m b, coords_ok (proc_axes g ps) c /\ has (links_at st g es labs conds ps c) m b /\ In (b_lab b) labs) /\
  (forall m b, has ms m b -> ~ In (b_lab b) labs) /\
  (* the values are different after one step *)
  exists (a : algo Zring) (F F' : fields Zring) ps' c i c' i' k, algo_ok Zring a /\ al_n a = length (concat schemes) /\
    glued (proc_axes g ps) (proc_axes g ps') (al_n a) F F' /\ (k < al_n a)%nat /\
    coords_ok (proc_axes g ps) c /\ inner (proc_axes g ps) c i /\ coords_ok (proc_axes g ps') c' /\ inner (proc_axes g ps') c' i' /\
    globc (proc_axes g ps) c i = globc (proc_axes g ps') c' i' /\
    let phi := fun (_ : Z) (_ : list Q) (_ : nat) => 0 in
    fst (two_run (K := Zring) (fun _ => 0) a st r g ps Cython (links_at st g es labs conds ps) (fun _ => 0) (fun _ => 0) [phi] (F, F)) c i k <>
    fst (two_run (K := Zring) (fun _ => 0) a st r g ps' Cython (links_at st g es labs conds ps') (fun _ => 0) (fun _ => 0) [phi] (F', F')) c' i' k.
Proof.
  exists 1, [[1; 2]], sst, [1; 0], (sline 6), thin, [5], sconds, (sD 6 thin), (sms 6 thin), [2%nat].
  split; [intros s x [<-|[]] Hx; cbn in Hx; lia|]. split; [reflexivity|]. split; [reflexivity|]. split; [reflexivity|]. split; [reflexivity|].
  split; [apply sline_wf; lia|].
  split; [intros e [<-|[]]; apply solid_obstacle; first [discriminate|reflexivity|unfold Qle; cbn; lia]|].
  split; [cbn; unfold valin; intuition discriminate|]. split; [reflexivity|]. split; [vm_compute; reflexivity|]. split; [|split; [|split]].
  - intros c Hc. assert (E : c = [0%nat] \/ c = [1%nat]).
    { pose proof (Forall2_length _ _ _ Hc) as L. destruct c as [|c0 [|c1 c]]; try discriminate. inversion Hc as [|? ? ? ? H0 H1]. cbn in H0.
      destruct c0 as [|[|c0]]; [auto|auto|lia]. }
    destruct E as [-> | ->]; do 2 eexists; split; reflexivity.
  - exists [0%nat], MBounceBack.
    assert (X : exists b, In b (concat (map snd (links_at sst (sline 6) thin [5] sconds [2%nat] [0%nat]))) /\ b_lab b = 5).
    { eexists. split; [vm_compute; right; left; reflexivity|reflexivity]. }
    destruct X as (b & Hb & Eb). exists b. split; [repeat constructor|]. split; [|rewrite Eb; now left].
    apply in_concat in Hb. destruct Hb as (L & HL & Hb). apply in_map_iff in HL. destruct HL as ((m & L') & E1 & HL). cbn [snd] in E1. subst L'.
    exists L. split; [|exact Hb].
    assert (Y : Forall (fun p : method * list blink => forall b, In b (snd p) -> b_lab b = 5 -> fst p = MBounceBack) (links_at sst (sline 6) thin [5] sconds [2%nat] [0%nat])).
    { vm_compute. repeat constructor; cbn; intros b0 H0 H1; repeat (destruct H0 as [<-|H0]; [try discriminate|]); try contradiction; try discriminate. }
    rewrite Forall_forall in Y. specialize (Y _ HL b Hb Eb). cbn [fst] in Y. now subst m.
  - intros m b (L & HL & Hb) [C|[]].
    assert (Y : Forall (fun b => b_lab b = 2) (concat (map snd (sms 6 thin)))) by (vm_compute; repeat constructor).
    rewrite Forall_forall in Y. rewrite (Y b) in C; [discriminate|]. apply in_concat. exists L. split; [|exact Hb]. now apply (in_map snd) in HL.
  - exists a_ex, (sF 6 2), (sF 6 1), [1%nat], [1%nat], [1], [0%nat], [4], 0%nat. split; [apply algo_ok_ex|]. split; [reflexivity|].
    split; [intros c i c' i' k Hc Hi Hc' Hi' Hk E; unfold sF; now rewrite E|]. split; [cbn; lia|].
    split; [repeat constructor|]. split; [split; [reflexivity|intros [|d] Hd; cbn in Hd; try lia; vm_compute; split; (discriminate || reflexivity)]|].
    split; [repeat constructor|]. split; [split; [reflexivity|intros [|d] Hd; cbn in Hd; try lia; vm_compute; split; (discriminate || reflexivity)]|].
    split; [reflexivity|]. vm_compute. discriminate.
Qed.
Print Assumptions C57_thin_refuted.

(* An element that ends a little to the left of a process: the construction of the domain
   of this process fails. *)
Definition wall23 : list elem := [solid (3 # 2) (15 # 4)].
Theorem C57_exists_refuted : exists dimz schemes st r g es labs conds D ms ps c,
  serial dimz schemes st r g es labs conds D ms /\ Forall ax_ok (proc_axes g ps) /\ coords_ok (proc_axes g ps) c /\
  (forall c, coords_ok (proc_axes g ps) c -> wf_grid (local_grid g ps c)) /\
  domain_init (local_grid g ps c) es = None.
Proof.
  exists 1, [[1; 2]], sst, [1; 0], (sline 12), wall23, [5], sconds, (sD 12 wall23), (sms 12 wall23), [2%nat], [1%nat].
  split; [|split; [apply sok; cbn; auto; lia|split; [repeat constructor|split; [|vm_compute; reflexivity]]]].
  - apply sserial; [lia| | |eexists; reflexivity|vm_compute; reflexivity].
    + intros e [<-|[]]. apply solid_obstacle; first [discriminate|reflexivity|unfold Qle; cbn; lia].
    + apply sthick; [|apply by_value_regular]. intros x v Hx Hy Hv.
      assert (C : In x [1; 2; 3; 4; 5; 6; 7; 8; 9; 10; 11; 12]) by (cbn; lia). cbn in C.
      destruct Hv as [-> | ->]; repeat (destruct C as [<-|C]; [first [left; vm_compute; reflexivity|right; left; vm_compute; discriminate|right; right; vm_compute; reflexivity]|]); contradiction.
  - intros c Hc. assert (E : c = [0%nat] \/ c = [1%nat]).
    { pose proof (Forall2_length _ _ _ Hc) as L. destruct c as [|c0 [|c1 c]]; try discriminate. inversion Hc as [|? ? ? ? H0 H1]. cbn in H0.
      destruct c0 as [|[|c0]]; [auto|auto|lia]. }
    split; [reflexivity|]. split.
    + intros d Hd. assert (d = 0%nat) as -> by (cbn in Hd; lia). destruct E as [-> | ->]; vm_compute; split; (discriminate || reflexivity).
    + intros v d Hv Hd. assert (d = 0%nat) as -> by (cbn in Hd; lia). cbn in Hv. destruct Hv as [<-|[<-|[]]]; vm_compute; discriminate.
Qed.
Print Assumptions C57_exists_refuted.
