(* C99: schemes whose velocities all change the parity of the cell keep alternating sums. *)
From Coq Require Import QArith Permutation.
From Verif Require Import PyBase VelocityModel VelocityProofs Velocity3Proofs StencilModel StencilProofs GridModel GridProofs StorageModel
  ExchangeProofs StorageProps LinAlg AlgoModel AlgoProofs RelVelProofs KernelProofs GlobalModel GlobalProofs TorusProofs AlgoProps GlobalProps
  GenModel GenProofs GenProps StepGenModel StepGenProofs StepGenProps SchemeModel SchemeProofs SchemeProps BuildModel BuildProofs BuildProps BuildFrame
  DomainModel DomainProofs DomainProps BoundaryModel BoundaryProofs BoundaryProps BoundaryUpdProps VesselProofs VesselProps ChannelProps
  ParallelModel ParallelProofs ObstacleProofs ParallelProps ObstacleProps ParallelMassProps WholeModel WholeProps InitGenModel InitGenProps DuctProps FlowProofs FlowProps.
Require Import Lia.
Open Scope Z_scope.

(* the sum of the coordinates of x along the axes of A *)
Definition along (A : list nat) (x : list Z) : Z := fold_right (fun d s => x@d + s) 0 A.
Definition sign (K : ring) (odd : bool) : K := if odd then (- (1))%K else 1%K.

Lemma opp_at (o : list Z) d : (map Z.opp o)@d = - o@d.
Proof. change 0 with (- 0) at 1. apply map_nth. Qed.

Section Stagger.
Variables (dimz : Z) (schemes : list (list Z)) (st : stencil) (r : list Z) (g : grid) (es : list DomainModel.elem) (labs : list Z) (conds : Z -> list (nat * method)).
Variables (Dm : dom) (ms : list (method * list blink)).
Hypothesis E : serial dimz schemes st r g es labs conds Dm ms.
Variables (K : ring) (qk : Q -> K).
Add Ring Kring : (rth K).
Variable inv : nat -> mat K -> option (mat K).
Variable simp : term K -> term K.
Variables (dm : nat) (hdt : K) (ds : list (sdict K)) (a : salgo K).
Hypothesis HI : inv_spec K inv.
Hypothesis HSi : simp_spec K simp.
Hypothesis D : dict_ok K simp ds.
Hypothesis O : ordered K simp ds.
Hypothesis EB : build K inv simp None dm hdt ds = Some a.
Hypothesis HPl : forall d t, In d ds -> In t (sd_P K d) -> below K dm t.
Hypothesis Hsz : map (nv K) ds = map (@length Z) schemes.
Hypothesis HQ : quiet st r g ms.
Notation n := (SchemeModel.total (sizes K ds)).
Notation hist := (history st r g ms K qk simp hdt ds).
Notation sim := (simulates st r g es labs conds K qk inv simp ds a).
Notation at_cell x := (point g (cell_of g x)).
Notation cells := (all_cells (g_n g)).
(* all the sides are periodic *)
Hypothesis HL : forall lab, In lab (labels_of g labs) -> lab = -1 \/ lab = -2.
(* an even number of cells along the axes of A; along them, the velocities are all odd or all even *)
Variable A : list nat.
Variable p : bool.
Hypothesis HA : forall d, In d A -> (d < dim g)%nat /\ Z.even (g_n g)@d = true.
Hypothesis Hv : forall k, (k < n)%nat -> Z.odd (along A (velk st k)) = p.
Variables (c b i : nat).
Hypothesis Hm : is_moment K simp ds c b i.
Hypothesis Hs : BuildProofs.source K ds c = None.

(* the sum over the cells of the moment with the sign + in the even cells, - in the odd ones *)
Definition alternating (F : list Z -> vec K) : K := sumL cells (fun x => sign K (Z.odd (along A x)) * mom K ds (F x) b i)%K.

Lemma even_mod x N : 0 < N -> Z.even N = true -> Z.odd (x mod N) = Z.odd x.
Proof using.
  clear. intros H0 HN. apply Z.even_spec in HN. destruct HN as [q ->]. rewrite (Z.div_mod x (2 * q)) at 2 by lia.
  replace (2 * q * (x / (2 * q)) + x mod (2 * q)) with (x mod (2 * q) + 2 * (q * (x / (2 * q)))) by lia. now rewrite Z.odd_add_mul_2.
Qed.
Lemma along_moved o x : Z.odd (along A (moved g o x)) = xorb (Z.odd (along A x)) (Z.odd (along A o)).
Proof using E HA.
  clear Hv HL Hm Hs. revert HA. induction A as [|d l IH]; intros HA; [reflexivity|]. cbn [along fold_right]. rewrite !Z.odd_add. fold (along l (moved g o x)) (along l x) (along l o).
  rewrite IH by (intros d' Hd'; apply HA; now right). destruct (HA d (or_introl eq_refl)) as [Hd HN].
  unfold moved. rewrite wrapg_nth, shift_nth, cell_of_nth by exact Hd.
  rewrite even_mod by (try exact HN; exact (proj1 (proj2 (e_wf _ _ _ _ _ _ _ _ _ _ E)) d Hd) || (pose proof (proj1 (proj2 (e_wf _ _ _ _ _ _ _ _ _ _ E)) d Hd); lia)).
  replace (x@d + (g_h g)@d + o@d - (g_h g)@d) with (x@d + o@d) by lia. rewrite Z.odd_add.
  destruct (Z.odd x@d), (Z.odd o@d), (Z.odd (along l x)), (Z.odd (along l o)); reflexivity.
Qed.
Lemma cells_in x : In x cells <-> cell_in g x.
Proof using.
  clear. rewrite all_cells_in. unfold cell_ok, cell_in. split.
  - intros H. assert (L : length x = length (g_n g)) by (eapply Forall2_length; exact H). split; [exact L|]. intros d Hd. clear - H Hd. unfold dim in Hd. revert d Hd.
    induction H as [|y s x l Hy H IH]; intros d Hd; [cbn in Hd; lia|]. destruct d as [|d]; [exact Hy|]. apply IH. cbn in Hd. lia.
  - intros [L C]. unfold dim in *. revert x L C. induction (g_n g) as [|s l IH]; intros [|y x] L C; try discriminate; constructor.
    + apply (C 0%nat). cbn. lia.
    + apply IH; [cbn in L; lia|]. intros d Hd. apply (C (S d)). cbn. lia.
Qed.
Lemma moved_back o x : cell_in g x -> moved g (map Z.opp o) (moved g o x) = x.
Proof using E.
  clear - E. intros [L C]. apply (cell_ext g); [apply wrapg_len|exact L|]. intros d Hd. unfold moved. rewrite wrapg_nth, shift_nth, cell_of_nth, wrapg_nth, shift_nth, cell_of_nth by exact Hd.
  assert (N0 : (g_n g)@d <> 0) by (pose proof (proj1 (proj2 (e_wf _ _ _ _ _ _ _ _ _ _ E)) d Hd); lia).
  rewrite opp_at.
  set (h := (g_h g)@d). set (N := (g_n g)@d) in *. replace ((x@d + h + o@d - h) mod N + h + - o@d - h) with ((x@d + h + o@d - h) mod N + - o@d) by lia.
  rewrite Zplus_mod_idemp_l. replace (x@d + h + o@d - h + - o@d) with (x@d) by lia. apply Z.mod_small. exact (C d Hd).
Qed.
Lemma opp_opp (o : list Z) : map Z.opp (map Z.opp o) = o.
Proof using. clear. rewrite map_map. transitivity (map id o); [apply map_ext; intros z; unfold id; lia|apply map_id]. Qed.
Lemma moved_sum o (F : list Z -> K) : sumL cells (fun x => F (moved g o x)) = sumL cells F.
Proof using E.
  rewrite <- (sumL_map K (moved g o)). apply sumL_perm. apply NoDup_Permutation.
  - assert (X : forall l, NoDup l -> (forall x, In x l -> cell_in g x) -> NoDup (map (moved g o) l)).
    { induction 1 as [|x l Hx Hl IH]; intros HG; cbn; constructor; [|apply IH; intros z Hz; apply HG; now right].
      intros C. apply in_map_iff in C. destruct C as (y & Ey & Hy). apply Hx.
      rewrite <- (moved_back o x (HG x (or_introl eq_refl))), <- Ey, (moved_back o y (HG y (or_intror Hy))). exact Hy. }
    apply X; [apply all_cells_NoDup|]. intros x Hx. now apply cells_in.
  - apply all_cells_NoDup.
  - intros x. rewrite in_map_iff. split.
    + intros (y & <- & _). apply cells_in. eapply wrapg_in; exact E.
    + intros Hx. apply cells_in in Hx. exists (moved g (map Z.opp o) x). split; [rewrite <- (opp_opp o) at 1; now apply moved_back|]. apply cells_in. eapply wrapg_in; exact E.
Qed.
Lemma along_opp o : Z.odd (along A (map Z.opp o)) = Z.odd (along A o).
Proof using.
  clear. induction A as [|d l IH]; [reflexivity|]. cbn [along fold_right]. rewrite !Z.odd_add. fold (along l (map Z.opp o)) (along l o). rewrite IH. f_equal.
  rewrite opp_at. apply Z.odd_opp.
Qed.

(* One step multiplies the alternating sum by 1 or - 1. *)
Theorem C99_step phis G : hist phis G -> forall t, alternating (G (S t)) = (sign K p * alternating (G t))%K.
Proof using E HI HSi D O EB HL HA Hv Hm Hs.
  intros H t. pose proof (no_links dimz schemes st r g es labs conds Dm ms E HL) as M.
  destruct (whole_row K inv simp dm hdt ds a HI D O EB c b i Hm) as (k0 & _ & Eq).
  assert (Ean : al_n (algo_of K a) = n) by exact (whole_size K inv simp dm hdt ds a HI D EB). rewrite Ean in Eq.
  set (w := al_M (algo_of K a) k0). change (forall f, mom K ds f b i = sum n (fun k => w k * f k)%K) in Eq.
  (* what arrives at x is what left the neighbours *)
  assert (S1 : forall x, mom K ds (G (S t) x) b i = sum n (fun k => w k * G t (moved g (map Z.opp (velk st k)) x) k)%K).
  { intros x. destruct (H t x) as (f & F1 & F2). destruct (values_ex K simp hdt ds D O inv None dm a HI EB f) as [u Hu].
    rewrite (proj1 (F2 u Hu) c b i Hm), !half_none, (Hu c b i Hm), Eq by exact Hs. apply sum_ext. intros k Hk. f_equal.
    destruct (F1 k Hk) as [(m & bl & [lk [Hl _]] & _)|[_ A2]]; [rewrite M in Hl; destruct Hl|exact A2]. }
  unfold alternating. rewrite (sumL_ext K _ _ (fun x => sum n (fun k => sign K (Z.odd (along A x)) * (w k * G t (moved g (map Z.opp (velk st k)) x) k))%K)).
  2:{ intros x _. rewrite S1. unfold sum. now rewrite sumL_mul_l. }
  unfold sum at 1. rewrite sumL_swap. rewrite <- sumL_mul_l.
  rewrite (sumL_ext K cells (fun x => (sign K p * (sign K (Z.odd (along A x)) * mom K ds (G t x) b i))%K) (fun x => sum n (fun k => sign K p * (sign K (Z.odd (along A x)) * (w k * G t x k)))%K)).
  2:{ intros x _. rewrite Eq. unfold sum. now rewrite !sumL_mul_l. }
  unfold sum. symmetry. rewrite sumL_swap. symmetry. apply sumL_ext. intros k Hk. apply in_seq in Hk.
  rewrite <- (moved_sum (map Z.opp (velk st k)) (fun x => sign K p * (sign K (Z.odd (along A x)) * (w k * G t x k)))%K).
  apply sumL_ext. intros x _. rewrite along_moved, along_opp, Hv by lia. unfold sign. destruct (Z.odd (along A x)), p; cbn [xorb]; ring.
Qed.
(* At all times, whatever the equilibria and the relaxation parameters. *)
Theorem C99_alternating phis G : hist phis G -> forall t, alternating (G t) = (sign K (p && Nat.odd t) * alternating (G 0%nat))%K.
Proof using E HI HSi D O EB HL HA Hv Hm Hs.
  intros H t. induction t as [|t IH]; [cbn; rewrite andb_false_r; cbn; ring|]. rewrite (C99_step phis G H t), IH, Nat.odd_succ, <- Nat.negb_odd. unfold sign.
  destruct p, (Nat.odd t); cbn; ring.
Qed.
Theorem C99_simulation l phis rk : data_ok K ds l -> walls_ok K phis -> nth_error (conserved K ds) rk = Some c ->
  exists G rho, sim l phis G /\ (forall x, cell_in g x -> given_value K ds l rk (at_cell x) (rho x)) /\
  forall t, alternating (G t) = (sign K (p && Nat.odd t) * sumL cells (fun x => sign K (Z.odd (along A x)) * rho x))%K.
Proof using E HI HSi D O EB HPl Hsz HQ HL HA Hv Hm Hs.
  intros Hl Hp Hrk. destruct (flow dimz schemes st r g es labs conds Dm ms E K qk inv simp dm hdt ds a HI HSi D O EB HPl Hsz HQ l phis Hl Hp) as (G & G0 & GH & GS).
  exists G, (fun x => mom K ds (G 0%nat x) b i). split; [exact GS|]. split.
  - intros x Hx. exact (proj1 (G0 x Hx) rk c b i Hrk Hm).
  - intros t. apply (C99_alternating phis G GH t).
Qed.
(* Odd velocities: when the alternating sum is not 0 at the start, the moment is uniform at no time. *)
Theorem C99_never_uniform phis G : p = true -> (forall x : K, (x + x)%K = 0%K -> x = 0%K) -> hist phis G -> alternating (G 0%nat) <> 0%K ->
  forall t u, ~ (forall x, cell_in g x -> mom K ds (G t x) b i = u).
Proof using E HI HSi D O EB HL HA Hv Hm Hs.
  intros Ep H2 H H0 t u HU. apply H0.
  assert (N : (0 < n)%nat).
  { destruct (Nat.eq_0_gt_0_cases n) as [N|N]; [|exact N]. exfalso. destruct Hm as (d & Hb & _ & Hi & _).
    pose proof (off_total K ds b d i Hb Hi) as X. clear - X N. lia. }
  assert (Z0 : sumL cells (fun x => sign K (Z.odd (along A x))) = 0%K).
  { apply H2. rewrite <- (moved_sum (velk st 0%nat)) at 1. rewrite <- sumL_add, <- (sumL_zero K cells). apply sumL_ext. intros x _.
    rewrite along_moved, (Hv 0%nat N), Ep. unfold sign. destruct (Z.odd (along A x)); cbn [xorb]; ring. }
  assert (T : alternating (G t) = 0%K).
  { unfold alternating. rewrite (sumL_ext K _ _ (fun x => sign K (Z.odd (along A x)) * u)%K) by (intros x Hx; rewrite HU by (now apply cells_in); reflexivity).
    rewrite sumL_mul_r, Z0. ring. }
  rewrite (C99_alternating phis G H t) in T. unfold sign in T. destruct (p && Nat.odd t)%bool; cbn in T.
  - transitivity (- (- (1) * alternating (G 0%nat)))%K; [ring|rewrite T; ring].
  - transitivity (1 * alternating (G 0%nat))%K; [ring|exact T].
Qed.
End Stagger.
Print Assumptions C99_step.
Print Assumptions C99_alternating.
Print Assumptions C99_simulation.
Print Assumptions C99_never_uniform.

(* Six periodic cells, the velocities 1 and -1: the alternating sum of the densities is S, - S, S, ... *)
Definition spike (x : list Q) : Z := if Qeq_bool (hd 0%Q x) 3 then 14 else 2.
Lemma spike_regular x y : Forall2 Qeq x y -> spike x = spike y.
Proof.
  intros H. unfold spike. destruct H as [|u v x y Huv _]; [reflexivity|]. cbn [hd].
  destruct (Qeq_bool u 3) eqn:E1; destruct (Qeq_bool v 3) eqn:E2; try reflexivity; exfalso.
  - apply Qeq_bool_iff in E1. apply Qeq_bool_neq in E2. apply E2. now rewrite <- Huv.
  - apply Qeq_bool_iff in E2. apply Qeq_bool_neq in E1. apply E1. now rewrite Huv.
Qed.
Example C99_example : exists a, fbuild q3 [] = Some a /\ exists G, simulates sst [1; 0] ring6 [] [] bb Zring (fun _ => 0) finv nosimp [dflow q3 []] a [(ISym 5, spike)] wphi G /\
  (forall t, alternating ring6 Zring [dflow q3 []] [0%nat] 0 0 (G t) = if Nat.odd t then -12 else 12) /\
  forall t u, ~ (forall x, cell_in ring6 x -> mom Zring [dflow q3 []] (G t x) 0 0 = u).
Proof.
  destruct (built_ex (fbuild q3 [])) as [a Ea]; [vm_compute; reflexivity|]. exists a. split; [exact Ea|].
  assert (H1 : q3 = q3 \/ q3 = qh) by now left. assert (H2 : (@nil (nat * term Zring)) = [] \/ [] = src3) by now left.
  destruct (C99_simulation 1 [[1; 2]] sst [1; 0] ring6 [] [] bb rD [] rserial Zring (fun _ => 0) finv nosimp 1 1 [dflow q3 []] a (zinv_ok _) fsimp
    (dflow_ok _ _ H1 H2) (dflow_ordered _ _ H1) Ea (dflow_below _ _) eq_refl rquiet) with (A := [0%nat]) (p := true) (c := 5%nat) (b := 0%nat) (i := 0%nat) (l := [(ISym 5, spike)]) (phis := wphi) (rk := 0%nat)
    as (G & rho & G1 & G2 & G3); try exact wphi_ok; try reflexivity.
  - intros lab Hl. vm_compute in Hl. destruct Hl as [<-|[]]. now left.
  - intros d [<-|[]]. split; [cbn; lia|reflexivity].
  - intros k Hk. change (k < 2)%nat in Hk. destruct k as [|[|k]]; [reflexivity|reflexivity|lia].
  - now apply (dflow_moment _ _ H1).
  - apply dflow_data. exact spike_regular.
  - assert (T : forall t, alternating ring6 Zring [dflow q3 []] [0%nat] 0 0 (G t) = if Nat.odd t then -12 else 12).
    { intros t. rewrite G3. change (all_cells (g_n ring6)) with [[0]; [1]; [2]; [3]; [4]; [5]].
      assert (R : forall x0, 0 <= x0 < 6 -> rho [x0] = spike (point ring6 (cell_of ring6 [x0]))).
      { intros x0 Hx. assert (C : cell_in ring6 [x0]) by (split; [reflexivity|]; intros d Hd; cbn in Hd; destruct d; [exact Hx|lia]).
        specialize (G2 _ C). apply given_one in G2. destruct G2 as [[_ X]|[X _]]; [exact X|]. exfalso. apply X. reflexivity. }
      cbn [sumL fold_right]. rewrite !R by lia. destruct (Nat.odd t); vm_compute; reflexivity. }
    exists G. split; [exact G1|]. split; [exact T|]. intros t u HU. specialize (T t). unfold alternating in T.
    change (all_cells (g_n ring6)) with [[0]; [1]; [2]; [3]; [4]; [5]] in T. cbn [sumL fold_right] in T.
    assert (C : forall x0, 0 <= x0 < 6 -> mom Zring [dflow q3 []] (G t [x0]) 0 0 = u) by (intros x0 Hx; apply HU; split; [reflexivity|]; intros d Hd; cbn in Hd; destruct d; [exact Hx|lia]).
    rewrite !C in T by lia. change (1 * u + (-1 * u + (1 * u + (-1 * u + (1 * u + (-1 * u + 0))))) = if Nat.odd t then -12 else 12) in T. destruct (Nat.odd t); lia.
Qed.
