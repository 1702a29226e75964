(* C71 - C75: what the simulations of C68 do: rest states, finite speed, superposition,
   translations, the budget of the conserved quantities with sources. *)
From Coq Require Import QArith.
From Verif Require Import PyBase VelocityModel VelocityProofs Velocity3Proofs StencilModel StencilProofs GridModel GridProofs StorageModel
  ExchangeProofs StorageProps LinAlg AlgoModel AlgoProofs RelVelProofs KernelProofs GlobalModel GlobalProofs TorusProofs AlgoProps GlobalProps
  GenModel GenProofs GenProps StepGenModel StepGenProofs StepGenProps SchemeModel SchemeProofs SchemeProps BuildModel BuildProofs BuildProps BuildFrame
  DomainModel DomainProofs DomainProps BoundaryModel BoundaryProofs BoundaryProps BoundaryUpdProps VesselProofs VesselProps ChannelProps
  ParallelModel ParallelProofs ObstacleProofs ParallelProps ObstacleProps ParallelMassProps WholeModel WholeProps InitGenModel InitGenProps DuctProps FlowProofs.
Require Import Lia.
Open Scope Z_scope.

Section Flow.
Variables (dimz : Z) (schemes : list (list Z)) (st : stencil) (r : list Z) (g : grid) (es : list DomainModel.elem) (labs : list Z) (conds : Z -> list (nat * method)).
Variables (Dm : dom) (ms : list (method * list blink)).
Hypothesis E : serial dimz schemes st r g es labs conds Dm ms.
Variables (K : ring) (qk : Q -> K).
Add Ring Kring : (rth K).
Variable inv : nat -> mat K -> option (mat K).
Variable simp : term K -> term K.
Variables (dm : nat) (hdt : K) (ds : list (sdict K)) (a : salgo K).
Hypothesis HI : inv_spec K inv.
Hypothesis HSi : simp_spec K simp.
Hypothesis D : dict_ok K simp ds.
Hypothesis O : ordered K simp ds.
Hypothesis EB : build K inv simp None dm hdt ds = Some a.
Hypothesis HPl : forall d t, In d ds -> In t (sd_P K d) -> below K dm t.
Hypothesis Hsz : map (nv K) ds = map (@length Z) schemes.
Hypothesis HQ : quiet st r g ms.
Notation n := (SchemeModel.total (sizes K ds)).
Notation data := (list (ikey * (list Q -> K))).
Notation walls := (nat -> Z -> list Q -> nat -> K).
Notation arrive := (arrives st r g ms K qk).
Notation bval phi := (bvalue K qk g (velk st) (symk r) (feq_of st phi g)).
Notation hist := (history st r g ms K qk simp hdt ds).
Notation sim := (simulates st r g es labs conds K qk inv simp ds a).
Notation at_cell x := (point g (cell_of g x)).
(* the entries of "init" name moments, the functions see numbers *)
Definition data_ok (l : data) : Prop := regular_data K l /\ forall p, In p l -> known K ds (fst p).
Definition walls_ok (phis : walls) : Prop := forall t, ParallelProps.regular (phis t).

(* Every dictionary has a history, and the simulation holds its values. *)
Lemma flow l phis : data_ok l -> walls_ok phis -> exists G, (forall x, cell_in g x -> initial_state K simp ds l (at_cell x) (G 0%nat x)) /\ hist phis G /\ sim l phis G.
Proof using E HI HSi D O EB HPl Hsz HQ.
  intros [Hl Hk] Hphis. destruct (C68_simulation dimz schemes st r g es labs conds Dm ms E K qk inv simp dm hdt ds a HI HSi D O EB HPl Hsz l Hl Hk phis HQ Hphis) as (G & G1 & G2 & _).
  exists G. split; [intros x _; apply G1|]. split; [exact G2|].
  eapply simulates_history; try eassumption. intros x _. apply G1.
Qed.
Lemma sim_of l phis G : data_ok l -> walls_ok phis -> hist phis G -> (forall x, cell_in g x -> initial_state K simp ds l (at_cell x) (G 0%nat x)) -> sim l phis G.
Proof using E HI HSi D O EB HPl Hsz HQ. intros [Hl Hk] Hphis H1 H2. eapply simulates_history; eassumption. Qed.

(* --------------------------------------------------------------- C71 ----- *)
(* The condition m at the link b gives back the uniform state e. *)
Definition keeps (phi : Z -> list Q -> nat -> K) (e : vec K) (m : method) (b : blink) : Prop :=
  let k := b_k b in let k' := symk r k in let w := feq_of st phi g b in let s := qk (bz_s (b_dist b)) in
  match m with
  | MBounceBack => (w k - w k' = e k - e k')%K
  | MBouzidi => (w k - w k' = e k - e k')%K /\ ((b_dist b < 1 # 2)%Q \/ s = 1%K \/ e k = e k')
  | MAnti => (w k + w k' = e k + e k')%K
  | MBouzidiAnti => (w k + w k' = e k + e k')%K /\ s = 1%K
  | _ => True
  end.
Lemma keeps_value phi e m b : keeps phi e m b -> bval phi m (gfield g K (fun _ => e)) b = e (b_k b).
Proof using.
  unfold keeps, bvalue, at_, gfield. cbv zeta. set (s := qk (bz_s (b_dist b))). clearbody s.
  destruct m; cbn [rhs iload0 fst]; try reflexivity.
  - intros H. rewrite H. ring.
  - intros [H C]. rewrite H. unfold iload1, near. destruct (Qltb (b_dist b) (1 # 2)) eqn:Eq; cbn [fst]; [ring|].
    destruct C as [C|[C|C]]; [apply Qltb_true in C; congruence|rewrite C; ring|rewrite C; ring].
  - intros H. rewrite H. ring.
  - intros [H C]. rewrite H, C. ring.
Qed.
(* A uniform state, at equilibrium where the sources vanish, given back by the conditions, does
   not change: on every process grid, with both back ends. *)
Theorem C71_rest l phis e : data_ok l -> walls_ok phis -> (forall x, cell_in g x -> initial_state K simp ds l (at_cell x) e) ->
  (forall val c h, conserved_values K simp ds e val -> In c (conserved K ds) -> BuildProofs.source K ds c = Some h -> teval K val h = 0%K) ->
  (forall t m b, has ms m b -> (b_k b < n)%nat -> keeps (phis t) e m b) -> sim l phis (fun _ _ => e).
Proof using E HI HSi D O EB HPl Hsz HQ.
  intros Hl Hphis Hi Hsrc Hb. apply sim_of; try assumption. intros t x. exists e. split.
  - intros j Hj. assert (A := arrives_bc dimz schemes st r g es labs conds Dm ms E HQ K qk Cython (phis t) (fun _ => e) x j).
    destruct A as [(m & b & H1 & H2 & H3 & H4)|[H1 H2]].
    + left. exists m, b. repeat (split; [assumption|]). rewrite keeps_value by (apply Hb; [exact H1|now rewrite H2]). now rewrite H2.
    + right. split; [exact H1|reflexivity].
  - apply (balanced_step K simp hdt ds HSi D O inv None dm a HI EB). intros val HV. split; [|intros c h; now apply Hsrc].
    assert (X : cell_in g (wrapg g [])) by (eapply wrapg_in; exact E). exact (proj2 (Hi _ X) val HV).
Qed.
(* Walls at rest and a state at rest: bounce back and Bouzidi bounce back, whatever the densities given at the walls. *)
Theorem C71_vessel l phis e : data_ok l -> walls_ok phis -> (forall x, cell_in g x -> initial_state K simp ds l (at_cell x) e) ->
  (forall d, In d ds -> sd_src K d = []) -> (forall k, (k < n)%nat -> e (symk r k) = e k) -> (forall t, at_rest r n (phis t)) ->
  (forall m b, has ms m b -> m = MBounceBack \/ m = MBouzidi) -> sim l phis (fun _ _ => e).
Proof using E HI HSi D O EB HPl Hsz HQ.
  intros Hl Hphis Hi Hsrc He Hr Hm. apply C71_rest; try assumption.
  - intros val c h _ _ Hs. exfalso. unfold BuildProofs.source in Hs. replace (concat (map (sd_src K) ds)) with (@nil (nat * term K)) in Hs; [discriminate|].
    clear - Hsrc. induction ds as [|d t IH]; [reflexivity|]. cbn. rewrite (Hsrc d) by now left. apply IH. intros d' Hd. apply Hsrc. now right.
  - intros t m b Hb Hk.
    assert (W : feq_of st (phis t) g b (symk r (b_k b)) = feq_of st (phis t) g b (b_k b)) by (apply Hr; exact Hk).
    destruct (Hm m b Hb) as [-> | ->]; unfold keeps; cbv zeta; rewrite W, (He _ Hk); [ring|]. split; [ring|]. right. now right.
Qed.

(* --------------------------------------------------------------- C72 ----- *)
Lemma within_add V W x y z : within g V x y -> within g W y z -> within g (V + W) x z.
Proof using E.
  intros (o & Ho & ->) (o' & Ho' & ->). exists (map (fun d => o@d + o'@d) (DomainModel.axes g)). split.
  - intros d Hd. rewrite nth_axes by exact Hd. specialize (Ho d Hd). specialize (Ho' d Hd). clear - Ho Ho'. lia.
  - apply (cell_ext g); try apply wrapg_len. intros d Hd. rewrite !wrapg_nth by exact Hd. rewrite !shift_nth by exact Hd. rewrite !cell_of_nth by exact Hd.
    rewrite wrapg_nth, shift_nth, cell_of_nth, nth_axes by exact Hd. set (h := (g_h g)@d). set (N := (g_n g)@d).
    assert (N0 : N <> 0) by (pose proof (proj1 (proj2 (e_wf _ _ _ _ _ _ _ _ _ _ E)) d Hd); unfold N; lia).
    replace ((x@d + h + o@d - h) mod N + h + o'@d - h) with ((x@d + h + o@d - h) mod N + o'@d) by lia. rewrite Zplus_mod_idemp_l. f_equal. lia.
Qed.
Lemma within_le V W x y : V <= W -> within g V x y -> within g W x y.
Proof using. intros H (o & Ho & ->). exists o. split; [|reflexivity]. intros d Hd. specialize (Ho d Hd). clear - Ho H. lia. Qed.
Lemma within_refl V x : 0 <= V -> cell_in g x -> within g V x x.
Proof using.
  intros H [L C]. exists []. split; [intros d _; destruct d; exact H|]. rewrite <- (wrapg_cell g x L C) at 1. apply wrapg_ext. intros d Hd. rewrite shift_nth by exact Hd.
  destruct d; cbn; clear; lia.
Qed.
(* The state of a cell after t steps depends on the initial values at distance t V at most, and
   on what the walls at distance (t - s) V at most did in the step s; V is the largest component
   of a velocity. *)
Theorem C72_domain_of_dependence phis phis' G G' V : hist phis G -> hist phis' G' -> 0 <= V -> speed st g K ds V ->
  forall t x, cell_in g x ->
  (forall y, within g (Z.of_nat t * V) x y -> agree K n (G 0%nat y) (G' 0%nat y)) ->
  (forall s, (s < t)%nat -> same_walls st g ms K ds (Z.of_nat (t - s) * V) x (phis s) (phis' s)) ->
  agree K n (G t x) (G' t x).
Proof using E HI HSi D O EB Hsz.
  intros H H' V0 HV t. induction t as [|t IH]; intros x Hx H0 HW.
  - apply H0. apply within_refl; [lia|exact Hx].
  - apply (step_local dimz schemes st r g es labs conds Dm ms E K qk inv simp dm hdt ds a HI HSi D O EB Hsz V (phis t) (phis' t) (G t) (G' t)); try assumption; [| |apply H|apply H'].
    + intros y Hy. apply IH.
      * eapply within_in; eassumption.
      * intros z Hz. apply H0. apply (within_le (V + Z.of_nat t * V)); [lia|]. exact (within_add V _ x y z Hy Hz).
      * intros s Hs m b k Hb Hw Hk. apply (HW s ltac:(lia) m b k Hb); [|exact Hk].
        apply (within_le (V + Z.of_nat (t - s) * V)); [replace (S t - s)%nat with (S (t - s)) by lia; lia|]. exact (within_add V _ x y _ Hy Hw).
    + intros m b k Hb Hw Hk. apply (HW t ltac:(lia) m b k Hb); [|exact Hk]. apply (within_le V); [replace (S t - t)%nat with 1%nat by lia; lia|exact Hw].
Qed.
Lemma initial_same l l' P f f' : (forall rk v v', given_value K ds l rk P v -> given_value K ds l' rk P v' -> v = v') ->
  initial_state K simp ds l P f -> initial_state K simp ds l' P f' -> agree K n f f'.
Proof using HI D O EB.
  intros H A B. apply (C68_determined K simp ds inv None dm hdt a HI D O EB l P); [exact A|]. split; [|exact (proj2 B)].
  intros rk c b i Hr Hm. pose proof (proj1 A rk c b i Hr Hm) as GA. rewrite <- (H rk _ _ GA (proj1 B rk c b i Hr Hm)). exact GA.
Qed.
(* Two simulations, on two process grids, two orders of the storage and any back end: the values
   at the same cell are equal after t steps if the data agree in that neighbourhood. *)
Theorem C72_simulation l l' phis phis' V t x : data_ok l -> data_ok l' -> walls_ok phis -> walls_ok phis' -> 0 <= V -> speed st g K ds V -> cell_in g x ->
  (forall y rk v v', within g (Z.of_nat t * V) x y -> given_value K ds l rk (at_cell y) v -> given_value K ds l' rk (at_cell y) v' -> v = v') ->
  (forall s, (s < t)%nat -> same_walls st g ms K ds (Z.of_nat (t - s) * V) x (phis s) (phis' s)) ->
  exists G G', sim l phis G /\ sim l' phis' G' /\ agree K n (G t x) (G' t x).
Proof using E HI HSi D O EB HPl Hsz HQ.
  intros Hl Hl' Hp Hp' V0 HV Hx HD HW. destruct (flow l phis Hl Hp) as (G & G0 & GH & GS). destruct (flow l' phis' Hl' Hp') as (G' & G0' & GH' & GS').
  exists G, G'. split; [exact GS|]. split; [exact GS'|]. apply (C72_domain_of_dependence phis phis' G G' V GH GH' V0 HV t x Hx); [|exact HW].
  intros y Hy. assert (Cy : cell_in g y) by (eapply within_in; eassumption). apply (initial_same l l' (at_cell y)); [|now apply G0|now apply G0']. intros rk v v'. now apply HD.
Qed.

(* --------------------------------------------------------------- C73 ----- *)
Lemma bvalue_comb p q phi phi' phi'' m F F' b : (b_k b < n)%nat ->
  (forall lab y k, (k < n)%nat -> phi'' lab y k = (p * phi lab y k + q * phi' lab y k)%K) ->
  bval phi'' m (gfield g K (fun y => comb K p q (F y) (F' y))) b = (p * bval phi m (gfield g K F) b + q * bval phi' m (gfield g K F') b)%K.
Proof using E Hsz.
  intros Hk H. assert (Hs : (symk r (b_k b) < n)%nat) by (eapply sym_lt; eassumption). unfold bvalue, at_, gfield, comb, feq_of. cbv zeta.
  set (s := qk (bz_s (b_dist b))). clearbody s. destruct m; cbn [rhs iload0 fst snd]; rewrite ?H by assumption; ring.
Qed.
Lemma history_comb p q phis phis' phis'' G G' : linear_dict K ds -> hist phis G -> hist phis' G' ->
  (forall t lab y k, (k < n)%nat -> phis'' t lab y k = (p * phis t lab y k + q * phis' t lab y k)%K) ->
  hist phis'' (fun t x => comb K p q (G t x) (G' t x)).
Proof using E HI HSi D O EB Hsz.
  intros L H H' HW t x. destruct (H t x) as (f & F1 & F2). destruct (H' t x) as (f' & F1' & F2'). exists (comb K p q f f'). split.
  - intros j Hj. specialize (F1 j Hj). specialize (F1' j Hj).
    destruct F1 as [(m & b & A1 & A2 & A3 & A4)|[A1 A2]]; destruct F1' as [(m' & b' & B1 & B2 & B3 & B4)|[B1 B2]].
    + pose proof (serial_setting _ _ _ _ _ _ _ _ _ _ E) as SS. destruct (links_one _ _ _ _ _ _ _ _ _ SS m b m' b' A1 B1) as [<- <-]; [unfold key; congruence|].
      left. exists m, b. repeat (split; [assumption|]). rewrite (bvalue_comb p q (phis t) (phis' t)); [|now rewrite A2|intros; now apply HW]. unfold comb. now rewrite A4, B4.
    + destruct (B1 m b A1). now split.
    + destruct (A1 m' b' B1). now split.
    + right. split; [exact A1|]. unfold comb. now rewrite A2, B2.
  - now apply (step_comb K simp hdt ds HSi D O inv None dm a HI EB).
Qed.
Lemma initial_comb p q l l' l'' P f f' : linear_dict K ds ->
  (forall rk v v', given_value K ds l rk P v -> given_value K ds l' rk P v' -> given_value K ds l'' rk P (p * v + q * v')%K) ->
  initial_state K simp ds l P f -> initial_state K simp ds l' P f' -> initial_state K simp ds l'' P (comb K p q f f').
Proof using HI HSi D O EB.
  intros L H [A1 A2] [B1 B2]. split.
  - intros rk c b i Hr Hm. rewrite mom_comb. apply H; [now apply (A1 rk c)|now apply (B1 rk c)].
  - intros val HV b i d Hb Hi. destruct (values_ex K simp hdt ds D O inv None dm a HI EB f) as [u Hu]. destruct (values_ex K simp hdt ds D O inv None dm a HI EB f') as [v Hv].
    rewrite mom_comb, (A2 u Hu b i d Hb Hi), (B2 v Hv b i d Hb Hi), <- (eqv_comb K ds L d i p q u v (nth_error_In _ _ Hb)).
    apply (closed_eqv K simp ds HSi D d i _ _ (nth_error_In _ _ Hb) Hi).
    apply (values_same K simp hdt ds D inv None dm a HI EB (comb K p q f f')); [|exact HV]. intros c b' i' Hm. rewrite mom_comb. unfold comb. now rewrite (Hu c b' i' Hm), (Hv c b' i' Hm).
Qed.
(* Linear equilibria and sources, numbers as parameters of relaxation: a combination of the data
   (init and walls) gives the combination of the simulations, at all times. *)
Theorem C73_superposition p q l l' l'' phis phis' phis'' : linear_dict K ds -> data_ok l -> data_ok l' -> data_ok l'' -> walls_ok phis -> walls_ok phis' -> walls_ok phis'' ->
  (forall x rk v v', cell_in g x -> given_value K ds l rk (at_cell x) v -> given_value K ds l' rk (at_cell x) v' -> given_value K ds l'' rk (at_cell x) (p * v + q * v')%K) ->
  (forall t lab y k, (k < n)%nat -> phis'' t lab y k = (p * phis t lab y k + q * phis' t lab y k)%K) ->
  exists G G', sim l phis G /\ sim l' phis' G' /\ sim l'' phis'' (fun t x k => (p * G t x k + q * G' t x k)%K).
Proof using E HI HSi D O EB HPl Hsz HQ.
  intros L Hl Hl' Hl'' Hp Hp' Hp'' HD HW. destruct (flow l phis Hl Hp) as (G & G0 & GH & GS). destruct (flow l' phis' Hl' Hp') as (G' & G0' & GH' & GS').
  exists G, G'. split; [exact GS|]. split; [exact GS'|]. apply sim_of; try assumption.
  - exact (history_comb p q phis phis' phis'' G G' L GH GH' HW).
  - intros x Hx. apply (initial_comb p q l l' l''); [exact L|intros rk v v'; now apply HD|now apply G0|now apply G0'].
Qed.

(* --------------------------------------------------------------- C74 ----- *)
(* the cell at x + o in the periodic domain *)
Definition moved (o x : list Z) : list Z := wrapg g (shift g (cell_of g x) o).
Lemma no_links : (forall lab, In lab (labels_of g labs) -> lab = -1 \/ lab = -2) -> ms = [].
Proof using E.
  intros H. pose proof (e_bound _ _ _ _ _ _ _ _ _ _ E) as B. unfold boundary in B. destruct (mapM (label_links st g Dm conds) (labels_of g labs)) as [L|] eqn:EM; [|discriminate].
  injection B as B. rewrite <- B. assert (X : concat L = []); [|now rewrite X]. clear B. revert L EM H. generalize (labels_of g labs). induction l as [|lab l IH]; intros L EM H; cbn in EM; [injection EM as <-; reflexivity|].
  unfold label_links in EM at 1. assert (Z : ((lab =? -1) || (lab =? -2))%bool = true) by (destruct (H lab (or_introl eq_refl)) as [-> | ->]; reflexivity). rewrite Z in EM.
  destruct (mapM (label_links st g Dm conds) l) as [L'|] eqn:E'; [|discriminate]. injection EM as <-. cbn. apply (IH L' eq_refl). intros x Hx. apply H. now right.
Qed.
Lemma history_moved phis G o : ms = [] -> hist phis G -> hist phis (fun t x => G t (moved o x)).
Proof using E.
  intros M H t x. destruct (H t (moved o x)) as (f & F1 & F2). exists f. split; [|exact F2]. intros j Hj. destruct (F1 j Hj) as [(m & b & [lk [Hl _]] & _)|[A1 A2]]; [rewrite M in Hl; destruct Hl|].
  right. split; [intros m b [lk [Hl _]]; rewrite M in Hl; destruct Hl|]. rewrite A2. f_equal. unfold moved. apply (cell_ext g); try apply wrapg_len. intros d Hd.
  assert (N0 : (g_n g)@d <> 0) by (pose proof (proj1 (proj2 (e_wf _ _ _ _ _ _ _ _ _ _ E)) d Hd); lia).
  rewrite !wrapg_nth by exact Hd. unfold before. rewrite !shift_nth, !cell_of_nth by exact Hd. rewrite !wrapg_nth by exact Hd. rewrite !shift_nth, !cell_of_nth by exact Hd.
  set (v := (map Z.opp (velk st j))@d). set (h := (g_h g)@d). set (N := (g_n g)@d) in *.
  replace ((x@d + h + o@d - h) mod N + h + v - h) with ((x@d + h + o@d - h) mod N + v) by lia.
  replace ((x@d + h + v - h) mod N + h + o@d - h) with ((x@d + h + v - h) mod N + o@d) by lia. rewrite !Zplus_mod_idemp_l. f_equal. lia.
Qed.
(* Periodic sides, no element: the data moved by o give the simulation moved by o. *)
Theorem C74_translation l l' phis o : (forall lab, In lab (labels_of g labs) -> lab = -1 \/ lab = -2) -> data_ok l -> data_ok l' -> walls_ok phis ->
  (forall x rk v, cell_in g x -> given_value K ds l rk (at_cell (moved o x)) v -> given_value K ds l' rk (at_cell x) v) ->
  exists G, sim l phis G /\ sim l' phis (fun t x => G t (moved o x)).
Proof using E HI HSi D O EB HPl Hsz HQ.
  intros HL Hl Hl' Hp HD. destruct (flow l phis Hl Hp) as (G & G0 & GH & GS). exists G. split; [exact GS|]. apply sim_of; try assumption.
  - apply history_moved; [now apply no_links|exact GH].
  - intros x Hx. assert (Hm : cell_in g (moved o x)) by (eapply wrapg_in; exact E). destruct (G0 _ Hm) as [A1 A2]. split; [|exact A2]. intros rk c b i Hr Hmo. apply HD; [exact Hx|now apply (A1 rk c)].
Qed.
(* --------------------------------------------------------------- C75 ----- *)
Definition closed_domain : Prop := vessel dimz schemes st r g es Dm conds (labels_of g labs) ms \/ duct dimz schemes st r g es Dm conds (labels_of g labs) ms.
Lemma arrival_sum phi G (w : nat -> K) : closed_domain -> at_rest r n phi -> (forall k, (k < n)%nat -> w (symk r k) = w k) ->
  sumL (fluid_cells g Dm) (fun x => sum n (fun k => (w k * boundary_condition K qk g (velk st) (symk r) (feq_of st phi g) Cython ms (gfield g K G) k (before st g k x))%K)) =
  sumL (fluid_cells g Dm) (fun x => sum n (fun k => (w k * G (wrapg g x) k)%K)).
Proof using E HI D EB Hsz.
  intros C Hphi Hw. pose proof (whole_na schemes K inv simp dm hdt ds a HI D EB Hsz) as N1. rewrite (whole_size K inv simp dm hdt ds a HI D EB) in N1.
  rewrite N1 in *. destruct C as [C|C].
  - rewrite (walls_sum _ _ _ _ _ _ _ _ _ _ C K qk (feq_of st phi g)) by (try exact Hw; intros b k Hk; apply Hphi; exact Hk). apply sumL_ext. intros y Hy. reflexivity.
  - rewrite (duct_sum _ _ _ _ _ _ _ _ _ _ C K qk (feq_of st phi g) ltac:(intros b k Hk; apply Hphi; exact Hk) Cython (gfield g K G) (fun y => G (wrapg g y))
      ltac:(intros k c _; unfold gfield; now rewrite wrapg_wrap by apply (u_grid _ _ _ _ _ _ _ _ _ _ C)) w Hw).
    apply sumL_ext. intros y Hy. reflexivity.
Qed.
Variables (c b i : nat).
Hypothesis Hm : is_moment K simp ds c b i.
Hypothesis He : even_moment r K ds b i.
(* the moment as a sum with even weights *)
Lemma even_weights : exists w : nat -> K, (forall f, mom K ds f b i = sum n (fun k => (w k * f k)%K)) /\ forall k, (k < n)%nat -> w (symk r k) = w k.
Proof using E HI D O EB Hsz Hm He.
  destruct (whole_row K inv simp dm hdt ds a HI D O EB c b i Hm) as (k & _ & Eq).
  assert (Ean : al_n (algo_of K a) = n) by exact (whole_size K inv simp dm hdt ds a HI D EB). rewrite Ean in Eq.
  exists (fun j => al_M (algo_of K a) k j). split; [exact Eq|]. intros l Hl.
  assert (Hl' : (symk r l < n)%nat) by (eapply sym_lt; eassumption).
  rewrite <- (mv_unit K _ (al_M (algo_of K a)) l k Hl), <- (mv_unit K n (al_M (algo_of K a)) (symk r l) k Hl'), <- !Eq.
  eapply even_unit; eassumption.
Qed.
Notation total F := (sumL (fluid_cells g Dm) (fun x => mom K ds (F (wrapg g x)) b i)).
(* One step: the total changes by what the sources give to the values which arrive. *)
Theorem C75_budget phis G : hist phis G -> closed_domain -> (forall t, at_rest r n (phis t)) ->
  exists v : nat -> cell -> vec K, forall t,
    (forall x, In x (fluid_cells g Dm) -> exists f, (forall j, (j < n)%nat -> arrive (phis t) (G t) (wrapg g x) j (f j)) /\ conserved_values K simp ds f (v t x)) /\
    (total (G (S t)) = total (G t) + sumL (fluid_cells g Dm) (fun x => half K hdt ds (half K hdt ds (v t x)) c - v t x c))%K.
Proof using E HI HSi D O EB Hsz HQ Hm He.
  intros H C Hr. destruct (values_all K simp hdt ds D O inv None dm a HI EB) as [V HV].
  set (f := fun t x k => boundary_condition K qk g (velk st) (symk r) (feq_of st (phis t) g) Cython ms (gfield g K (G t)) k (before st g k x)).
  assert (A : forall t x j, In x (fluid_cells g Dm) -> arrive (phis t) (G t) (wrapg g x) j (f t x j)).
  { intros t x j Hx. destruct (fluid_inside dimz schemes st r g es labs conds Dm ms E x Hx) as (Lx & _ & Hint). unfold f. rewrite <- (cell_wrapg g x Lx Hint) at 2.
    apply (arrives_bc dimz schemes st r g es labs conds Dm ms E HQ). }
  exists (fun t x => V (f t x)). intros t. split; [intros x Hx; exists (f t x); split; [intros j _; now apply A|apply HV]|].
  destruct even_weights as (w & W1 & W2).
  assert (S1 : total (G (S t)) = sumL (fluid_cells g Dm) (fun x => half K hdt ds (half K hdt ds (V (f t x))) c)).
  { apply sumL_ext. intros x Hx. destruct (H t (wrapg g x)) as (f' & F1 & F2).
    assert (F3 : agree K n f' (f t x)) by (intros j Hj; eapply arrives_unique; [exact E|now apply F1|now apply A]).
    destruct (F2 (V f') (HV f')) as [F4 _]. rewrite (F4 c b i Hm).
    assert (S0 : same_on K ds (V f') (V (f t x))).
    { apply (values_same K simp hdt ds D inv None dm a HI EB f'); [apply HV|]. intros c' b' i' Hm'. rewrite (HV (f t x) c' b' i' Hm'). symmetry. now apply mom_agree. }
    apply (half_same K simp hdt ds D _ _ (half_same K simp hdt ds D _ _ S0)). eapply moment_in; exact Hm. }
  assert (S2 : total (G t) = sumL (fluid_cells g Dm) (fun x => V (f t x) c)).
  { rewrite (sumL_ext K _ _ _ (fun x _ => W1 (G t (wrapg g x)))). rewrite <- (arrival_sum (phis t) (G t) w C (Hr t) W2). apply sumL_ext. intros x _.
    rewrite (HV (f t x) c b i Hm), W1. reflexivity. }
  rewrite S1, S2, <- sumL_add. apply sumL_ext. intros x _. ring.
Qed.
(* No source for this moment: it is conserved, whatever the sources of the others. *)
Theorem C75_no_source phis G : hist phis G -> closed_domain -> (forall t, at_rest r n (phis t)) -> BuildProofs.source K ds c = None -> forall t, total (G t) = total (G 0%nat).
Proof using E HI HSi D O EB Hsz HQ Hm He.
  intros H C Hr Hs. destruct (C75_budget phis G H C Hr) as [v HB]. induction t as [|t IH]; [reflexivity|]. rewrite (proj2 (HB t)), IH.
  assert (X : sumL (fluid_cells g Dm) (fun x => half K hdt ds (half K hdt ds (v t x)) c - v t x c)%K = 0%K); [|rewrite X; ring].
  rewrite <- (sumL_zero K (fluid_cells g Dm)). apply sumL_ext. intros x _. rewrite !half_none by exact Hs. ring.
Qed.
(* A number x as source: the total grows by 2 hdt x = dt x per cell and step. *)
Theorem C75_constant_source phis G s : hist phis G -> closed_domain -> (forall t, at_rest r n (phis t)) -> BuildProofs.source K ds c = Some (Num s) ->
  forall t, total (G t) = (total (G 0%nat) + sum t (fun _ => sumL (fluid_cells g Dm) (fun _ => hdt * s + hdt * s)))%K.
Proof using E HI HSi D O EB Hsz HQ Hm He.
  intros H C Hr Hs. destruct (C75_budget phis G H C Hr) as [v HB]. assert (Hc : In c (conserved K ds)) by (eapply moment_in; exact Hm).
  induction t as [|t IH]; [cbn; ring|]. rewrite (proj2 (HB t)), IH, sum_S.
  assert (X : sumL (fluid_cells g Dm) (fun x => half K hdt ds (half K hdt ds (v t x)) c - v t x c)%K = sumL (fluid_cells g Dm) (fun _ => hdt * s + hdt * s)%K); [|rewrite X; ring].
  apply sumL_ext. intros x _. rewrite !(half_num K simp hdt ds D c _ s Hc Hs). ring.
Qed.
(* On the arrays of the processes. *)
Lemma total_run l phis G : sim l phis G -> forall ps Ds mss css pos, parallel st g es labs conds ps Ds mss ->
  Forall (fun x => forall c, (c < ax_p x)%nat -> ax_lo x c < ax_hi x c) (proc_axes g ps) -> (pos <= dim g)%nat -> NoDup css -> (forall c, In c css <-> coords_ok (proc_axes g ps) c) ->
  let mass := fluid_total g ps Ds css (fun f => mom K ds f b i) in
  let begin be := start K a pos (scheme_consm K inv simp ds) be true g ps (Some l) in
  (forall L0 t, mass (fst (cy_run st r g K qk a pos ps mss phis L0 t (begin Cython))) = total (G t)) /\
  ((forall d t, In d ds -> In t (sd_s K d) -> vars K t = []) -> forall t, mass (fst (np_run st r g K qk a pos ps mss phis t (begin Numpy))) = total (G t)).
Proof using E HI D EB Hsz.
  intros S ps Ds mss css pos HP NE Hpos Hnd Hcs mass begin. destruct (S ps Ds mss pos HP NE Hpos) as [R1 R2].
  assert (Hq : forall f f', agree K (length (concat schemes)) f f' -> mom K ds f b i = mom K ds f' b i).
  { intros f f' Hf. apply mom_agree. intros k Hkn. apply Hf.
    rewrite <- (whole_na schemes K inv simp dm hdt ds a HI D EB Hsz), (whole_size K inv simp dm hdt ds a HI D EB). exact Hkn. }
  pose proof (fun F G H => fluid_total_ref dimz schemes st r g es labs conds Dm ms E ps Ds mss HP css Hnd Hcs K (fun f => mom K ds f b i) F G Hq H) as FT.
  rewrite <- (whole_na schemes K inv simp dm hdt ds a HI D EB Hsz), (whole_size K inv simp dm hdt ds a HI D EB) in FT. split.
  - intros L0 t. apply FT. apply R1.
  - intros Hn t. apply FT. now apply R2.
Qed.
(* The mass of the simulation with a number as source: what "init" gives and what the source gave. *)
Theorem C75_simulation l phis s rk ps Ds mss css pos : data_ok l -> walls_ok phis -> closed_domain -> (forall t, at_rest r n (phis t)) ->
  nth_error (conserved K ds) rk = Some c -> BuildProofs.source K ds c = Some (Num s) ->
  parallel st g es labs conds ps Ds mss -> Forall (fun x => forall c, (c < ax_p x)%nat -> ax_lo x c < ax_hi x c) (proc_axes g ps) -> (pos <= dim g)%nat ->
  NoDup css -> (forall c, In c css <-> coords_ok (proc_axes g ps) c) ->
  let mass := fluid_total g ps Ds css (fun f => mom K ds f b i) in
  let begin be := start K a pos (scheme_consm K inv simp ds) be true g ps (Some l) in
  exists rho : cell -> K, (forall x, In x (fluid_cells g Dm) -> given_value K ds l rk (point g x) (rho x)) /\
  let expected t := (sumL (fluid_cells g Dm) rho + sum t (fun _ => sumL (fluid_cells g Dm) (fun _ => hdt * s + hdt * s)))%K in
  (forall L0 t, mass (fst (cy_run st r g K qk a pos ps mss phis L0 t (begin Cython))) = expected t) /\
  ((forall d t, In d ds -> In t (sd_s K d) -> vars K t = []) -> forall t, mass (fst (np_run st r g K qk a pos ps mss phis t (begin Numpy))) = expected t).
Proof using E HI HSi D O EB HPl Hsz HQ Hm He.
  intros Hl Hp C Hr Hrk Hs HP NE Hpos Hnd Hcs mass begin. destruct (flow l phis Hl Hp) as (G & G0 & GH & GS).
  destruct (total_run l phis G GS ps Ds mss css pos HP NE Hpos Hnd Hcs) as [T1 T2]. pose proof (C75_constant_source phis G s GH C Hr Hs) as T.
  exists (fun x => mom K ds (G 0%nat (wrapg g x)) b i). split; [|split].
  - intros x Hx. destruct (fluid_inside dimz schemes st r g es labs conds Dm ms E x Hx) as (Lx & _ & Hint).
    rewrite <- (cell_wrapg g x Lx Hint) at 1. assert (X : cell_in g (wrapg g x)) by (eapply wrapg_in; exact E). exact (proj1 (G0 _ X) rk c b i Hrk Hm).
  - intros L0 t. rewrite <- T. apply T1.
  - intros Hn t. rewrite <- T. now apply T2.
Qed.
End Flow.
Print Assumptions C71_rest.
Print Assumptions C71_vessel.
Print Assumptions C72_domain_of_dependence.
Print Assumptions C72_simulation.
Print Assumptions C73_superposition.
Print Assumptions C74_translation.
Print Assumptions C75_budget.
Print Assumptions C75_no_source.
Print Assumptions C75_constant_source.
Print Assumptions C75_simulation.

(* ------------------------------------------------------------- examples -- *)
Lemma given_one (K : ring) ds k (f : list Q -> K) rk P v : given_value K ds [(k, f)] rk P v <-> (refers K ds k rk /\ v = f P) \/ (~ refers K ds k rk /\ v = 0%K).
Proof.
  split.
  - intros [(l1 & k' & w & l2 & E & R & _ & ->)|[N ->]].
    + left. destruct l1 as [|p [|q l1]]; cbn in E; [injection E as <- <- <-; auto|discriminate|discriminate].
    + right. split; [apply (N (k, f)); now left|reflexivity].
  - intros [[R ->]|[N ->]].
    + left. exists [], k, f, []. split; [reflexivity|]. split; [exact R|]. split; [intros p []|reflexivity].
    + right. split; [intros p [<-|[]]; exact N|reflexivity].
Qed.
(* the line of C65_example; q: the equilibrium of the second moment, src: the sources *)
Definition dflow (q : term Zring) (src : list (nat * term Zring)) : sdict Zring :=
  mkSdict Zring [[1]; [-1]] [Num (K := Zring) 1%Z; Un zhalf (Bin zadd X (Num (K := Zring) 1%Z))] None
    [Num (K := Zring) 0%Z; Num (K := Zring) 2%Z] [Var 5; q] None [5%nat] src.
Definition finv := zinv [mat2 [[0; 1]; [1; -1]]].
Definition fbuild q src := build Zring finv nosimp None 1 1 [dflow q src].
Definition q3 : term Zring := Bin zmul (Num (K := Zring) 3%Z) (Var 5).
Definition qh : term Zring := Un zhalf (Var 5).
Definition src3 : list (nat * term Zring) := [(5%nat, Num (K := Zring) 3%Z)].
Section Dict.
Variables (q : term Zring) (src : list (nat * term Zring)).
Hypothesis Hq : q = q3 \/ q = qh.
Hypothesis Hs : src = [] \/ src = src3.
Lemma dflow_moment c b i : is_moment Zring nosimp [dflow q src] c b i <-> (c = 5 /\ b = 0 /\ i = 0)%nat.
Proof using Hq.
  split.
  - intros (d & H1 & H2 & H3 & H4 & _). destruct b as [|[|b]]; try discriminate. injection H1 as <-.
    destruct i as [|[|i]]; cbn in H4, H3; [split; [congruence|auto]| |lia]. destruct Hq as [-> | ->]; discriminate.
  - intros (-> & -> & ->). exists (dflow q src). split; [reflexivity|]. split; [now left|]. split; [cbn; lia|]. split; [reflexivity|]. intros j Hj. lia.
Qed.
Lemma dflow_ok : dict_ok Zring nosimp [dflow q src].
Proof using Hq Hs.
  constructor; unfold BuildProofs.closed; cbn.
  - repeat constructor.
  - intros d N [<-|[]] E. discriminate.
  - repeat constructor. intros [].
  - intros d t [<-|[]] Ht c Hc. cbn in Ht. destruct Ht as [<-|[<-|[]]]; [cbn in Hc; intuition|]. destruct Hq as [-> | ->]; cbn in Hc; intuition.
  - intros d t [<-|[]] Ht c Hc. cbn in Ht. destruct Ht as [<-|[<-|[]]]; destruct Hc.
  - intros d c g [<-|[]] Hc. cbn in Hc. destruct Hs as [-> | ->]; [destruct Hc|]. destruct Hc as [E|[]]. injection E as <- <-. intros x [].
Qed.
Lemma dflow_ordered : ordered Zring nosimp [dflow q src].
Proof using Hq. intros k c b i Hk Hm. apply dflow_moment in Hm as (-> & -> & ->). destruct k as [|[|k]]; try discriminate. cbn. lia. Qed.
Lemma dflow_below d t : In d [dflow q src] -> In t (sd_P Zring d) -> below Zring 1 t.
Proof using. clear. intros [<-|[]] Ht. cbn in Ht. destruct Ht as [<-|[<-|[]]]; intros x Hx; cbn in Hx; intuition lia. Qed.
Lemma dflow_data f : (forall x y, Forall2 Qeq x y -> f x = f y) -> data_ok Zring [dflow q src] [(ISym 5, f)].
Proof using. clear. intros Hf. split; [intros p x y [<-|[]] H; now apply Hf|]. intros p [<-|[]]. exists 0%nat. split; [cbn; lia|reflexivity]. Qed.
Lemma dflow_even : even_moment [1; 0] Zring [dflow q src] 0 0.
Proof using. clear. apply (const_even _ Zring _ _ _ 1). intros d j Hd Hj. injection Hd as <-. reflexivity. Qed.
End Dict.
Lemma fsimp : simp_spec Zring nosimp.
Proof. intros v t. reflexivity. Qed.
Lemma ifun_regular x y : Forall2 Qeq x y -> ifun x = ifun y.
Proof. intros H. unfold ifun. apply Qround.Qfloor_comp. destruct H as [|u v x y Huv _]; [reflexivity|]. cbn [hd]. now rewrite Huv. Qed.
Lemma wphi_ok : walls_ok Zring wphi.
Proof. intros t lab x y k H. reflexivity. Qed.
Definition fquiet : quiet sst [1; 0] (sline 6) mms := vessel_quiet _ _ _ _ _ _ _ _ _ _ mserial mvessel.
Notation fsim q src a := (simulates sst [1; 0] (sline 6) wall34 [5] bb Zring (fun _ => 0) finv nosimp [dflow q src] a).

(* The density 14 everywhere, f = (7, 7); the walls give bounce back with any density. *)
Definition rphi (t : nat) (_ : Z) (_ : list Q) (_ : nat) : Z := Z.of_nat t.
Example C71_example : exists a, fbuild qh [] = Some a /\ fsim qh [] a [(ISym 5, fun _ => 14)] rphi (fun _ _ _ => 7).
Proof.
  destruct (built_ex (fbuild qh [])) as [a Ea]; [vm_compute; reflexivity|]. exists a. split; [exact Ea|].
  assert (H1 : qh = q3 \/ qh = qh) by now right. assert (H2 : (@nil (nat * term Zring)) = [] \/ [] = src3) by now left.
  apply (C71_vessel 1 [[1; 2]] sst [1; 0] (sline 6) wall34 [5] bb (sD 6 wall34) mms mserial Zring (fun _ => 0) finv nosimp 1 1 [dflow qh []] a (zinv_ok _) fsimp
    (dflow_ok _ _ H1 H2) (dflow_ordered _ _ H1) Ea (dflow_below _ _) eq_refl fquiet); try reflexivity.
  - apply dflow_data. reflexivity.
  - intros t lab x y k H. reflexivity.
  - intros x _. split.
    + intros rk c b i Hr Hm. apply (dflow_moment _ _ H1) in Hm as (-> & -> & ->). apply given_one. left. split; [exact Hr|reflexivity].
    + intros val HV b i d Hb Hi. destruct b as [|[|b]]; try discriminate. injection Hb as <-.
      assert (V5 : val 5%nat = 14) by (rewrite (HV 5%nat 0%nat 0%nat) by (now apply (dflow_moment _ _ H1)); reflexivity).
      destruct i as [|[|i]]; [| |cbn in Hi; lia].
      * change (14 = val 5%nat). now rewrite V5.
      * change (7 = zhalf (val 5%nat)). rewrite V5. reflexivity.
  - intros d [<-|[]]. reflexivity.
  - intros t lab x k Hk. reflexivity.
  - intros m b [L [HL HB]]. left. vm_compute in HL. destruct HL as [E|[]]. congruence.
Qed.

(* The density at the cell 4 does not change the cell 1 within two steps. *)
Definition ifun4 (x : list Q) : Z := if Qeq_bool (hd 0%Q x) 5 then 77 else ifun x.
Lemma fspeed q src : speed sst (sline 6) Zring [dflow q src] 1.
Proof. intros j d Hj Hd. cbn in Hd. destruct d as [|d]; [|lia]. cbn in Hj. destruct j as [|[|j]]; [vm_compute; discriminate|vm_compute; discriminate|lia]. Qed.
Example C72_example : exists a, fbuild q3 [] = Some a /\ exists G G', fsim q3 [] a [(ISym 5, ifun)] wphi G /\ fsim q3 [] a [(ISym 5, ifun4)] wphi G' /\
  agree Zring 2 (G 2%nat [1]) (G' 2%nat [1]).
Proof.
  destruct (built_ex (fbuild q3 [])) as [a Ea]; [vm_compute; reflexivity|]. exists a. split; [exact Ea|].
  assert (H1 : q3 = q3 \/ q3 = qh) by now left. assert (H2 : (@nil (nat * term Zring)) = [] \/ [] = src3) by now left.
  apply (C72_simulation 1 [[1; 2]] sst [1; 0] (sline 6) wall34 [5] bb (sD 6 wall34) mms mserial Zring (fun _ => 0) finv nosimp 1 1 [dflow q3 []] a (zinv_ok _) fsimp
    (dflow_ok _ _ H1 H2) (dflow_ordered _ _ H1) Ea (dflow_below _ _) eq_refl fquiet) with (V := 1); try exact wphi_ok; try lia.
  - apply dflow_data. exact ifun_regular.
  - apply dflow_data. intros x y H. unfold ifun4. rewrite (ifun_regular x y H). destruct H as [|u v x y Huv _]; [reflexivity|]. cbn [hd].
    destruct (Qeq_bool u 5) eqn:E1; destruct (Qeq_bool v 5) eqn:E2; try reflexivity; exfalso.
    + apply Qeq_bool_iff in E1. apply Qeq_bool_neq in E2. apply E2. now rewrite <- Huv.
    + apply Qeq_bool_iff in E2. apply Qeq_bool_neq in E1. apply E1. now rewrite Huv.
  - apply fspeed.
  - split; [reflexivity|]. intros d Hd. cbn in Hd. destruct d; [cbn|]; lia.
  - intros y rk v v' (o & Ho & ->) Hv Hv'. apply given_one in Hv. apply given_one in Hv'. destruct Hv as [[R ->]|[R ->]]; destruct Hv' as [[R' ->]|[R' ->]]; try contradiction; [|reflexivity].
    specialize (Ho 0%nat ltac:(cbn; lia)). change (Z.of_nat 2 * 1) with 2 in Ho.
    assert (W : wrapg (sline 6) (shift (sline 6) (cell_of (sline 6) [1]) o) = [(1 + nth 0 o 0) mod 6]).
    { apply (cell_ext (sline 6)); [apply wrapg_len|reflexivity|]. intros d Hd. rewrite wrapg_nth, shift_nth, cell_of_nth by exact Hd. cbn in Hd. destruct d; [|lia]. change ((1 + 1 + nth 0 o 0 - 1) mod 6 = (1 + nth 0 o 0) mod 6). f_equal. lia. }
    rewrite W. assert (C : nth 0 o 0 = -2 \/ nth 0 o 0 = -1 \/ nth 0 o 0 = 0 \/ nth 0 o 0 = 1 \/ nth 0 o 0 = 2) by lia.
    destruct C as [-> |[-> |[-> |[-> | ->]]]]; vm_compute; reflexivity.
  - intros s _ m b k _ _ _. reflexivity.
Qed.

(* f = 2 floor(10 x) + 5 * 3. *)
Definition icomb (x : list Q) : Z := 2 * ifun x + 5 * 3.
Lemma icomb_regular x y : Forall2 Qeq x y -> icomb x = icomb y.
Proof. intros H. unfold icomb. now rewrite (ifun_regular x y H). Qed.
Lemma dflow_linear : linear_dict Zring [dflow q3 []].
Proof.
  split.
  - intros d t [<-|[]] Ht p q u v. cbn in Ht. destruct Ht as [<-|[<-|[]]]; [reflexivity|]. change (3 * (p * u 5%nat + q * v 5%nat) = p * (3 * u 5%nat) + q * (3 * v 5%nat)). lia.
  - intros d fe t [<-|[]] H. discriminate.
  - intros d c t [<-|[]] [].
  - intros d t [<-|[]] Ht. cbn in Ht. destruct Ht as [<-|[<-|[]]]; reflexivity.
Qed.
Example C73_example : exists a, fbuild q3 [] = Some a /\ exists G G', fsim q3 [] a [(ISym 5, ifun)] wphi G /\ fsim q3 [] a [(ISym 5, fun _ => 3)] wphi G' /\
  fsim q3 [] a [(ISym 5, icomb)] wphi (fun t x k => 2 * G t x k + 5 * G' t x k).
Proof.
  destruct (built_ex (fbuild q3 [])) as [a Ea]; [vm_compute; reflexivity|]. exists a. split; [exact Ea|].
  assert (H1 : q3 = q3 \/ q3 = qh) by now left. assert (H2 : (@nil (nat * term Zring)) = [] \/ [] = src3) by now left.
  apply (C73_superposition 1 [[1; 2]] sst [1; 0] (sline 6) wall34 [5] bb (sD 6 wall34) mms mserial Zring (fun _ => 0) finv nosimp 1 1 [dflow q3 []] a (zinv_ok _) fsimp
    (dflow_ok _ _ H1 H2) (dflow_ordered _ _ H1) Ea (dflow_below _ _) eq_refl fquiet 2 5 _ _ _ wphi wphi wphi dflow_linear); try exact wphi_ok.
  - apply dflow_data. exact ifun_regular.
  - apply dflow_data. reflexivity.
  - apply dflow_data. exact icomb_regular.
  - intros x rk v v' _ Hv Hv'. apply given_one in Hv. apply given_one in Hv'. apply given_one. destruct Hv as [[R ->]|[R ->]]; destruct Hv' as [[R' ->]|[R' ->]]; try contradiction.
    + left. split; [exact R|reflexivity].
    + right. split; [exact R|reflexivity].
  - intros t lab y k _. reflexivity.
Qed.

(* Six cells, both ends periodic; the data moved by two cells. *)
Definition ring6 : grid := mkGrid [6] [1] [-1; -1] [[1]; [-1]] [0%Q] 1%Q.
Definition rD : dom := match domain_init ring6 [] with Some D => D | None => mkDom (fun _ => false) (fun _ _ => link0) end.
Lemma rserial : serial 1 [[1; 2]] sst [1; 0] ring6 [] [] bb rD [].
Proof.
  split.
  - intros s x [<-|[]] Hx. cbn in Hx. lia.
  - reflexivity.
  - reflexivity.
  - reflexivity.
  - split; [reflexivity|]. cbn. lia.
  - split; [reflexivity|]. split.
    + intros d Hd. assert (d = 0%nat) as -> by (cbn in Hd; lia). cbn. lia.
    + intros v d Hv Hd. assert (d = 0%nat) as -> by (cbn in Hd; lia). cbn in Hv. destruct Hv as [<-|[<-|[]]]; cbn; lia.
  - intros lb s m1 m2 [E1|[]] [E2|[]]; congruence.
  - reflexivity.
  - split; cbn; unfold valin; intuition discriminate.
  - intros e [].
  - intros es1 e es2 E. destruct es1; discriminate.
  - intros [].
  - reflexivity.
  - reflexivity.
Qed.
Lemma rquiet : quiet sst [1; 0] ring6 [].
Proof. intros m b p [L [[] _]]. Qed.
Definition imoved (x : list Q) : Z := ifun [inject_Z ((Qround.Qfloor (hd 0%Q x) - 1 + 2) mod 6 + 1)].
Lemma imoved_regular x y : Forall2 Qeq x y -> imoved x = imoved y.
Proof.
  intros H. unfold imoved. replace (Qround.Qfloor (hd 0%Q x)) with (Qround.Qfloor (hd 0%Q y)); [reflexivity|]. apply Qround.Qfloor_comp. destruct H as [|u v x y Huv _]; [reflexivity|]. cbn [hd]. now rewrite Huv.
Qed.
Example C74_example : exists a, fbuild q3 src3 = Some a /\ exists G, simulates sst [1; 0] ring6 [] [] bb Zring (fun _ => 0) finv nosimp [dflow q3 src3] a [(ISym 5, ifun)] wphi G /\
  simulates sst [1; 0] ring6 [] [] bb Zring (fun _ => 0) finv nosimp [dflow q3 src3] a [(ISym 5, imoved)] wphi (fun t x => G t (moved ring6 [2] x)) /\ moved ring6 [2] [5] = [1].
Proof.
  destruct (built_ex (fbuild q3 src3)) as [a Ea]; [vm_compute; reflexivity|]. exists a. split; [exact Ea|].
  assert (H1 : q3 = q3 \/ q3 = qh) by now left. assert (H2 : src3 = [] \/ src3 = src3) by now right.
  destruct (C74_translation 1 [[1; 2]] sst [1; 0] ring6 [] [] bb rD [] rserial Zring (fun _ => 0) finv nosimp 1 1 [dflow q3 src3] a (zinv_ok _) fsimp
    (dflow_ok _ _ H1 H2) (dflow_ordered _ _ H1) Ea (dflow_below _ _) eq_refl rquiet [(ISym 5, ifun)] [(ISym 5, imoved)] wphi [2]) as (G & G1 & G2); try exact wphi_ok.
  - intros lab Hl. vm_compute in Hl. destruct Hl as [<-|[]]. now left.
  - apply dflow_data. exact ifun_regular.
  - apply dflow_data. exact imoved_regular.
  - intros x rk v [Lx Cx] Hv. specialize (Cx 0%nat ltac:(cbn; lia)). change ((g_n ring6)@0) with 6 in Cx. destruct x as [|x0 [|? ?]]; try discriminate. cbn [nth] in Cx.
    apply given_one in Hv. apply given_one. destruct Hv as [[R ->]|[R ->]]; [left; split; [exact R|]|right; split; [exact R|reflexivity]].
    assert (C : x0 = 0 \/ x0 = 1 \/ x0 = 2 \/ x0 = 3 \/ x0 = 4 \/ x0 = 5) by lia. destruct C as [-> |[-> |[-> |[-> |[-> | ->]]]]]; vm_compute; reflexivity.
  - exists G. split; [exact G1|]. split; [exact G2|]. reflexivity.
Qed.

(* The source 3 (dt = 2): each of the four fluid cells receives 6 at each step. *)
Example C75_example : exists a, fbuild q3 src3 = Some a /\ exists rho, (forall x, In x (fluid_cells (sline 6) (sD 6 wall34)) -> given_value Zring [dflow q3 src3] [(ISym 5, ifun)] 0 (point (sline 6) x) (rho x)) /\
  forall L0 t, fluid_total (sline 6) [2%nat] mDs wcs (fun f => mom Zring [dflow q3 src3] f 0 0) (fst (cy_run sst [1; 0] (sline 6) Zring (fun _ => 0) a 0 [2%nat] mlinks wphi L0 t
    (start Zring a 0 (scheme_consm Zring finv nosimp [dflow q3 src3]) Cython true (sline 6) [2%nat] (Some [(ISym 5, ifun)])))) = sumL (fluid_cells (sline 6) (sD 6 wall34)) rho + Z.of_nat t * 24.
Proof.
  destruct (built_ex (fbuild q3 src3)) as [a Ea]; [vm_compute; reflexivity|]. exists a. split; [exact Ea|].
  assert (H1 : q3 = q3 \/ q3 = qh) by now left. assert (H2 : src3 = [] \/ src3 = src3) by now right.
  destruct (C75_simulation 1 [[1; 2]] sst [1; 0] (sline 6) wall34 [5] bb (sD 6 wall34) mms mserial Zring (fun _ => 0) finv nosimp 1 1 [dflow q3 src3] a (zinv_ok _) fsimp
    (dflow_ok _ _ H1 H2) (dflow_ordered _ _ H1) Ea (dflow_below _ _) eq_refl fquiet 5%nat 0%nat 0%nat (proj2 (dflow_moment _ _ H1 _ _ _) ltac:(auto)) (dflow_even _ _)
    [(ISym 5, ifun)] wphi 3 0%nat [2%nat] mDs mlinks wcs 0%nat) as (rho & R1 & R2 & _); try reflexivity; try exact wphi_ok.
  - apply dflow_data. exact ifun_regular.
  - left. exact mvessel.
  - intros t lab x k Hk. reflexivity.
  - exact wparallel.
  - repeat constructor. intros [|[|c]] Hc; [vm_compute; reflexivity|vm_compute; reflexivity|cbn in Hc; lia].
  - cbn. lia.
  - repeat constructor; cbn; intuition discriminate.
  - intros c. symmetry. apply wcoords.
  - exists rho. split; [exact R1|].
    assert (F : sumL (K := Zring) (fluid_cells (sline 6) (sD 6 wall34)) (fun _ => 1 * 3 + 1 * 3) = 24) by (vm_compute; reflexivity).
    assert (T : forall t, sum (K := Zring) t (fun _ => sumL (K := Zring) (fluid_cells (sline 6) (sD 6 wall34)) (fun _ => 1 * 3 + 1 * 3)) = Z.of_nat t * 24).
    { induction t as [|t IH]; [reflexivity|]. rewrite sum_S, IH, F. change (Z.of_nat t * 24 + 24 = Z.of_nat (S t) * 24). lia. }
    intros L0 t. rewrite R2. exact (f_equal (Z.add (sumL (K := Zring) (fluid_cells (sline 6) (sD 6 wall34)) rho)) (T t)).
Qed.
Definition frun (q : term Zring) src (f : list Q -> Z) (phis : nat -> Z -> list Q -> nat -> Z) (be : backend) (t : nat) : option (list (list Z) * Z) :=
  match fbuild q src with
  | None => None
  | Some a => let s := start Zring a 0 (scheme_consm Zring finv nosimp [dflow q src]) be true (sline 6) [2%nat] (Some [(ISym 5, f)]) in
     Some (look_run (fst match be with
      | Cython => cy_run sst [1; 0] (sline 6) Zring (fun _ => 0) a 0 [2%nat] mlinks phis (fun _ => 0) t s
      | _ => np_run sst [1; 0] (sline 6) Zring (fun _ => 0) a 0 [2%nat] mlinks phis t s end))
  end.
Example C71_values : frun qh [] (fun _ => 14) rphi Cython 1 = Some ([[7; 7]; [7; 7]; [7; 7]; [7; 7]], 56) /\ frun qh [] (fun _ => 14) rphi Numpy 2 = frun qh [] (fun _ => 14) rphi Cython 1.
Proof. split; vm_compute; reflexivity. Qed.
Example C75_values : frun q3 src3 ifun wphi Cython 0 = frun q3 [] ifun wphi Cython 0 /\
  match frun q3 src3 ifun wphi Cython 1, frun q3 src3 ifun wphi Numpy 2 with Some (_, m1), Some (_, m2) => m1 = 164 /\ m2 = 188 | _, _ => False end.
Proof. split; vm_compute; auto. Qed.
