(* C103: several schemes, of which some do not read the moments of the others. *)
From Coq Require Import QArith Lqa.
From Verif Require Import PyBase VelocityModel VelocityProofs Velocity3Proofs StencilModel StencilProofs GridModel GridProofs StorageModel
  ExchangeProofs StorageProps LinAlg AlgoModel AlgoProofs RelVelProofs KernelProofs GlobalModel GlobalProofs TorusProofs AlgoProps GlobalProps
  GenModel GenProofs GenProps StepGenModel StepGenProofs StepGenProps SchemeModel SchemeProofs SchemeProps BuildModel BuildProofs BuildProps BuildFrame
  DomainModel DomainProofs DomainProps BoundaryModel BoundaryProofs BoundaryProps BoundaryUpdProps VesselProofs VesselProps ChannelProps
  ParallelModel ParallelProofs ObstacleProofs ParallelProps ObstacleProps ParallelMassProps WholeModel WholeProps InitGenModel InitGenProps DuctProps FlowProofs FlowProps.
Require Import Lia.
Open Scope Z_scope.

(* ---- one cell ---- *)
Section Cell.
Variable K : ring.
Variable simp : term K -> term K.
Variables (hdt : K) (ds : list (sdict K)).
Notation n := (SchemeModel.total (sizes K ds)).
(* B: the numbers of some of the schemes *)
Variable B : nat -> bool.
(* c is a conserved moment of one of them *)
Definition own (c : nat) : Prop := exists b d, nth_error ds b = Some d /\ B b = true /\ In c (sd_cons K d).
(* the distribution k belongs to one of them *)
Definition part (k : nat) : Prop := exists b d j, nth_error ds b = Some d /\ B b = true /\ (j < nv K d)%nat /\ k = (off K ds b + j)%nat.
(* Their equilibria and relaxation parameters, and the sources of their moments, only read their
   own conserved moments. *)
Definition autonomous : Prop :=
  (forall b d t c, nth_error ds b = Some d -> B b = true -> In t (sd_s K d) \/ In t (sd_eq K d) \/ (exists l, sd_feq K d = Some l /\ In t l) -> In c (vars K t) -> own c) /\
  (forall d c t c', In d ds -> In (c, t) (sd_src K d) -> own c -> In c' (vars K t) -> own c').
Definition agree_on (f f' : vec K) : Prop := forall k, part k -> f k = f' k.
Hypothesis A : autonomous.
Hypothesis D : dict_ok K simp ds.

Lemma nth_or (l : list (term K)) i : In (nth i l (Num 0%K)) l \/ nth i l (Num 0%K) = Num 0%K.
Proof using. destruct (nth_in_or_default i l (Num 0%K)); auto. Qed.
Lemma own_dec c : {own c} + {~ own c}.
Proof using.
  destruct (existsb (fun b => match nth_error ds b with Some d => B b && existsb (Nat.eqb c) (sd_cons K d) | None => false end) (seq 0 (length ds))) eqn:X.
  - left. apply existsb_exists in X. destruct X as (b & _ & X). destruct (nth_error ds b) as [d|] eqn:Eb; [|discriminate]. apply andb_true_iff in X. destruct X as [X1 X2].
    apply existsb_exists in X2. destruct X2 as (c' & X2 & X3). apply Nat.eqb_eq in X3. subst c'. exists b, d. auto.
  - right. intros (b & d & H1 & H2 & H3). assert (Y : existsb (fun b => match nth_error ds b with Some d => B b && existsb (Nat.eqb c) (sd_cons K d) | None => false end) (seq 0 (length ds)) = true); [|congruence].
    apply existsb_exists. exists b. split; [apply in_seq; assert (X' : nth_error ds b <> None) by congruence; apply nth_error_Some in X'; lia|]. rewrite H1, H2. apply existsb_exists. exists c. split; [exact H3|apply Nat.eqb_refl].
Qed.
Lemma part_dec k : {part k} + {~ part k}.
Proof using.
  set (t := fun b => match nth_error ds b with Some d => B b && Nat.leb (off K ds b) k && Nat.ltb k (off K ds b + nv K d) | None => false end).
  destruct (existsb t (seq 0 (length ds))) eqn:X.
  - left. apply existsb_exists in X. destruct X as (b & _ & X). unfold t in X. destruct (nth_error ds b) as [d|] eqn:Eb; [|discriminate]. apply andb_true_iff in X. destruct X as [X X3].
    apply andb_true_iff in X. destruct X as [X1 X2]. apply Nat.leb_le in X2. apply Nat.ltb_lt in X3. exists b, d, (k - off K ds b)%nat. repeat split; try assumption; lia.
  - right. intros (b & d & j & H1 & H2 & H3 & ->). assert (Y : existsb t (seq 0 (length ds)) = true); [|congruence].
    apply existsb_exists. exists b. split; [apply in_seq; assert (X' : nth_error ds b <> None) by congruence; apply nth_error_Some in X'; lia|]. unfold t. rewrite H1, H2. cbn [andb]. apply andb_true_iff. split; [apply Nat.leb_le; lia|apply Nat.ltb_lt; lia].
Qed.
Lemma part_block b d j : nth_error ds b = Some d -> (j < nv K d)%nat -> part (off K ds b + j) -> B b = true.
Proof using. intros H1 H2 (b' & d' & j' & H3 & H4 & H5 & H6). destruct (BuildProofs.off_inj K ds b b' d d' j j' H1 H3 H2 H5 H6) as [-> _]. exact H4. Qed.
(* a moment of one of the schemes reads the distributions of that scheme *)
Lemma mom_part f f' b i : (forall d j, nth_error ds b = Some d -> (j < nv K d)%nat -> f (off K ds b + j)%nat = f' (off K ds b + j)%nat) -> mom K ds f b i = mom K ds f' b i.
Proof using. intros H. unfold mom. destruct (nth_error ds b) as [d|] eqn:Eb; [|reflexivity]. apply sum_ext. intros j Hj. now rewrite (H d j). Qed.
Lemma mom_on f f' b i : B b = true -> agree_on f f' -> mom K ds f b i = mom K ds f' b i.
Proof using. intros Hb H. apply mom_part. intros d j Hd Hj. apply H. exists b, d, j. auto. Qed.
Lemma own_block c b i : is_moment K simp ds c b i -> own c -> B b = true.
Proof using D.
  intros (d & H1 & H2 & _) (b' & d' & H3 & H4 & H5). destruct (Nat.eq_dec b b') as [->|Ne]; [exact H4|exfalso].
  pose proof (do_distinct K simp ds D) as ND. unfold conserved in ND. clear - H1 H2 H3 H5 Ne ND. revert b b' H1 H3 Ne.
  induction ds as [|d0 l IH]; intros [|b] [|b'] H1 H3 Ne; try discriminate; try congruence; cbn in H1, H3, ND; apply NoDup_app_inv in ND as (N1 & N2 & N3).
  - injection H1 as ->. apply (N3 c H2). apply in_concat. exists (sd_cons K d'). split; [apply in_map; now apply nth_error_In in H3|exact H5].
  - injection H3 as ->. apply (N3 c H5). apply in_concat. exists (sd_cons K d). split; [apply in_map; now apply nth_error_In in H1|exact H2].
  - apply (IH N2 b b' H1 H3). congruence.
Qed.
Notation same u v := (forall c, own c -> u c = v c).
Lemma eval_same (u v : vec K) t : same u v -> (forall c, In c (vars K t) -> own c) -> teval K u t = teval K v t.
Proof using. intros H Ht. apply teval_ext. intros c Hc. apply H. now apply Ht. Qed.
Lemma eval_nth (u v : vec K) l i : same u v -> (forall t c, In t l -> In c (vars K t) -> own c) -> teval K u (nth i l (Num 0%K)) = teval K v (nth i l (Num 0%K)).
Proof using. intros H Hl. destruct (nth_or l i) as [Hi | ->]; [|reflexivity]. apply eval_same; [exact H|]. intros c. now apply Hl. Qed.
Lemma eqv_same (u v : vec K) b d i : same u v -> nth_error ds b = Some d -> B b = true -> eqv K d i u = eqv K d i v.
Proof using A.
  intros H Hb HB. destruct A as [A1 _]. unfold eqv. destruct (sd_eq K d) as [|t0 l0] eqn:El.
  - destruct (sd_feq K d) as [l|] eqn:Ef; [|destruct i; reflexivity]. apply sum_ext. intros j Hj. f_equal. apply eval_nth; [exact H|]. intros t c Ht. apply (A1 b d t c Hb HB). right. right. now exists l.
  - rewrite <- El. assert (X : teval K u (nth i (sd_eq K d) (Num 0%K)) = teval K v (nth i (sd_eq K d) (Num 0%K))).
    { apply eval_nth; [exact H|]. intros t c Ht. apply (A1 b d t c Hb HB). auto. }
    rewrite El in *. exact X.
Qed.
Lemma source_own c t : own c -> BuildProofs.source K ds c = Some t -> forall c', In c' (vars K t) -> own c'.
Proof using A.
  intros Hc. unfold BuildProofs.source. destruct (find _ _) as [p|] eqn:Ef; [|discriminate]. intros [= <-]. apply find_some in Ef as [Hp Hq]. apply Nat.eqb_eq in Hq.
  apply in_rev in Hp. apply in_concat in Hp as (l & Hl & Hp). apply in_map_iff in Hl as (d & <- & Hd). intros c'. apply (proj2 A d c (snd p) c' Hd); [|exact Hc]. destruct p; cbn in *; now subst.
Qed.
Lemma half_on (u v : vec K) : same u v -> same (half K hdt ds u) (half K hdt ds v).
Proof using A.
  unfold half. generalize (BuildProofs.conserved K ds) as cs. intros cs. revert u v. induction cs as [|c cs IH]; intros u v H; [exact H|]. cbn [fold_left]. apply IH. intros c' Hc'.
  destruct (BuildProofs.source K ds c) as [t|] eqn:Es; [|now apply H]. destruct (Nat.eqb c' c) eqn:Ec; [|now apply H]. apply Nat.eqb_eq in Ec. subst c'.
  rewrite (H c Hc'). f_equal. f_equal. apply eval_same; [exact H|]. exact (source_own c t Hc' Es).
Qed.
(* the distributions h of these schemes and those f of the others *)
Definition mixed (h f : vec K) : vec K := fun k => if part_dec k then h k else f k.
Lemma mixed_on h f b i : B b = true -> mom K ds (mixed h f) b i = mom K ds h b i.
Proof using. intros Hb. apply mom_part. intros d j Hd Hj. unfold mixed. destruct (part_dec _) as [_|Hn]; [reflexivity|]. destruct Hn. exists b, d, j. auto. Qed.
Lemma mixed_off h f b i : B b = false -> mom K ds (mixed h f) b i = mom K ds f b i.
Proof using. intros Hb. apply mom_part. intros d j Hd Hj. unfold mixed. destruct (part_dec _) as [Hp|_]; [|reflexivity]. pose proof (part_block b d j Hd Hj Hp). congruence. Qed.

Variable inv : nat -> mat K -> option (mat K).
Variables (dm : nat) (a : salgo K).
Hypothesis HI : inv_spec K inv.
Hypothesis HSi : simp_spec K simp.
Hypothesis O : ordered K simp ds.
Hypothesis EB : build K inv simp None dm hdt ds = Some a.
Lemma values_on f h u v : agree_on f h -> conserved_values K simp ds f u -> conserved_values K simp ds h v -> same u v.
Proof using HI D EB.
  intros H Hu Hv c Hc. assert (Hin : In c (BuildProofs.conserved K ds)).
  { destruct Hc as (b & d & H1 & _ & H3). apply in_concat. exists (sd_cons K d). split; [apply in_map; now apply nth_error_In in H1|exact H3]. }
  destruct (found K simp hdt ds D inv None dm a HI EB c Hin) as (b & i & Hm). rewrite (Hu c b i Hm), (Hv c b i Hm). apply mom_on; [|exact H]. exact (own_block c b i Hm Hc).
Qed.
Lemma moment_own c b i : is_moment K simp ds c b i -> B b = true -> own c.
Proof using. intros (d & H1 & H2 & _) Hb. exists b, d. auto. Qed.
(* one step of a cell *)
Theorem C103_cell f h f' h' : agree_on f h -> collided K simp hdt ds f f' -> collided K simp hdt ds h h' -> agree_on f' h'.
Proof using A D HI HSi O EB.
  intros H Hf Hh. destruct (values_ex K simp hdt ds D O inv None dm a HI EB f) as [u Hu]. destruct (values_ex K simp hdt ds D O inv None dm a HI EB h) as [v Hv].
  pose proof (values_on f h u v H Hu Hv) as S0. pose proof (half_on u v S0) as S1. pose proof (half_on _ _ S1) as S2. destruct (Hf u Hu) as [F1 F2]. destruct (Hh v Hv) as [H1 H2].
  assert (X : collided K simp hdt ds f (mixed h' f')).
  { apply (collided_one K simp hdt ds HSi D inv None dm a HI EB f (mixed h' f') u Hu).
    - intros c b i Hm. destruct (B b) eqn:Eb; [rewrite mixed_on, (H1 c b i Hm) by exact Eb; symmetry; apply S2; now apply (moment_own c b i)|rewrite mixed_off by exact Eb; now apply F1].
    - intros b i d Hb Hi Hn s. destruct (B b) eqn:Eb; [|rewrite mixed_off by exact Eb; now apply (F2 b i d)]. rewrite mixed_on by exact Eb. rewrite (H2 b i d Hb Hi Hn).
      rewrite (mom_on f h b i Eb H), (eqv_same _ _ b d i S1 Hb Eb). unfold s. rewrite (eval_nth _ _ (sd_s K d) i S1); [reflexivity|]. intros t c Ht. apply (proj1 A b d t c Hb Eb). now left. }
  pose proof (C64_determined K inv simp None dm hdt ds a HI D O EB f f' _ Hf X) as Y. intros k Hk. assert (Hn : (k < n)%nat) by (destruct Hk as (b & d & j & K1 & _ & K3 & ->); exact (off_total K ds b d j K1 K3)).
  rewrite (Y k Hn). unfold mixed. destruct (part_dec k) as [_|N]; [reflexivity|]. now destruct N.
Qed.
(* the initial states *)
Theorem C103_initial l l' x f h :
  (forall rk c w w', nth_error (BuildProofs.conserved K ds) rk = Some c -> own c -> given_value K ds l rk x w -> given_value K ds l' rk x w' -> w = w') ->
  initial_state K simp ds l x f -> initial_state K simp ds l' x h -> agree_on f h.
Proof using A D HI HSi O EB.
  intros HL Hf Hh. destruct (values_ex K simp hdt ds D O inv None dm a HI EB h) as [v Hv].
  assert (M : forall c b i, is_moment K simp ds c b i -> mom K ds (mixed h f) b i = mom K ds f b i).
  { intros c b i Hm. destruct (B b) eqn:Eb; [|now apply mixed_off]. rewrite mixed_on by exact Eb.
    assert (Hin : In c (BuildProofs.conserved K ds)) by (destruct Hm as (d & K1 & K2 & _); apply in_concat; exists (sd_cons K d); split; [apply in_map; now apply nth_error_In in K1|exact K2]).
    destruct (In_nth_error _ _ Hin) as [rk Hr]. symmetry. apply (HL rk c); [exact Hr|now apply (moment_own c b i)|exact (proj1 Hf rk c b i Hr Hm)|exact (proj1 Hh rk c b i Hr Hm)]. }
  assert (X : initial_state K simp ds l x (mixed h f)).
  { split.
    - intros rk c b i Hr Hm. rewrite (M c b i Hm). now apply (proj1 Hf rk c).
    - intros val HV b i d Hb Hi. destruct (B b) eqn:Eb.
      + rewrite mixed_on by exact Eb. rewrite (proj2 Hh v Hv b i d Hb Hi). apply (eqv_same v val b d i); [|exact Hb|exact Eb].
        apply (values_on h (mixed h f)); [|exact Hv|exact HV]. intros k Hk. unfold mixed. destruct (part_dec k) as [_|N]; [reflexivity|]. now destruct N.
      + rewrite mixed_off by exact Eb. apply (proj2 Hf val); [|exact Hb|exact Hi]. intros c b' i' Hm. rewrite (HV c b' i' Hm). now apply (M c). }
  pose proof (C68_determined K simp ds inv None dm hdt a HI D O EB l x f _ Hf X) as Y. intros k Hk. assert (Hn : (k < n)%nat) by (destruct Hk as (b & d & j & K1 & _ & K3 & ->); exact (off_total K ds b d j K1 K3)).
  rewrite (Y k Hn). unfold mixed. destruct (part_dec k) as [_|N]; [reflexivity|]. now destruct N.
Qed.
End Cell.

(* ---- simulations ---- *)
Section Passive.
Variables (dimz : Z) (schemes : list (list Z)) (st : stencil) (r : list Z) (g : grid) (es : list DomainModel.elem) (labs : list Z) (conds : Z -> list (nat * method)).
Variables (Dm : dom) (ms : list (method * list blink)).
Hypothesis E : serial dimz schemes st r g es labs conds Dm ms.
Variables (K : ring) (qk : Q -> K).
Variable inv : nat -> mat K -> option (mat K).
Variable simp : term K -> term K.
Variables (dm : nat) (hdt : K) (ds : list (sdict K)) (a : salgo K).
Hypothesis HI : inv_spec K inv.
Hypothesis HSi : simp_spec K simp.
Hypothesis D : dict_ok K simp ds.
Hypothesis O : ordered K simp ds.
Hypothesis EB : build K inv simp None dm hdt ds = Some a.
Hypothesis HPl : forall d t, In d ds -> In t (sd_P K d) -> below K dm t.
Hypothesis Hsz : map (nv K) ds = map (@length Z) schemes.
Hypothesis HQ : quiet st r g ms.
Variable B : nat -> bool.
Hypothesis A : autonomous K ds B.
Notation n := (SchemeModel.total (sizes K ds)).
Notation arrive := (arrives st r g ms K qk).
Notation hist := (history st r g ms K qk simp hdt ds).
Notation sim := (simulates st r g es labs conds K qk inv simp ds a).
Notation at_cell x := (point g (cell_of g x)).
Notation equal_on := (agree_on K ds B).
Notation mine := (part K ds B).

Lemma sym_part k : mine k -> mine (symk r k).
Proof using E Hsz. intros (b & d & j & H1 & H2 & H3 & ->). destruct (opposite_in dimz schemes st r g es labs conds Dm ms E K ds Hsz b d j H1 H3) as (j' & H4 & ->). exists b, d, j'. auto. Qed.
Lemma loads_part m b p : mine (b_k b) -> In p (loads g (velk st) (symk r) m b) -> mine (fst p).
Proof using E Hsz.
  intros Hk Hp. pose proof (sym_part _ Hk) as Hs. assert (X : fst p = b_k b \/ fst p = symk r (b_k b)); [|destruct X as [-> | ->]; assumption].
  unfold loads in Hp. destruct m; cbn in Hp; repeat match goal with H : _ \/ _ |- _ => destruct H | H : False |- _ => destruct H | H : _ = p |- _ => subst p end; cbn; auto;
    unfold iload1; destruct (near b); cbn; auto.
Qed.
(* the equilibria of these schemes at the walls *)
Definition walls_on (phi phi' : Z -> list Q -> nat -> K) : Prop := forall m b k, has ms m b -> mine k -> feq_of st phi g b k = feq_of st phi' g b k.
Lemma arrives_part phi phi' G G' x j v v' : mine j -> (forall y, cell_in g y -> equal_on (G y) (G' y)) -> walls_on phi phi' -> arrive phi G x j v -> arrive phi' G' x j v' -> v = v'.
Proof using E Hsz.
  intros Hj HG HW [(m & b & H1 & H2 & H3 & ->)|[H1 ->]] [(m' & b' & H1' & H2' & H3' & ->)|[H1' ->]].
  - pose proof (serial_setting _ _ _ _ _ _ _ _ _ _ E) as SS. destruct (links_one _ _ _ _ _ _ _ _ _ SS m b m' b' H1 H1') as [<- <-]; [unfold key; congruence|].
    subst j. rewrite (bvalue_feq st r g K qk (feq_of st phi g) (feq_of st phi' g)) by (apply (HW m b); [exact H1|first [exact Hj|now apply sym_part]]).
    apply bvalue_loads. intros p Hp. unfold at_, gfield. apply HG; [eapply wrapg_in; exact E|now apply (loads_part m b)].
  - destruct (H1' m b H1). now split.
  - destruct (H1 m' b' H1'). now split.
  - apply HG; [eapply wrapg_in; exact E|exact Hj].
Qed.
(* Two histories whose initial states and walls agree for these schemes agree for them at every
   time, whatever the other schemes hold. *)
Theorem C103_history phis phis' G G' : hist phis G -> hist phis' G' -> (forall t, walls_on (phis t) (phis' t)) ->
  (forall x, cell_in g x -> equal_on (G 0%nat x) (G' 0%nat x)) -> forall t x, cell_in g x -> equal_on (G t x) (G' t x).
Proof using E HI HSi D O EB Hsz A.
  intros H H' HW H0 t. induction t as [|t IH]; [exact H0|]. intros x Hx. destruct (H t x) as (f & F1 & F2). destruct (H' t x) as (f' & F1' & F2').
  apply (C103_cell K simp hdt ds B A D inv dm a HI HSi O EB f f'); [|exact F2|exact F2']. intros j Hj.
  assert (Hn : (j < n)%nat) by (destruct Hj as (b & d & i & K1 & _ & K3 & ->); exact (off_total K ds b d i K1 K3)).
  exact (arrives_part (phis t) (phis' t) (G t) (G' t) x j _ _ Hj IH (HW t) (F1 j Hn) (F1' j Hn)).
Qed.
(* Two simulations, on any two process grids and any back end: the same distributions of these
   schemes if the values of "init" of their conserved moments and their equilibria at the walls
   are the same. *)
Theorem C103_simulation l l' phis phis' : data_ok K ds l -> data_ok K ds l' -> walls_ok K phis -> walls_ok K phis' ->
  (forall x rk c w w', cell_in g x -> nth_error (BuildProofs.conserved K ds) rk = Some c -> own K ds B c ->
     given_value K ds l rk (at_cell x) w -> given_value K ds l' rk (at_cell x) w' -> w = w') ->
  (forall t, walls_on (phis t) (phis' t)) ->
  exists G G', sim l phis G /\ sim l' phis' G' /\ forall t x, cell_in g x -> equal_on (G t x) (G' t x).
Proof using E HI HSi D O EB HPl Hsz HQ A.
  intros Hl Hl' Hp Hp' HL HW.
  destruct (flow dimz schemes st r g es labs conds Dm ms E K qk inv simp dm hdt ds a HI HSi D O EB HPl Hsz HQ l phis Hl Hp) as (G & G0 & GH & GS).
  destruct (flow dimz schemes st r g es labs conds Dm ms E K qk inv simp dm hdt ds a HI HSi D O EB HPl Hsz HQ l' phis' Hl' Hp') as (G' & G0' & GH' & GS').
  exists G, G'. split; [exact GS|]. split; [exact GS'|]. apply (C103_history phis phis' G G' GH GH' HW). intros x Hx.
  apply (C103_initial K simp hdt ds B A D inv dm a HI HSi O EB l l' (at_cell x)); [|now apply G0|now apply G0']. intros rk c w w'. now apply HL.
Qed.
End Passive.
Print Assumptions C103_cell.
Print Assumptions C103_initial.
Print Assumptions C103_history.
Print Assumptions C103_simulation.

(* ---- example ---- Six cells between two walls, two schemes with two velocities.  The flux of the
   second one is the product of the two densities, the first one does not read the second one. *)
Definition bb2 (lab : Z) : list (nat * method) := [(0%nat, MBounceBack); (1%nat, MBounceBack)].
Definition pst2 : stencil := match build_stencil 1 [[1; 2]; [1; 2]] with Some st => st | None => st0 end.
Definition pms2 : list (method * list blink) := match boundary pst2 (sline 6) (sD 6 []) bb2 (labels_of (sline 6) []) with Some ms => ms | None => [] end.
Lemma pserial2 : serial 1 [[1; 2]; [1; 2]] pst2 [1; 0; 3; 2] (sline 6) [] [] bb2 (sD 6 []) pms2.
Proof.
  split.
  - intros s x [<-|[<-|[]]] Hx; cbn in Hx; lia.
  - reflexivity.
  - reflexivity.
  - reflexivity.
  - split; [reflexivity|]. cbn. lia.
  - apply sline_wf. lia.
  - intros lb s m1 m2 E1 E2. cbn in E1, E2. intuition congruence.
  - reflexivity.
  - split; cbn; unfold valin; intuition discriminate.
  - intros e [].
  - intros es1 e es2 E. destruct es1; discriminate.
  - intros [].
  - reflexivity.
  - vm_compute. reflexivity.
Qed.
Definition dpas (c : nat) (q : term Zring) : sdict Zring :=
  mkSdict Zring [[1]; [-1]] [Num (K := Zring) 1%Z; Un zhalf (Bin zadd X (Num (K := Zring) 1%Z))] None
    [Num (K := Zring) 0%Z; Num (K := Zring) 2%Z] [Var c; q] None [c] [].
Definition pds : list (sdict Zring) := [dpas 5 q3; dpas 6 (Bin zmul (Var 5) (Var 6))].
Definition pinv := zinv [mat2 [[0; 1; 0; 0]; [1; -1; 0; 0]; [0; 0; 0; 1]; [0; 0; 1; -1]]].
Definition pbuild := build Zring pinv nosimp None 1 1 pds.
Lemma pds_moment c b i : is_moment Zring nosimp pds c b i <-> ((c = 5 /\ b = 0 /\ i = 0) \/ (c = 6 /\ b = 1 /\ i = 0))%nat.
Proof.
  split.
  - intros (d & H1 & H2 & H3 & H4 & _). destruct b as [|[|[|b]]]; try discriminate; injection H1 as <-;
      (destruct i as [|[|i]]; cbn in H4, H3; [|discriminate|lia]); [left|right]; (split; [congruence|auto]).
  - intros [(-> & -> & ->)|(-> & -> & ->)]; eexists; (split; [reflexivity|]); (split; [now left|]); (split; [cbn; lia|]); (split; [reflexivity|]); intros j Hj; lia.
Qed.
Lemma pds_ok : dict_ok Zring nosimp pds.
Proof.
  constructor; unfold BuildProofs.closed; cbn.
  - repeat constructor.
  - intros d N [<-|[<-|[]]] E; discriminate.
  - repeat constructor; cbn; intuition discriminate.
  - intros d t [<-|[<-|[]]] Ht c Hc; cbn in Ht; (destruct Ht as [<-|[<-|[]]]); cbn in Hc; intuition.
  - intros d t [<-|[<-|[]]] Ht c Hc; cbn in Ht; (destruct Ht as [<-|[<-|[]]]); destruct Hc.
  - intros d c g [<-|[<-|[]]] Hc; destruct Hc.
Qed.
Lemma pds_ordered : ordered Zring nosimp pds.
Proof. intros k c b i Hk Hm. apply pds_moment in Hm as [(-> & -> & ->)|(-> & -> & ->)]; destruct k as [|[|[|k]]]; try discriminate; cbn; lia. Qed.
Lemma pds_below d t : In d pds -> In t (sd_P Zring d) -> below Zring 1 t.
Proof. intros [<-|[<-|[]]] Ht; cbn in Ht; (destruct Ht as [<-|[<-|[]]]); intros x Hx; cbn in Hx; intuition lia. Qed.
Definition first (b : nat) : bool := Nat.eqb b 0.
Definition second (b : nat) : bool := Nat.eqb b 1.
Lemma first_autonomous : autonomous Zring pds first.
Proof.
  split.
  - intros [|b] d t c Hb HB Ht Hc; [|discriminate]. injection Hb as <-. exists 0%nat, (dpas 5 q3). split; [reflexivity|]. split; [reflexivity|].
    destruct Ht as [Ht|[Ht|(l & Hl & _)]]; [| |discriminate]; cbn in Ht; (destruct Ht as [<-|[<-|[]]]); cbn in Hc; cbn; intuition.
  - intros d c t c' [<-|[<-|[]]] Hc; destruct Hc.
Qed.
Lemma pquiet : quiet pst2 [1; 0; 3; 2] (sline 6) pms2.
Proof. eapply all_bounce_quiet; [exact pserial2|]. intros lab s m _ _ _ _ _ Hm. cbn in Hm. intuition congruence. Qed.
Lemma pds_data f h : (forall x y, Forall2 Qeq x y -> f x = f y) -> (forall x y, Forall2 Qeq x y -> h x = h y) -> data_ok Zring pds [(ISym 5, f); (ISym 6, h)].
Proof.
  intros Hf Hh. split; [intros p x y [<-|[<-|[]]] H; [now apply Hf|now apply Hh]|].
  intros p [<-|[<-|[]]]; [exists 0%nat|exists 1%nat]; (split; [cbn; lia|reflexivity]).
Qed.
Lemma pds_given f h P w : given_value Zring pds [(ISym 5, f); (ISym 6, h)] 0 P w -> w = f P.
Proof.
  intros [(l1 & k & v & l2 & E & R & _ & ->)|[N _]].
  - destruct l1 as [|p l1]; cbn in E; [injection E as <- <- <-; reflexivity|]. injection E as _ E. destruct l1 as [|p1 l1]; cbn in E; [injection E as <- <- <-; discriminate|].
    injection E as _ E. destruct l1; discriminate.
  - destruct (N _ (or_introl eq_refl)). reflexivity.
Qed.
(* Whatever the second scheme starts with, the first one has the same distributions. *)
Example C103_example f h h' : (forall x y, Forall2 Qeq x y -> f x = f y) -> (forall x y, Forall2 Qeq x y -> h x = h y) -> (forall x y, Forall2 Qeq x y -> h' x = h' y) ->
  exists a, pbuild = Some a /\ exists G G',
  simulates pst2 [1; 0; 3; 2] (sline 6) [] [] bb2 Zring (fun _ => 0) pinv nosimp pds a [(ISym 5, f); (ISym 6, h)] wphi G /\
  simulates pst2 [1; 0; 3; 2] (sline 6) [] [] bb2 Zring (fun _ => 0) pinv nosimp pds a [(ISym 5, f); (ISym 6, h')] wphi G' /\
  forall t x, 0 <= x < 6 -> G t [x] 0%nat = G' t [x] 0%nat /\ G t [x] 1%nat = G' t [x] 1%nat.
Proof.
  intros Hf Hh Hh'. destruct (built_ex pbuild) as [a Ea]; [vm_compute; reflexivity|]. exists a. split; [exact Ea|].
  destruct (C103_simulation 1 [[1; 2]; [1; 2]] pst2 [1; 0; 3; 2] (sline 6) [] [] bb2 (sD 6 []) pms2 pserial2 Zring (fun _ => 0) pinv nosimp 1 1 pds a (zinv_ok _) fsimp
    pds_ok pds_ordered Ea pds_below eq_refl pquiet first first_autonomous [(ISym 5, f); (ISym 6, h)] [(ISym 5, f); (ISym 6, h')] wphi wphi) as (G & G' & G1 & G2 & G3); try exact wphi_ok.
  - now apply pds_data.
  - now apply pds_data.
  - intros x rk c w w' _ Hr (b & d & H1 & H2 & H3) W W'. destruct b as [|b]; [|discriminate]. injection H1 as <-. destruct H3 as [<-|[]].
    destruct rk as [|[|rk]]; [|discriminate|destruct rk; discriminate]. apply pds_given in W. apply pds_given in W'. congruence.
  - intros t m b k _ _. reflexivity.
  - exists G, G'. split; [exact G1|]. split; [exact G2|]. intros t x Hx.
    assert (Cx : cell_in (sline 6) [x]) by (split; [reflexivity|]; intros [|d] Hd; cbn in Hd |- *; lia).
    split; apply (G3 t [x] Cx); exists 0%nat, (dpas 5 q3); [exists 0%nat|exists 1%nat]; repeat split; cbn; lia.
Qed.
(* The other way round it is false: the second scheme reads the density of the first one. *)
Definition vec4 (l : list Z) : vec Zring := fun k => nth k l 0.
Lemma pds_step (f f' : list Z) : (forall b i, (b < 2)%nat -> (i < 2)%nat ->
    mom Zring pds (vec4 f') b i = (if Nat.eqb i 0 then mom Zring pds (vec4 f) b 0 else
      - mom Zring pds (vec4 f) b 1 + 2 * (mom Zring pds (vec4 f) 0 0 * (if Nat.eqb b 0 then 3 else mom Zring pds (vec4 f) 1 0)))) ->
  collided Zring nosimp 1 pds (vec4 f) (vec4 f').
Proof.
  intros H val HV. assert (V5 : val 5%nat = mom Zring pds (vec4 f) 0 0) by (apply HV; apply pds_moment; auto). assert (V6 : val 6%nat = mom Zring pds (vec4 f) 1 0) by (apply HV; apply pds_moment; auto).
  change (half Zring 1 pds val) with val. cbv zeta. change (half Zring 1 pds val) with val. split.
  - intros c b i Hm. apply pds_moment in Hm as [(-> & -> & ->)|(-> & -> & ->)]; rewrite ?V5, ?V6, H by lia; reflexivity.
  - intros b i d Hb Hi Hn. destruct b as [|[|b]]; [| |destruct b; discriminate]; injection Hb as <-; cbn in Hi; (destruct i as [|[|i]]; [| |lia]);
      try (exfalso; apply (Hn 5%nat); apply pds_moment; auto; fail); try (exfalso; apply (Hn 6%nat); apply pds_moment; auto; fail); rewrite H by lia; cbn [Nat.eqb].
    + change ((- (mom Zring pds (vec4 f) 0 1) + 2 * (mom Zring pds (vec4 f) 0 0 * 3) = (1 - 2) * mom Zring pds (vec4 f) 0 1 + 2 * (3 * val 5%nat))%Z). rewrite V5. ring.
    + change ((- (mom Zring pds (vec4 f) 1 1) + 2 * (mom Zring pds (vec4 f) 0 0 * mom Zring pds (vec4 f) 1 0) = (1 - 2) * mom Zring pds (vec4 f) 1 1 + 2 * (val 5%nat * val 6%nat))%Z). rewrite V5, V6. ring.
Qed.
Theorem C103_converse_refuted : exists f h f' h', agree_on Zring pds second f h /\ collided Zring nosimp 1 pds f f' /\ collided Zring nosimp 1 pds h h' /\ ~ agree_on Zring pds second f' h'.
Proof.
  exists (vec4 [0; 0; 1; 0]), (vec4 [1; 0; 1; 0]), (vec4 [0; 0; -1; 2]), (vec4 [5; -4; 1; 0]). split; [|split; [|split]].
  - intros k (b & d & j & H1 & H2 & H3 & ->). destruct b as [|[|b]]; try discriminate. injection H1 as <-. cbn in H3. destruct j as [|[|j]]; [reflexivity|reflexivity|lia].
  - apply pds_step. intros b i Hb Hi. destruct b as [|[|b]]; [| |lia]; (destruct i as [|[|i]]; [reflexivity|reflexivity|lia]).
  - apply pds_step. intros b i Hb Hi. destruct b as [|[|b]]; [| |lia]; (destruct i as [|[|i]]; [reflexivity|reflexivity|lia]).
  - intros X. specialize (X 2%nat). cbn in X. assert (-1 = 1); [|lia]. apply X. exists 1%nat, (dpas 6 (Bin zmul (Var 5) (Var 6))), 0%nat. repeat split; cbn; lia.
Qed.
Print Assumptions C103_example.
Print Assumptions C103_converse_refuted.
