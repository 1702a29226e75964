(* Whole simulations (C65, C68) seen as histories: lemmas for C71 - C75. *)
From Coq Require Import QArith.
From Verif Require Import PyBase VelocityModel VelocityProofs Velocity3Proofs StencilModel StencilProofs GridModel GridProofs StorageModel
  ExchangeProofs StorageProps LinAlg AlgoModel AlgoProofs RelVelProofs KernelProofs GlobalModel GlobalProofs TorusProofs AlgoProps GlobalProps
  GenModel GenProofs GenProps StepGenModel StepGenProofs StepGenProps SchemeModel SchemeProofs SchemeProps BuildModel BuildProofs BuildProps BuildFrame
  DomainModel DomainProofs DomainProps BoundaryModel BoundaryProofs BoundaryProps BoundaryUpdProps VesselProofs VesselProps ChannelProps
  ParallelModel ParallelProofs ObstacleProofs ParallelProps ObstacleProps ParallelMassProps WholeModel WholeProps InitGenModel InitGenProps.
Require Import Lia.
Open Scope Z_scope.

(* ------------------------------------------------- the collision of a dictionary *)
Section Collision.
Variable K : ring.
Add Ring Kring : (rth K).
Variable simp : term K -> term K.
Variables (hdt : K) (ds : list (sdict K)).
Hypothesis HSi : simp_spec K simp.
Hypothesis D : dict_ok K simp ds.
Hypothesis O : ordered K simp ds.
Variable inv : nat -> mat K -> option (mat K).
Variables (rel : option (list (term K))) (dm : nat) (a : salgo K).
Hypothesis HI : inv_spec K inv.
Hypothesis EB : build K inv simp rel dm hdt ds = Some a.
Notation n := (SchemeModel.total (sizes K ds)).
Notation cs := (conserved K ds).
Notation step f f' := (collided K simp hdt ds f f').
Definition same_on (u v : vec K) : Prop := forall c, In c cs -> u c = v c.
(* val gives the conserved moments of f *)
Definition conserved_values (f val : vec K) : Prop := forall c b i, is_moment K simp ds c b i -> val c = mom K ds f b i.

Lemma same_closed u v t : same_on u v -> BuildProofs.closed K ds t -> teval K u t = teval K v t.
Proof. intros H Ht. apply teval_ext. intros c Hc. apply H. now apply Ht. Qed.
Lemma half_same u v : same_on u v -> same_on (half K hdt ds u) (half K hdt ds v).
Proof using D.
  unfold half. assert (X : forall l u v, same_on u v -> incl l cs -> same_on
    (fold_left (fun val c => match BuildProofs.source K ds c with Some g => fun c' => if Nat.eqb c' c then (val c + hdt * teval K val g)%K else val c' | None => val end) l u)
    (fold_left (fun val c => match BuildProofs.source K ds c with Some g => fun c' => if Nat.eqb c' c then (val c + hdt * teval K val g)%K else val c' | None => val end) l v)).
  { induction l as [|c l IH]; intros u0 v0 H Hl; [exact H|]. cbn [fold_left]. apply IH; [|intros x Hx; apply Hl; now right].
    destruct (BuildProofs.source K ds c) as [g|] eqn:Es; [|exact H]. intros c' Hc'. destruct (Nat.eqb c' c); [|now apply H].
    rewrite (H c) by (apply Hl; now left). rewrite (same_closed u0 v0 g H); [reflexivity|]. exact (source_closed K simp ds D c g Es). }
  intros H. apply X; [exact H|intros x Hx; exact Hx].
Qed.
Lemma closed_eqv d i u v : In d ds -> (i < nv K d)%nat -> same_on u v -> eqv K d i u = eqv K d i v.
Proof using D HSi.
  intros Hd Hi H. rewrite <- !(eqs_eval K simp d i _ HSi Hi). apply same_closed; [exact H|].
  apply (nth_in_or (BuildProofs.closed K ds)); [intros x []|]. intros t Ht. exact (do_eq K simp ds D d t Hd Ht).
Qed.
Lemma closed_rate d i u v : In d ds -> same_on u v -> teval K u (nth i (sd_s K d) (Num 0%K)) = teval K v (nth i (sd_s K d) (Num 0%K)).
Proof using D.
  intros Hd H. apply same_closed; [exact H|]. apply (nth_in_or (BuildProofs.closed K ds)); [intros x []|]. intros t Ht. exact (do_s K simp ds D d t Hd Ht).
Qed.
(* each conserved symbol is a moment, and the values exist *)
Lemma found c : In c cs -> exists b i, is_moment K simp ds c b i.
Proof using HI D EB. intros Hc. destruct (build_built K simp inv hdt rel dm ds a HI D EB) as (M & N & sg & B). exact (bu_found _ _ _ _ _ _ _ _ _ _ _ B c Hc). Qed.
Lemma moment_in c b i : is_moment K simp ds c b i -> In c cs.
Proof. intros (d & H1 & H2 & _). apply in_concat. exists (sd_cons K d). split; [apply in_map; now apply nth_error_In in H1|exact H2]. Qed.
Lemma values_all : exists V : vec K -> vec K, forall f, conserved_values f (V f).
Proof using HI D O EB.
  destruct (build_built K simp inv hdt rel dm ds a HI D EB) as (M & N & sg & B). pose proof (do_distinct K simp ds D) as ND.
  exists (fun f c => match odict_get (ranks cs) c with Some r => mvmul n M f (sg r) | None => 0%K end).
  intros f c b i Hm. pose proof Hm as (d & H1 & H2 & H3 & _). destruct (In_nth_error _ _ (moment_in c b i Hm)) as [r Hr]. unfold ranks. rewrite (ranks_get cs r c ND Hr).
  rewrite (bu_front _ _ _ _ _ _ _ _ _ _ _ B O r c b i Hr Hm). exact (bu_moments _ _ _ _ _ _ _ _ _ _ _ B f b d i H1 H3).
Qed.
Lemma values_ex f : exists val, conserved_values f val.
Proof using HI D O EB. destruct values_all as [V HV]. now exists (V f). Qed.
Lemma values_same f u v : conserved_values f u -> conserved_values f v -> same_on u v.
Proof using HI D EB. intros Hu Hv c Hc. destruct (found c Hc) as (b & i & Hm). now rewrite (Hu c b i Hm), (Hv c b i Hm). Qed.
(* the description for one choice of the values *)
Lemma collided_one f f' val : conserved_values f val -> let val1 := half K hdt ds val in
  (forall c b i, is_moment K simp ds c b i -> mom K ds f' b i = half K hdt ds val1 c) ->
  (forall b i d, nth_error ds b = Some d -> (i < nv K d)%nat -> (forall c, ~ is_moment K simp ds c b i) ->
     let s := teval K val1 (nth i (sd_s K d) (Num 0%K)) in
     mom K ds f' b i = ((1 - s) * mom K ds f b i + s * eqv K d i val1)%K) -> step f f'.
Proof using HI D EB HSi.
  intros HV val1 H1 H2 v Hv v1. pose proof (values_same f v val Hv HV) as S0. pose proof (half_same v val S0) as S1. fold v1 val1 in S1. pose proof (half_same v1 val1 S1) as S2. split.
  - intros c b i Hm. rewrite (H1 c b i Hm). symmetry. apply S2. now apply (moment_in c b i).
  - intros b i d Hb Hi Hn. pose proof (nth_error_In _ _ Hb) as Hd. rewrite (closed_rate d i v1 val1 Hd S1), (closed_eqv d i v1 val1 Hd Hi S1). now apply H2.
Qed.
(* equal arguments, equal results *)
Lemma step_fun f g f' g' : agree K n f g -> step f f' -> step g g' -> agree K n f' g'.
Proof using HI D O EB HSi.
  intros H H1 H2. apply (C64_determined K inv simp rel dm hdt ds a HI D O EB g); [|exact H2]. apply (collided_agree K simp hdt ds f g f' f'); [exact H|intros k _; reflexivity|exact H1].
Qed.

(* ---- a state at equilibrium where the sources vanish ---- *)
Definition balanced (e : vec K) : Prop := forall val, conserved_values e val ->
  (forall b i d, nth_error ds b = Some d -> (i < nv K d)%nat -> mom K ds e b i = eqv K d i val) /\
  (forall c g, In c cs -> BuildProofs.source K ds c = Some g -> teval K val g = 0%K).
Lemma half_balanced val : (forall c g, In c cs -> BuildProofs.source K ds c = Some g -> teval K val g = 0%K) -> same_on (half K hdt ds val) val.
Proof using D.
  intros H. unfold half. assert (X : forall l u, same_on u val -> incl l cs -> same_on
    (fold_left (fun val c => match BuildProofs.source K ds c with Some g => fun c' => if Nat.eqb c' c then (val c + hdt * teval K val g)%K else val c' | None => val end) l u) val).
  { induction l as [|c l IH]; intros u Hu Hl; [exact Hu|]. cbn [fold_left]. apply IH; [|intros x Hx; apply Hl; now right].
    assert (Hc : In c cs) by (apply Hl; now left). destruct (BuildProofs.source K ds c) as [g|] eqn:Es; [|exact Hu]. intros c' Hc'.
    rewrite (same_closed u val g Hu (source_closed K simp ds D c g Es)), (H c g Hc Es). destruct (Nat.eqb_spec c' c) as [->|_]; [|now apply Hu].
    rewrite (Hu c Hc). ring. }
  apply X; [intros c _; reflexivity|intros x Hx; exact Hx].
Qed.
Lemma balanced_step e : balanced e -> step e e.
Proof using HI D O EB HSi.
  intros He. destruct (values_ex e) as [val HV]. destruct (He val HV) as [H1 H2]. pose proof (half_balanced val H2) as S1.
  assert (S2 : same_on (half K hdt ds (half K hdt ds val)) val) by (intros c Hc; rewrite (half_same _ _ S1 c Hc); now apply S1).
  apply (collided_one e e val HV).
  - intros c b i Hm. rewrite (S2 c (moment_in c b i Hm)). symmetry. now apply HV.
  - intros b i d Hb Hi Hn s. rewrite (closed_eqv d i _ _ (nth_error_In _ _ Hb) Hi S1), <- (H1 b i d Hb Hi). ring.
Qed.

(* ---- the sources of one conserved moment ---- *)
Lemma half_none c u : BuildProofs.source K ds c = None -> half K hdt ds u c = u c.
Proof using.
  intros H. unfold half. generalize cs. intros l. revert u. induction l as [|c0 l IH]; intros u; [reflexivity|]. cbn [fold_left]. rewrite IH.
  destruct (BuildProofs.source K ds c0) as [g|] eqn:Es; [|reflexivity]. destruct (Nat.eqb_spec c c0) as [->|_]; [congruence|reflexivity].
Qed.
Lemma half_num c u x : In c cs -> BuildProofs.source K ds c = Some (Num x) -> half K hdt ds u c = (u c + hdt * x)%K.
Proof using D.
  intros Hc H. pose proof (do_distinct K simp ds D) as ND. unfold half. revert u Hc ND. generalize cs. induction l as [|c0 l IH]; intros u Hc ND; [destruct Hc|].
  assert (X : forall l u, ~ In c l -> fold_left (fun val c => match BuildProofs.source K ds c with Some g => fun c' => if Nat.eqb c' c then (val c + hdt * teval K val g)%K else val c' | None => val end) l u c = u c).
  { clear. induction l as [|c0 l IH]; intros u Hn; [reflexivity|]. cbn [fold_left]. rewrite IH by (intros C; apply Hn; now right).
    destruct (BuildProofs.source K ds c0) as [g|]; [|reflexivity]. destruct (Nat.eqb_spec c c0) as [->|_]; [destruct Hn; now left|reflexivity]. }
  inversion ND as [|? ? N1 N2]; subst. cbn [fold_left]. destruct Hc as [->|Hc].
  - rewrite X by exact N1. rewrite H, Nat.eqb_refl. reflexivity.
  - rewrite IH by assumption. destruct (BuildProofs.source K ds c0) as [g|] eqn:Es; [|reflexivity]. destruct (Nat.eqb_spec c c0) as [->|_]; [contradiction|reflexivity].
Qed.

(* ---- linear dictionaries ---- *)
Definition comb (p q : K) (u v : vec K) : vec K := fun k => (p * u k + q * v k)%K.
Definition linear_term (t : term K) : Prop := forall p q u v, teval K (comb p q u v) t = (p * teval K u t + q * teval K v t)%K.
(* the equilibria and the sources are linear, the parameters of relaxation are numbers *)
Record linear_dict : Prop := {
  ld_eq : forall d t, In d ds -> In t (sd_eq K d) -> linear_term t;
  ld_feq : forall d fe t, In d ds -> sd_feq K d = Some fe -> In t fe -> linear_term t;
  ld_src : forall d c t, In d ds -> In (c, t) (sd_src K d) -> linear_term t;
  ld_s : forall d t, In d ds -> In t (sd_s K d) -> vars K t = []
}.
Hypothesis L : linear_dict.
Lemma sum_comb m p q (u v : vec K) : sum m (fun j => (p * u j + q * v j)%K) = (p * sum m u + q * sum m v)%K.
Proof. unfold sum. rewrite sumL_add, !sumL_mul_l. reflexivity. Qed.
Lemma mom_comb p q f g b i : mom K ds (comb p q f g) b i = (p * mom K ds f b i + q * mom K ds g b i)%K.
Proof.
  unfold mom, comb. destruct (nth_error ds b) as [d|]; [|ring]. rewrite <- sum_comb. apply sum_ext. intros j _. ring.
Qed.
Lemma source_linear c g : BuildProofs.source K ds c = Some g -> linear_term g.
Proof using L.
  unfold BuildProofs.source. destruct (List.find _ _) as [[c' g']|] eqn:Ef; [|discriminate]. intros [= <-]. apply find_some in Ef as [Ef _].
  apply in_rev, in_concat in Ef as (l & Hl & Ef). apply in_map_iff in Hl as (d & <- & Hd). exact (ld_src L d c' g' Hd Ef).
Qed.
Lemma half_comb p q u v : forall c, half K hdt ds (comb p q u v) c = comb p q (half K hdt ds u) (half K hdt ds v) c.
Proof using L.
  unfold half. assert (X : forall l u v w, (forall c, w c = comb p q u v c) -> forall c,
    fold_left (fun val c => match BuildProofs.source K ds c with Some g => fun c' => if Nat.eqb c' c then (val c + hdt * teval K val g)%K else val c' | None => val end) l w c =
    comb p q (fold_left (fun val c => match BuildProofs.source K ds c with Some g => fun c' => if Nat.eqb c' c then (val c + hdt * teval K val g)%K else val c' | None => val end) l u)
             (fold_left (fun val c => match BuildProofs.source K ds c with Some g => fun c' => if Nat.eqb c' c then (val c + hdt * teval K val g)%K else val c' | None => val end) l v) c).
  { induction l as [|c0 l IH]; intros u0 v0 w H; [exact H|]. cbn [fold_left]. apply IH. destruct (BuildProofs.source K ds c0) as [g|] eqn:Es; [|exact H].
    intros c. rewrite (teval_ext K w (comb p q u0 v0) g) by (intros; apply H). rewrite (source_linear c0 g Es), !H. unfold comb. destruct (Nat.eqb c c0); ring. }
  apply X. reflexivity.
Qed.
Lemma eqv_comb d i p q u v : In d ds -> eqv K d i (comb p q u v) = (p * eqv K d i u + q * eqv K d i v)%K.
Proof using L.
  intros Hd. unfold eqv. assert (Z : forall (l : list (term K)) j, (forall t, In t l -> linear_term t) -> linear_term (nth j l (Num 0%K))).
  { intros l j Hl. apply (nth_in_or linear_term); [intros p' q' u' v'; cbn; ring|exact Hl]. }
  destruct (sd_eq K d) as [|e l] eqn:Ee; [destruct (sd_feq K d) as [fe|] eqn:Ef|].
  - rewrite <- sum_comb. apply sum_ext. intros j _. rewrite (Z fe j (fun t Ht => ld_feq L d fe t Hd Ef Ht)). ring.
  - rewrite (Z [] i); [reflexivity|intros t []].
  - rewrite (Z (e :: l) i); [reflexivity|]. intros t Ht. apply (ld_eq L d t Hd). now rewrite Ee.
Qed.
Lemma step_comb p q f g f' g' : step f f' -> step g g' -> step (comb p q f g) (comb p q f' g').
Proof using HI D O EB HSi L.
  intros Hf Hg. destruct (values_ex f) as [u Hu]. destruct (values_ex g) as [v Hv]. destruct (Hf u Hu) as [F1 F2]. destruct (Hg v Hv) as [G1 G2].
  assert (HV : conserved_values (comb p q f g) (comb p q u v)).
  { intros c b i Hm. rewrite mom_comb. unfold comb. now rewrite (Hu c b i Hm), (Hv c b i Hm). }
  assert (S1 : same_on (half K hdt ds (comb p q u v)) (comb p q (half K hdt ds u) (half K hdt ds v))) by (intros c _; apply half_comb).
  apply (collided_one _ _ _ HV).
  - intros c b i Hm. rewrite mom_comb, (F1 c b i Hm), (G1 c b i Hm), (half_same _ _ S1 c (moment_in c b i Hm)), half_comb. reflexivity.
  - intros b i d Hb Hi Hn s. pose proof (nth_error_In _ _ Hb) as Hd. rewrite !mom_comb, (F2 b i d Hb Hi Hn), (G2 b i d Hb Hi Hn).
    rewrite (closed_eqv d i _ _ Hd Hi S1), eqv_comb by exact Hd. unfold s.
    assert (Es : forall w w', teval K w (nth i (sd_s K d) (Num 0%K)) = teval K w' (nth i (sd_s K d) (Num 0%K))).
    { intros w w'. apply (nth_in_or (fun t => teval K w t = teval K w' t)); [reflexivity|]. intros t Ht. apply teval_ext. rewrite (ld_s L d t Hd Ht). intros x []. }
    rewrite (Es (half K hdt ds u) (half K hdt ds (comb p q u v))), (Es (half K hdt ds v) (half K hdt ds (comb p q u v))). ring.
Qed.
End Collision.

(* ------------------------------------------------- histories *)
Section History.
Variables (dimz : Z) (schemes : list (list Z)) (st : stencil) (r : list Z) (g : grid) (es : list DomainModel.elem) (labs : list Z) (conds : Z -> list (nat * method)).
Variables (Dm : dom) (ms : list (method * list blink)).
Hypothesis E : serial dimz schemes st r g es labs conds Dm ms.
Variables (K : ring) (qk : Q -> K).
Add Ring Kring' : (rth K).
Variable inv : nat -> mat K -> option (mat K).
Variable simp : term K -> term K.
Variables (dm : nat) (hdt : K) (ds : list (sdict K)) (a : salgo K).
Hypothesis HI : inv_spec K inv.
Hypothesis HSi : simp_spec K simp.
Hypothesis D : dict_ok K simp ds.
Hypothesis O : ordered K simp ds.
Hypothesis EB : build K inv simp None dm hdt ds = Some a.
Hypothesis HPl : forall d t, In d ds -> In t (sd_P K d) -> below K dm t.
Hypothesis Hsz : map (nv K) ds = map (@length Z) schemes.
Notation n := (SchemeModel.total (sizes K ds)).
Notation arrive := (arrives st r g ms K qk).
Notation bval phi := (bvalue K qk g (velk st) (symk r) (feq_of st phi g)).

(* One step of the whole domain, as in C65 and C68. *)
Definition stepped_to (phi : Z -> list Q -> nat -> K) (G G' : list Z -> vec K) : Prop :=
  forall x, exists f, (forall j, (j < n)%nat -> arrive phi G x j (f j)) /\ collided K simp hdt ds f (G' x).
Definition history (phis : nat -> Z -> list Q -> nat -> K) (G : nat -> list Z -> vec K) : Prop := forall t, stepped_to (phis t) (G t) (G (S t)).

Lemma sym_lt k : (k < n)%nat -> (symk r k < n)%nat.
Proof using E Hsz.
  intros Hk. destruct (off_ex K ds k Hk) as (b & d & j & H1 & H2 & ->). destruct (opposite_in dimz schemes st r g es labs conds Dm ms E K ds Hsz b d j H1 H2) as (j' & H3 & ->).
  now apply (off_total K ds b d j').
Qed.
Lemma loads_lt m b p : (b_k b < n)%nat -> In p (loads g (velk st) (symk r) m b) -> (fst p < n)%nat.
Proof using E Hsz.
  intros Hk Hp. pose proof (sym_lt _ Hk) as Hs. assert (X : fst p = b_k b \/ fst p = symk r (b_k b)); [|destruct X as [-> | ->]; assumption].
  unfold loads in Hp. destruct m; cbn in Hp; repeat match goal with H : _ \/ _ |- _ => destruct H | H : False |- _ => destruct H | H : _ = p |- _ => subst p end; cbn; auto;
    unfold iload1; destruct (near b); cbn; auto.
Qed.

(* ---- the cells that are read ---- *)
(* y is a cell of the periodic domain at most V away from x in each direction *)
Definition within (V : Z) (x y : list Z) : Prop := exists o, (forall d, (d < dim g)%nat -> Z.abs o@d <= V) /\ y = wrapg g (shift g (cell_of g x) o).
Definition speed (V : Z) : Prop := forall j d, (j < n)%nat -> (d < dim g)%nat -> Z.abs (velk st j)@d <= V.
Lemma wrapg_ext x y : (forall d, (d < dim g)%nat -> x@d = y@d) -> wrapg g x = wrapg g y.
Proof using. intros H. apply (cell_ext g); try apply wrapg_len. intros d Hd. now rewrite !wrapg_nth, H. Qed.
Lemma within_ext V x y o : (forall d, (d < dim g)%nat -> Z.abs o@d <= V) -> (forall d, (d < dim g)%nat -> y@d = (cell_of g x)@d + o@d) -> within V x (wrapg g y).
Proof using. intros H Hy. exists o. split; [exact H|]. apply wrapg_ext. intros d Hd. now rewrite shift_nth, Hy. Qed.
Lemma nth_times (z : Z) (v : list Z) d : (map (fun x => z * x) v)@d = z * v@d.
Proof using. clear. revert d. induction v as [|x v IH]; intros [|d]; cbn; try lia; apply IH. Qed.
Lemma before_within V j x : speed V -> (j < n)%nat -> within V x (wrapg g (before st g j (cell_of g x))).
Proof using.
  intros HV Hj. apply (within_ext V x _ (map Z.opp (velk st j))); intros d Hd; rewrite ?nth_opp.
  - rewrite Z.abs_opp. now apply HV.
  - unfold before. now rewrite shift_nth, nth_opp.
Qed.
Lemma loads_within V x m b p : speed V -> 0 <= V -> (b_k b < n)%nat -> b_cell b = before st g (b_k b) (cell_of g x) -> In p (loads g (velk st) (symk r) m b) -> within V x (wrapg g (snd p)).
Proof using.
  intros HV V0 Hk Hb Hp. set (v := velk st (b_k b)) in *.
  assert (B : forall d, (d < dim g)%nat -> (b_cell b)@d = (cell_of g x)@d - v@d) by (intros d Hd; rewrite Hb; unfold before; rewrite shift_nth, nth_opp by exact Hd; unfold v; lia).
  assert (A1 : within V x (wrapg g (ahead g (velk st) b))).
  { apply (within_ext V x _ []); intros d Hd; (replace (nth d [] 0) with 0 by (destruct d; reflexivity)); [exact V0|]. unfold ahead. rewrite shift_nth, B by exact Hd. fold v. lia. }
  assert (A2 : within V x (wrapg g (ahead2 g (velk st) b))).
  { apply (within_ext V x _ v); intros d Hd; [now apply HV|]. unfold ahead2. rewrite shift_nth, B by exact Hd. fold v. rewrite nth_times. lia. }
  assert (A3 : forall ax, within V x (wrapg g (ahead_axis g (velk st) ax b))).
  { intros ax. apply (within_ext V x _ (map (fun d => if Nat.eqb d ax then 0 else - v@d) (DomainModel.axes g))); intros d Hd.
    - rewrite nth_axes by exact Hd. destruct (Nat.eqb d ax); [exact V0|]. rewrite Z.abs_opp. now apply HV.
    - unfold ahead_axis. rewrite shift_nth, B, !nth_axes by exact Hd. fold v. destruct (Nat.eqb d ax); lia. }
  unfold loads in Hp. destruct m; cbn in Hp; repeat match goal with H : _ \/ _ |- _ => destruct H | H : False |- _ => destruct H | H : _ = p |- _ => subst p end; cbn; auto;
    unfold iload1; destruct (near b); cbn; auto.
Qed.
(* the equilibria at the walls near x are the same *)
Definition same_walls (V : Z) (x : list Z) (phi phi' : Z -> list Q -> nat -> K) : Prop :=
  forall m b k, has ms m b -> within V x (wrapg g (b_cell b)) -> (k < n)%nat -> feq_of st phi g b k = feq_of st phi' g b k.
Lemma bvalue_feq feq feq' m F b : feq b (b_k b) = feq' b (b_k b) -> feq b (symk r (b_k b)) = feq' b (symk r (b_k b)) ->
  bvalue K qk g (velk st) (symk r) feq m F b = bvalue K qk g (velk st) (symk r) feq' m F b.
Proof using. intros H1 H2. unfold bvalue. cbv zeta. destruct m; cbn [rhs]; rewrite ?H1, ?H2; reflexivity. Qed.
(* what arrives depends only on these cells *)
Lemma arrives_local V phi phi' G G' x j v v' : speed V -> 0 <= V -> (j < n)%nat -> (forall y, within V x y -> agree K n (G y) (G' y)) -> same_walls V x phi phi' ->
  arrive phi G x j v -> arrive phi' G' x j v' -> v = v'.
Proof using E Hsz.
  intros HV V0 Hj HG HW [(m & b & H1 & H2 & H3 & ->)|[H1 ->]] [(m' & b' & H1' & H2' & H3' & ->)|[H1' ->]].
  - pose proof (serial_setting _ _ _ _ _ _ _ _ _ _ E) as SS. destruct (links_one _ _ _ _ _ _ _ _ _ SS m b m' b' H1 H1') as [<- <-]; [unfold key; congruence|].
    subst j. assert (W : within V x (wrapg g (b_cell b))) by (rewrite H3; now apply before_within).
    rewrite (bvalue_feq (feq_of st phi g) (feq_of st phi' g)) by (apply (HW m b); [exact H1|exact W|first [exact Hj|now apply sym_lt]]).
    apply bvalue_loads. intros p Hp. unfold at_, gfield. apply HG; [|now apply (loads_lt m b)]. now apply (loads_within V x m b).
  - destruct (H1' m b H1). now split.
  - destruct (H1 m' b' H1'). now split.
  - apply HG; [|exact Hj]. now apply before_within.
Qed.
Lemma speed_ex : exists V, 0 <= V /\ speed V.
Proof using.
  assert (X : forall N, exists V, 0 <= V /\ forall j d, (j < N)%nat -> (d < dim g)%nat -> Z.abs (velk st j)@d <= V).
  { induction N as [|N (V & V0 & HV)]; [exists 0; split; [lia|intros; lia]|].
    assert (Y : forall M, exists W, 0 <= W /\ forall d, (d < M)%nat -> Z.abs (velk st N)@d <= W).
    { induction M as [|M (W & W0 & HW)]; [exists 0; split; [lia|intros; lia]|]. exists (W + Z.abs (velk st N)@M). split; [lia|]. intros d Hd.
      destruct (Nat.eq_dec d M) as [->|Ne]; [lia|]. specialize (HW d ltac:(lia)). lia. }
    destruct (Y (dim g)) as (W & W0 & HW). exists (V + W). split; [lia|]. intros j d Hj Hd.
    destruct (Nat.eq_dec j N) as [->|Ne]; [specialize (HW d Hd); lia|specialize (HV j d ltac:(lia) Hd); lia]. }
  exact (X n).
Qed.
(* one step, from states that agree near x *)
Lemma step_local V phi phi' G G' H H' x : speed V -> 0 <= V -> (forall y, within V x y -> agree K n (G y) (G' y)) -> same_walls V x phi phi' ->
  stepped_to phi G H -> stepped_to phi' G' H' -> agree K n (H x) (H' x).
Proof using E HI HSi D O EB Hsz.
  intros HV V0 HG HW S1 S2. destruct (S1 x) as (f & F1 & F2). destruct (S2 x) as (f' & F1' & F2').
  apply (step_fun K simp hdt ds HSi D O inv None dm a HI EB f f'); [|exact F2|exact F2']. intros j Hj. exact (arrives_local V phi phi' G G' x j _ _ HV V0 Hj HG HW (F1 j Hj) (F1' j Hj)).
Qed.
(* the cells of the domain *)
Definition cell_in (x : list Z) : Prop := length x = dim g /\ forall d, (d < dim g)%nat -> 0 <= x@d < (g_n g)@d.
Lemma wrapg_in x : cell_in (wrapg g x).
Proof using E.
  split; [apply wrapg_len|]. intros d Hd. rewrite wrapg_nth by exact Hd. apply Z.mod_pos_bound.
  pose proof (proj1 (proj2 (e_wf _ _ _ _ _ _ _ _ _ _ E)) d Hd). lia.
Qed.
Lemma within_in V x y : within V x y -> cell_in y.
Proof using E. intros (o & _ & ->). apply wrapg_in. Qed.
(* the history is determined by its start *)
Lemma history_unique phis G G' : history phis G -> history phis G' -> (forall x, cell_in x -> agree K n (G 0%nat x) (G' 0%nat x)) -> forall t x, cell_in x -> agree K n (G t x) (G' t x).
Proof using E HI HSi D O EB Hsz.
  intros H H' H0 t. destruct speed_ex as (V & V0 & HV). induction t as [|t IH]; intros x Hx; [now apply H0|].
  apply (step_local V (phis t) (phis t) (G t) (G' t) _ _ x HV V0); [|intros m b k _ _ _; reflexivity|apply H|apply H'].
  intros y Hy. apply IH. now apply within_in in Hy.
Qed.

(* ---- simulations ---- *)
Lemma glob_in ps Ds mss : parallel st g es labs conds ps Ds mss -> forall c i, coords_ok (proc_axes g ps) c -> inner (proc_axes g ps) c i -> cell_in (globc (proc_axes g ps) c i).
Proof using E.
  intros HP c i Hc Hi. pose proof (serial_fits _ _ _ _ _ _ _ _ _ _ E ps (proj1 HP)) as Hf. pose proof Hf as (Hd3 & Hok & _). split.
  - rewrite <- (pa_len g ps). apply globc_length; try assumption; apply Hi.
  - intros d Hd. assert (C : gcell (proc_axes g ps) (globc (proc_axes g ps) c i)) by (apply globc_gcell; assumption). destruct C as [_ C]. rewrite pa_len in C. specialize (C d Hd).
    now rewrite pa_nth in C by exact Hd.
Qed.
Section Data.
Variable l : list (ikey * (list Q -> K)).
Hypothesis Hl : regular_data K l.
Hypothesis Hk : forall p, In p l -> known K ds (fst p).
Notation begin be ps pos := (start K a pos (scheme_consm K inv simp ds) be true g ps (Some l)).
(* The simulation of the dictionary, started from "init", holds the values of G: on every process
   grid, with both back ends, in every order of the storage. *)
Definition simulates (phis : nat -> Z -> list Q -> nat -> K) (G : nat -> list Z -> vec K) : Prop :=
  forall ps Ds mss pos, parallel st g es labs conds ps Ds mss -> Forall (fun x => forall c, (c < ax_p x)%nat -> ax_lo x c < ax_hi x c) (proc_axes g ps) -> (pos <= dim g)%nat ->
  (forall L0 t, holds K (proc_axes g ps) n (fst (cy_run st r g K qk a pos ps mss phis L0 t (begin Cython ps pos))) (G t)) /\
  ((forall d t, In d ds -> In t (sd_s K d) -> vars K t = []) -> forall t,
     holds K (proc_axes g ps) n (fst (np_run st r g K qk a pos ps mss phis t (begin Numpy ps pos))) (G t)).
Lemma simulates_history phis G : quiet st r g ms -> (forall t, ParallelProps.regular (phis t)) -> history phis G ->
  (forall x, cell_in x -> initial_state K simp ds l (point g (cell_of g x)) (G 0%nat x)) -> simulates phis G.
Proof using E HI HSi D O EB HPl Hsz Hl Hk.
  intros HQ Hphis HG H0. destruct (C68_simulation dimz schemes st r g es labs conds Dm ms E K qk inv simp dm hdt ds a HI HSi D O EB HPl Hsz l Hl Hk phis HQ Hphis) as (G' & G1 & G2 & G3).
  assert (U : forall t x, cell_in x -> agree K n (G' t x) (G t x)).
  { apply (history_unique phis); [exact G2|exact HG|]. intros x Hx. exact (C68_determined K simp ds inv None dm hdt a HI D O EB l _ _ _ (G1 x) (H0 x Hx)). }
  intros ps Ds mss pos HP NE Hpos. destruct (G3 ps Ds mss pos HP NE Hpos) as [R1 R2].
  assert (C : forall c i, coords_ok (proc_axes g ps) c -> inner (proc_axes g ps) c i -> cell_in (globc (proc_axes g ps) c i)) by (intros c i Hc Hi; now apply (glob_in ps Ds mss HP)). split.
  - intros L0 t c i Hc Hi. eapply agree_trans; [exact (R1 L0 t c i Hc Hi)|apply U; now apply C].
  - intros Hn t c i Hc Hi. eapply agree_trans; [exact (proj1 (R2 Hn t) c i Hc Hi)|apply U; now apply C].
Qed.
End Data.
End History.
