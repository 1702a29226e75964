(* C91: whole simulations with a relative velocity and source terms. *)
From Coq Require Import QArith.
From Verif Require Import PyBase VelocityModel VelocityProofs Velocity3Proofs StencilModel StencilProofs GridModel GridProofs StorageModel
  ExchangeProofs StorageProps LinAlg AlgoModel AlgoProofs RelVelProofs KernelProofs GlobalModel GlobalProofs TorusProofs AlgoProps GlobalProps
  GenModel GenProofs GenProps StepGenModel StepGenProofs StepGenProps SchemeModel SchemeProofs SchemeProps BuildModel BuildProofs BuildProps BuildFrame
  DomainModel DomainProofs DomainProps BoundaryModel BoundaryProofs BoundaryProps BoundaryUpdProps VesselProofs VesselProps ChannelProps
  ParallelModel ParallelProofs ObstacleProofs ParallelProps ObstacleProps ParallelMassProps WholeModel WholeProps InitGenModel InitGenProps DuctProps FlowProofs FlowProps
  MovingProps SourceFrame.
Require Import Lia.
Open Scope Z_scope.

(* ------------------------------------------------- the collision *)
Section Cell.
Variable K : ring.
Add Ring Kring : (rth K).
Variable inv : nat -> mat K -> option (mat K).
Variable simp : term K -> term K.
Variables (l : list (term K)) (dm : nat) (hdt : K) (ds : list (sdict K)) (a : salgo K).
(* w gives the conserved moments of f in the frame which moves with u *)
Definition frame_values (u f w : vec K) : Prop := forall c b i, is_moment K simp ds c b i -> w c = momu K ds u f b i.
(* f' is f after the collision.  The parameters and the equilibrium e are taken at the conserved
   moments after half a step of the sources; the other moments relax in the frame which moves with
   the velocity u before the sources.  The conserved moments in the moving frame are the old ones,
   which the second half of the sources changes, and reads. *)
Definition pushed (f f' : vec K) : Prop := forall val e w,
  conserved_values K simp ds f val ->
  let u := vrel K l val in let val1 := half K hdt ds val in
  frame_values u f w ->
  (forall b d i, nth_error ds b = Some d -> (i < nv K d)%nat -> mom K ds e b i = eqv K d i val1) ->
  (forall c b i, is_moment K simp ds c b i -> momu K ds u f' b i = half K hdt ds w c) /\
  (forall b i d, nth_error ds b = Some d -> (i < nv K d)%nat -> (forall c, ~ is_moment K simp ds c b i) ->
     let s := teval K val1 (nth i (sd_s K d) (Num 0%K)) in
     momu K ds u f' b i = ((1 - s) * momu K ds u f b i + s * momu K ds u e b i)%K).
Notation n := (SchemeModel.total (sizes K ds)).
Hypothesis H : moving_dict K inv simp l dm hdt ds a.

Lemma pull_pushed f : pushed f (pull_fun K (algo_of K a) f).
Proof using H. intros val e w HV u val1 Hw He. destruct H. now apply (pushed_build K inv simp l dm hdt ds a). Qed.
Lemma frame_ex u f : exists w, frame_values u f w.
Proof using H.
  destruct H. destruct (build_built K simp inv hdt (Some l) dm ds a md_inv md_ok md_build) as (M & N & sg & B). pose proof (do_distinct K simp ds md_ok) as ND.
  exists (fun c => match odict_get (ranks (conserved K ds)) c with Some r => mvmul n (BuildFrame.T K inv l ds u) (mvmul n M f) (sg r) | None => 0%K end).
  intros c b i Hm. pose proof Hm as (d & H1 & H2 & H3 & _). destruct (In_nth_error _ _ (moment_in K simp ds c b i Hm)) as [r Hr]. unfold ranks. rewrite (ranks_get _ r c ND Hr).
  rewrite (bu_front _ _ _ _ _ _ _ _ _ _ _ B md_ordered r c b i Hr Hm).
  exact (T_moments K inv simp l dm hdt ds a md_inv md_ok md_build md_below md_dim md_poly M u f b d i (bu_moments _ _ _ _ _ _ _ _ _ _ _ B) H1 H3).
Qed.
Lemma pushed_all f : exists val e w, conserved_values K simp ds f val /\ frame_values (vrel K l val) f w /\
  (forall b d i, nth_error ds b = Some d -> (i < nv K d)%nat -> mom K ds e b i = eqv K d i (half K hdt ds val)).
Proof using H.
  destruct (moves_values K inv simp l dm hdt ds a H f) as [val HV]. destruct (equilibrium_ex K inv simp l dm hdt ds a H (half K hdt ds val)) as [e He].
  destruct (frame_ex (vrel K l val) f) as [w Hw]. now exists val, e, w.
Qed.
Theorem C91_determined f g f' g' : agree K n f g -> pushed f f' -> pushed g g' -> agree K n f' g'.
Proof using H.
  intros A Hf Hg. destruct (pushed_all f) as (val & e & w & HV & Hw & He).
  assert (HV' : conserved_values K simp ds g val) by (intros c b i Hm; rewrite (HV c b i Hm); now apply mom_agree).
  assert (Hw' : frame_values (vrel K l val) g w) by (intros c b i Hm; rewrite (Hw c b i Hm); now apply momu_agree).
  destruct (Hf val e w HV Hw He) as [F1 F2]. destruct (Hg val e w HV' Hw' He) as [G1 G2]. apply (momu_inj K inv simp l dm hdt ds a H (vrel K l val)). intros b d i Hb Hi.
  destruct (moment_dec K simp ds b i) as [[c Hm]|Hn].
  - now rewrite (F1 c b i Hm), (G1 c b i Hm).
  - rewrite (F2 b i d Hb Hi Hn), (G2 b i d Hb Hi Hn). now rewrite (momu_agree K ds _ f g b i A).
Qed.
(* Without sources it is the collision of C86. *)
Lemma no_source_none : no_source K ds -> forall c, BuildProofs.source K ds c = None.
Proof using.
  intros HN c. unfold BuildProofs.source. replace (concat (map (sd_src K) ds)) with (@nil (nat * term K)); [reflexivity|].
  clear - HN. unfold no_source in HN. induction ds as [|d t IH]; [reflexivity|]. cbn. rewrite (HN d) by now left. apply IH. intros d' Hd. apply HN. now right.
Qed.
Theorem C91_no_source f f' : no_source K ds -> (pushed f f' <-> moves K simp l ds f f').
Proof using H.
  intros HN. pose proof (no_source_none HN) as NS. pose proof (fun v c => half_none K hdt ds c v (NS c)) as HH.
  assert (ES : forall val b i d, nth_error ds b = Some d -> teval K (half K hdt ds val) (nth i (sd_s K d) (Num 0%K)) = teval K val (nth i (sd_s K d) (Num 0%K))).
  { intros val b i d Hb. apply teval_ext. intros c _. apply HH. }
  assert (EE : forall val b i d, nth_error ds b = Some d -> (i < nv K d)%nat -> eqv K d i (half K hdt ds val) = eqv K d i val).
  { intros val b i d Hb Hi. rewrite <- !(eqs_eval K simp d i _ (md_simp _ _ _ _ _ _ _ _ H) Hi). apply teval_ext. intros c _. apply HH. }
  split.
  - intros Hf val e HV He. cbv zeta. destruct (frame_ex (vrel K l val) f) as [w Hw]. destruct (Hf val e w HV Hw) as [F1 F2].
    + intros b d i Hb Hi. rewrite (EE val b i d Hb Hi). now apply (He b d).
    + split; [intros c b i Hm; rewrite (F1 c b i Hm), HH; now apply Hw|]. intros b i d Hb Hi Hn. rewrite (F2 b i d Hb Hi Hn), (ES val b i d Hb). reflexivity.
  - intros Hf val e w HV. cbv zeta. intros Hw He. destruct (Hf val e HV) as [F1 F2].
    + intros b d i Hb Hi. rewrite (He b d i Hb Hi). now apply (EE val b i d).
    + split; [intros c b i Hm; rewrite (F1 c b i Hm), HH; symmetry; now apply Hw|]. intros b i d Hb Hi Hn. rewrite (F2 b i d Hb Hi Hn). now rewrite (ES val b i d Hb).
Qed.

(* ---- the conserved moments of the fixed frame ---- *)
(* a polynomial which is the same in all frames (the density) *)
Definition invariant (d : sdict K) (i : nat) : Prop := forall x u, poly K d i (fun p => x p - u p)%K = poly K d i x.
Lemma invariant_moment d b i u f : nth_error ds b = Some d -> invariant d i -> momu K ds u f b i = mom K ds f b i.
Proof using H.
  intros Hb Hi. rewrite (momu_poly K ds u f b d i Hb), (mom_poly K inv simp l dm hdt ds a H f b d i Hb). apply sum_ext. intros j _. now rewrite Hi.
Qed.
(* Only one half of the sources acts on such a moment, at the moments of the moving frame. *)
Theorem C91_density f f' c b i d val w : pushed f f' -> is_moment K simp ds c b i -> nth_error ds b = Some d -> invariant d i ->
  conserved_values K simp ds f val -> frame_values (vrel K l val) f w -> mom K ds f' b i = half K hdt ds w c.
Proof using H.
  intros Hf Hm Hb Hi HV Hw. destruct (equilibrium_ex K inv simp l dm hdt ds a H (half K hdt ds val)) as [e He].
  destruct (Hf val e w HV Hw He) as [F1 _]. rewrite <- (F1 c b i Hm). symmetry. now apply (invariant_moment d).
Qed.
(* a source for one moment only *)
Lemma half_only c g w : In c (conserved K ds) -> BuildProofs.source K ds c = Some g -> (forall c', c' <> c -> BuildProofs.source K ds c' = None) ->
  half K hdt ds w c = (w c + hdt * teval K w g)%K.
Proof using H.
  intros Hc Hs Ho. pose proof (do_distinct K simp ds (md_ok _ _ _ _ _ _ _ _ H)) as ND. unfold half. revert Hc ND. generalize (conserved K ds). intros cs. revert w.
  induction cs as [|c0 cs IH]; intros w Hc ND; [destruct Hc|]. inversion ND as [|? ? N1 N2]; subst. cbn [fold_left]. destruct (Nat.eq_dec c0 c) as [->|Ne].
  - rewrite Hs.
    assert (X : forall cs u, ~ In c cs -> fold_left (fun val c => match BuildProofs.source K ds c with Some g => fun c' => if Nat.eqb c' c then (val c + hdt * teval K val g)%K else val c' | None => val end) cs u c = u c).
    { clear - Ho. induction cs as [|c0 cs IH]; intros u Hn; [reflexivity|]. cbn [fold_left]. rewrite (Ho c0) by (intros ->; apply Hn; now left). apply IH. intros Hi. apply Hn. now right. }
    rewrite X by exact N1. now rewrite Nat.eqb_refl.
  - rewrite (Ho c0 Ne). destruct Hc as [Hc|Hc]; [congruence|]. now apply IH.
Qed.
(* A polynomial of degree 1: the moment j is the density, ka u the velocity of the frame in the
   direction of the moment i.  The source g of i is the only one: it acts once, with half a time step,
   and reads the moments of the moving frame. *)
Definition momentum (d : sdict K) (i j : nat) (ka : vec K -> K) : Prop := invariant d j /\ forall x u, poly K d i (fun p => x p - u p)%K = (poly K d i x - ka u * poly K d j x)%K.
Lemma momentum_moment d b i j ka u f : nth_error ds b = Some d -> momentum d i j ka -> momu K ds u f b i = (mom K ds f b i - ka u * mom K ds f b j)%K.
Proof using H.
  intros Hb [_ Hi]. rewrite (momu_poly K ds u f b d i Hb), !(mom_poly K inv simp l dm hdt ds a H f b d _ Hb).
  assert (L : forall m k (p q f : nat -> K), sum m (fun j => (p j - k * q j) * f j)%K = (sum m (fun j => p j * f j) - k * sum m (fun j => q j * f j))%K).
  { clear. intros m k p q f. rewrite (sum_ext K m _ (fun j => p j * f j + (- k) * (q j * f j))%K) by (intros j _; ring). rewrite sum_add, sum_mul_l. ring. }
  rewrite <- L. apply sum_ext. intros q _. now rewrite Hi.
Qed.
Theorem C91_momentum f f' c c' b i j d ka g val w : pushed f f' -> is_moment K simp ds c b i -> is_moment K simp ds c' b j -> c' <> c -> nth_error ds b = Some d -> momentum d i j ka ->
  BuildProofs.source K ds c = Some g -> (forall c'', c'' <> c -> BuildProofs.source K ds c'' = None) ->
  conserved_values K simp ds f val -> frame_values (vrel K l val) f w ->
  mom K ds f' b j = mom K ds f b j /\ mom K ds f' b i = (mom K ds f b i + hdt * teval K w g)%K.
Proof using H.
  intros Hf Hm Hm' Nc Hb Hk Hs Ho HV Hw. destruct (equilibrium_ex K inv simp l dm hdt ds a H (half K hdt ds val)) as [e He].
  destruct (Hf val e w HV Hw He) as [F1 _]. pose proof (F1 c b i Hm) as A. pose proof (F1 c' b j Hm') as B.
  rewrite (half_none K hdt ds c' w (Ho c' Nc)), (Hw c' b j Hm'), !(invariant_moment d b j _ _ Hb (proj1 Hk)) in B. split; [exact B|].
  rewrite (half_only c g w (moment_in K simp ds c b i Hm) Hs Ho), (Hw c b i Hm), !(momentum_moment d b i j ka _ _ Hb Hk), B in A.
  transitivity (mom K ds f' b i - ka (vrel K l val) * mom K ds f b j + ka (vrel K l val) * mom K ds f b j)%K; [ring|]. rewrite A. ring.
Qed.
(* Gravity, a source which reads the density only: half of it. *)
Theorem C91_gravity f f' c c' b i j d ka g val : pushed f f' -> is_moment K simp ds c b i -> is_moment K simp ds c' b j -> c' <> c -> nth_error ds b = Some d -> momentum d i j ka ->
  BuildProofs.source K ds c = Some g -> (forall c'', c'' <> c -> BuildProofs.source K ds c'' = None) -> (forall x, In x (vars K g) -> x = c') ->
  conserved_values K simp ds f val -> mom K ds f' b i = (mom K ds f b i + hdt * teval K val g)%K.
Proof using H.
  intros Hf Hm Hm' Nc Hb Hk Hs Ho Hg HV. destruct (frame_ex (vrel K l val) f) as [w Hw].
  rewrite (proj2 (C91_momentum f f' c c' b i j d ka g val w Hf Hm Hm' Nc Hb Hk Hs Ho HV Hw)). f_equal. f_equal. apply teval_ext. intros x Hx. rewrite (Hg x Hx).
  rewrite (Hw c' b j Hm'), (HV c' b j Hm'). apply (invariant_moment d); [exact Hb|apply Hk].
Qed.
(* Friction, when the frame moves with the fluid: a source which vanishes with the momentum has no
   effect at all. *)
Theorem C91_friction f f' c c' b i j d ka g val : pushed f f' -> is_moment K simp ds c b i -> is_moment K simp ds c' b j -> c' <> c -> nth_error ds b = Some d -> momentum d i j ka ->
  BuildProofs.source K ds c = Some g -> (forall c'', c'' <> c -> BuildProofs.source K ds c'' = None) -> (forall w, w c = 0%K -> teval K w g = 0%K) ->
  conserved_values K simp ds f val -> (ka (vrel K l val) * val c')%K = val c -> mom K ds f' b i = mom K ds f b i.
Proof using H.
  intros Hf Hm Hm' Nc Hb Hk Hs Ho Hg HV Hu. destruct (frame_ex (vrel K l val) f) as [w Hw].
  rewrite (proj2 (C91_momentum f f' c c' b i j d ka g val w Hf Hm Hm' Nc Hb Hk Hs Ho HV Hw)). rewrite Hg; [ring|].
  rewrite (Hw c b i Hm), (momentum_moment d b i j ka _ _ Hb Hk), <- (HV c b i Hm), <- (HV c' b j Hm'), Hu. ring.
Qed.
End Cell.

(* ------------------------------------------------- the simulation *)
Section Sim.
Variables (dimz : Z) (schemes : list (list Z)) (st : stencil) (r : list Z) (g : grid) (es : list DomainModel.elem) (labs : list Z) (conds : Z -> list (nat * method)).
Variables (Dm : dom) (ms : list (method * list blink)).
Hypothesis E : serial dimz schemes st r g es labs conds Dm ms.
Variables (K : ring) (qk : Q -> K).
Add Ring Kring_sim : (rth K).
Variable inv : nat -> mat K -> option (mat K).
Variable simp : term K -> term K.
Variables (l : list (term K)) (dm : nat) (hdt : K) (ds : list (sdict K)) (a : salgo K).
Hypothesis H : moving_dict K inv simp l dm hdt ds a.
Hypothesis Hsz : map (nv K) ds = map (@length Z) schemes.
Hypothesis HQ : quiet st r g ms.
Notation n := (SchemeModel.total (sizes K ds)).
Notation data := (list (ikey * (list Q -> K))).
Notation walls := (nat -> Z -> list Q -> nat -> K).
Notation arrive := (arrives st r g ms K qk).
Notation at_cell x := (point g (cell_of g x)).
Notation begin dat be ps pos := (start K a pos (scheme_consm K inv simp ds) be true g ps (Some dat)).
Notation sim := (moving_simulates st r g es labs conds K qk inv simp l ds a).
Definition pushed_history (phis : walls) (G : nat -> list Z -> vec K) : Prop :=
  forall t x, exists f, (forall j, (j < n)%nat -> arrive (phis t) (G t) x j (f j)) /\ pushed K simp l hdt ds f (G (S t) x).
Theorem C91_simulation dat phis : data_ok K ds dat -> walls_ok K phis -> exists G : nat -> list Z -> vec K,
  (forall x, initial_state K simp ds dat (at_cell x) (G 0%nat x)) /\ pushed_history phis G /\ sim dat phis G.
Proof using E H Hsz HQ.
  intros [Hl Hk] Hphis. pose proof H as H'. destruct H'.
  destruct (C68_start dimz schemes st r g es labs conds Dm ms E K inv simp (Some l) dm hdt ds a md_inv md_simp md_ok md_ordered md_build ltac:(intros l' j [= <-]; apply md_rel) md_below dat Hl Hk) as (G0 & S0 & I0).
  exists (fun t => ref_run st r g ms K qk a phis t G0). split; [exact I0|]. split.
  - intros t x. cbn [ref_run]. set (Gt := ref_run st r g ms K qk a phis t G0).
    set (f := fun k => boundary_condition K qk g (velk st) (symk r) (feq_of st (phis t) g) Cython ms (gfield g K Gt) k (before st g k (cell_of g x))).
    exists f. split; [intros j _; now apply (arrives_bc dimz schemes st r g es labs conds Dm ms E HQ)|]. exact (pull_pushed K inv simp l dm hdt ds a H f).
  - intros ps Ds mss pos HP NE Hpos. pose proof (moving_size K inv simp l dm hdt ds a H) as En. rewrite <- En in *.
    destruct (runs_hold dimz schemes st r g es labs conds Dm ms E HQ K qk a pos Hpos (moving_na schemes K inv simp l dm hdt ds a H Hsz) (moving_ok K inv simp l dm hdt ds a H) ps Ds mss phis G0 HP NE Hphis) as [H1 H2]. split.
    + intros L0 t. apply H1. rewrite En. exact (proj2 (S0 ps Ds mss pos Cython HP NE Hpos)).
    + intros Hn Hl' t. apply H2; [now apply (moving_numpy K inv simp l dm hdt ds a H)|]. rewrite En. exact (proj2 (S0 ps Ds mss pos Numpy HP NE Hpos)).
Qed.
(* ---- the totals ---- *)
Section Total.
Variables (c b i : nat) (d : sdict K).
Hypothesis Hm : is_moment K simp ds c b i.
Hypothesis Hb : nth_error ds b = Some d.
Hypothesis Hi : invariant K d i.
Hypothesis He : even_moment r K ds b i.
Notation mass F := (sumL (fluid_cells g Dm) (fun x => mom K ds (F (wrapg g x)) b i)).
(* In a closed vessel or duct with walls at rest the total of the density changes by one half step of
   the sources, at the moments of the moving frame. *)
Theorem C91_budget phis G : pushed_history phis G -> closed_domain dimz schemes st r g es labs conds Dm ms -> (forall t, at_rest r n (phis t)) ->
  forall t, exists w : cell -> vec K,
    (forall x, In x (fluid_cells g Dm) -> exists f val, (forall j, (j < n)%nat -> arrive (phis t) (G t) (wrapg g x) j (f j)) /\ conserved_values K simp ds f val /\ frame_values K simp ds (vrel K l val) f (w x)) /\
    mass (G (S t)) = (mass (G t) + sumL (fluid_cells g Dm) (fun x => half K hdt ds (w x) c - w x c))%K.
Proof using E H Hsz HQ Hm Hb Hi He.
  intros HG C Hr t. destruct (fixed_build K inv simp l dm hdt ds a H) as [a' EB]. pose proof H as H'. destruct H'.
  destruct (even_weights dimz schemes st r g es labs conds Dm ms E K inv simp dm hdt ds a' md_inv md_ok md_ordered EB Hsz c b i Hm He) as (ww & W1 & W2).
  set (f := fun x k => boundary_condition K qk g (velk st) (symk r) (feq_of st (phis t) g) Cython ms (gfield g K (G t)) k (before st g k x)).
  assert (A : forall x j, In x (fluid_cells g Dm) -> arrive (phis t) (G t) (wrapg g x) j (f x j)).
  { intros x j Hx. destruct (fluid_inside dimz schemes st r g es labs conds Dm ms E x Hx) as (Lx & _ & Hint). unfold f. rewrite <- (cell_wrapg g x Lx Hint) at 2.
    apply (arrives_bc dimz schemes st r g es labs conds Dm ms E HQ). }
  destruct (values_all K simp hdt ds md_ok md_ordered inv (Some l) dm a md_inv md_build) as [V HV].
  destruct (build_built K simp inv hdt (Some l) dm ds a md_inv md_ok md_build) as (M & N & sg & B). pose proof (do_distinct K simp ds md_ok) as ND.
  set (W := fun f c => match odict_get (ranks (conserved K ds)) c with Some r => mvmul n (BuildFrame.T K inv l ds (vrel K l (V f))) (mvmul n M f) (sg r) | None => 0%K end).
  assert (HW : forall f, frame_values K simp ds (vrel K l (V f)) f (W f)).
  { intros h c0 b0 i0 Hm0. unfold W. pose proof Hm0 as (d0 & H1 & H2 & H3 & _). destruct (In_nth_error _ _ (moment_in K simp ds c0 b0 i0 Hm0)) as [r0 Hr0]. unfold ranks. rewrite (ranks_get _ r0 c0 ND Hr0).
    rewrite (bu_front _ _ _ _ _ _ _ _ _ _ _ B md_ordered r0 c0 b0 i0 Hr0 Hm0).
    exact (T_moments K inv simp l dm hdt ds a md_inv md_ok md_build md_below md_dim md_poly M _ h b0 d0 i0 (bu_moments _ _ _ _ _ _ _ _ _ _ _ B) H1 H3). }
  exists (fun x => W (f x)). split.
  { intros x Hx. exists (f x), (V (f x)). split; [intros j _; now apply A|]. split; [apply HV|apply HW]. }
  assert (S1 : mass (G (S t)) = sumL (fluid_cells g Dm) (fun x => half K hdt ds (W (f x)) c)).
  { apply sumL_ext. intros x Hx. destruct (HG t (wrapg g x)) as (f' & F1 & F2).
    assert (F3 : agree K n f' (f x)) by (intros j Hj; eapply arrives_unique; [exact E|now apply F1|now apply A]).
    apply (C91_density K inv simp l dm hdt ds a H f' _ c b i d (V (f x)) (W (f x)) F2 Hm Hb Hi).
    - intros c0 b0 i0 Hm0. rewrite (HV (f x) c0 b0 i0 Hm0). symmetry. now apply mom_agree.
    - intros c0 b0 i0 Hm0. rewrite (HW (f x) c0 b0 i0 Hm0). symmetry. now apply momu_agree. }
  assert (S2 : mass (G t) = sumL (fluid_cells g Dm) (fun x => W (f x) c)).
  { rewrite (sumL_ext K _ _ _ (fun x _ => W1 (G t (wrapg g x)))).
    rewrite <- (arrival_sum dimz schemes st r g es labs conds Dm ms E K qk inv simp dm hdt ds a' md_inv md_ok EB Hsz (phis t) (G t) ww C (Hr t) W2). apply sumL_ext. intros x _.
    rewrite (HW (f x) c b i Hm), (invariant_moment K inv simp l dm hdt ds a H d b i _ _ Hb Hi), W1. reflexivity. }
  rewrite S1, S2, <- sumL_add. apply sumL_ext. intros x _. ring.
Qed.
(* A number s as source of the density: the total grows by hdt s per cell and step, half of what the
   simulation without relative velocity gives (C75_constant_source). *)
Theorem C91_constant_source phis G s : pushed_history phis G -> closed_domain dimz schemes st r g es labs conds Dm ms -> (forall t, at_rest r n (phis t)) ->
  BuildProofs.source K ds c = Some (Num s) -> forall t, mass (G t) = (mass (G 0%nat) + sum t (fun _ => sumL (fluid_cells g Dm) (fun _ => hdt * s)))%K.
Proof using E H Hsz HQ Hm Hb Hi He.
  intros HG C Hr Hs. assert (Hc : In c (conserved K ds)) by (eapply moment_in; exact Hm). induction t as [|t IH]; [cbn; ring|]. destruct (C91_budget phis G HG C Hr t) as (w & _ & B). rewrite B, IH, sum_S.
  assert (X : sumL (fluid_cells g Dm) (fun x => half K hdt ds (w x) c - w x c)%K = sumL (fluid_cells g Dm) (fun _ => hdt * s)%K); [|rewrite X; ring].
  apply sumL_ext. intros x _. rewrite (half_num K simp hdt ds (md_ok _ _ _ _ _ _ _ _ H) c _ s Hc Hs). ring.
Qed.
(* The density without source is conserved, whatever the sources of the other moments. *)
Theorem C91_mass phis G : pushed_history phis G -> closed_domain dimz schemes st r g es labs conds Dm ms -> (forall t, at_rest r n (phis t)) ->
  BuildProofs.source K ds c = None -> forall t, mass (G t) = mass (G 0%nat).
Proof using E H Hsz HQ Hm Hb Hi He.
  intros HG C Hr Hs. induction t as [|t IH]; [reflexivity|]. destruct (C91_budget phis G HG C Hr t) as (w & _ & B). rewrite B, IH.
  assert (X : sumL (fluid_cells g Dm) (fun x => half K hdt ds (w x) c - w x c)%K = 0%K); [|rewrite X; ring].
  rewrite <- (sumL_zero K (fluid_cells g Dm)). apply sumL_ext. intros x _. rewrite half_none by exact Hs. ring.
Qed.
End Total.
End Sim.
Print Assumptions C91_determined.
Print Assumptions C91_no_source.
Print Assumptions C91_density.
Print Assumptions C91_momentum.
Print Assumptions C91_gravity.
Print Assumptions C91_friction.
Print Assumptions C91_simulation.
Print Assumptions C91_budget.
Print Assumptions C91_constant_source.
Print Assumptions C91_mass.

(* ------------------------------------------------- examples *)
(* The dictionary of C86 with the source 3 for the density: six cells between two walls, the frame
   moves with rho + 1. *)
Definition P3 : list (term Zring) := [Un zhalf (Bin zadd (Bin zmul X X) X); Num (K := Zring) 1%Z; X].
Definition d7 : sdict Zring :=
  mkSdict Zring [[0]; [1]; [-1]]%Z P3 None
    [Num (K := Zring) 2%Z; Num (K := Zring) 0%Z; Num (K := Zring) 1%Z] [Bin zmul (Var 5) (Var 5); Var 5; Bin zadd (Var 5) (Var 5)] None [5%nat] [(5%nat, Num (K := Zring) 3%Z)].
Definition b7 := build Zring (zinv cands) nosimp (Some l3) 1 1 [d7].
Lemma d7_moment c b i : is_moment Zring nosimp [d7] c b i -> b = 0%nat /\ c = 5%nat /\ i = 1%nat.
Proof.
  intros (d & H1 & H2 & H3 & H4 & _). destruct b as [|[|b]]; try discriminate. injection H1 as <-. split; [reflexivity|].
  destruct H2 as [<-|[]]. destruct i as [|[|[|i]]]; cbn in H4, H3; try discriminate; [now split|lia].
Qed.
Lemma d7_is : is_moment Zring nosimp [d7] 5 0 1.
Proof. exists d7. repeat split; [cbn; tauto|cbn; lia|]. intros j Hj. destruct j as [|[|j]]; try discriminate; lia. Qed.
Lemma d7_ok : dict_ok Zring nosimp [d7].
Proof.
  constructor; unfold BuildProofs.closed, conserved; cbn [map concat sd_cons d7 app].
  - constructor; [|constructor]. repeat split.
  - intros d N [<-|[]] _. reflexivity.
  - repeat constructor. intros [].
  - intros d t [<-|[]] Ht c Hc. cbn in Ht. destruct Ht as [<-|[<-|[<-|[]]]]; cbn in Hc; cbn; tauto.
  - intros d t [<-|[]] Ht c Hc. cbn in Ht. destruct Ht as [<-|[<-|[<-|[]]]]; destruct Hc.
  - intros d c g [<-|[]] [Eg|[]] x Hx. injection Eg as <- <-. destruct Hx.
Qed.
Lemma d7_ordered : ordered Zring nosimp [d7].
Proof. intros r c b i Hr Hm. apply d7_moment in Hm as (-> & -> & ->). unfold conserved in Hr. cbn in Hr. destruct r as [|[|r]]; try discriminate. cbn. lia. Qed.
Lemma below7 d t : In d [d7] -> In t (sd_P Zring d) -> below Zring 1 t.
Proof. intros [<-|[]] Ht. cbn in Ht. destruct Ht as [<-|[<-|[<-|[]]]]; intros c Hc; cbn in Hc; lia. Qed.
Lemma dict7 a : b7 = Some a -> moving_dict Zring (zinv cands) nosimp l3 1 1 [d7] a.
Proof.
  intros Ea. split; try exact Ea.
  - apply zinv_ok.
  - exact fsimp.
  - exact d7_ok.
  - exact d7_ordered.
  - intros [|[|j]] c Hc; cbn in Hc |- *; tauto.
  - exact below7.
  - intros d x [<-|[]] [<-|[<-|[<-|[]]]]; reflexivity.
  - intros d [<-|[]]; reflexivity.
  - intros d [<-|[]]. exact (d4_closed None).
  - intros c b i d Hm Hd w. apply d7_moment in Hm as (-> & -> & ->). injection Hd as <-. reflexivity.
Qed.
Lemma density7 : invariant Zring d7 1.
Proof. intros x u. reflexivity. Qed.
Lemma even7 : even_moment [0; 2; 1] Zring [d7] 0 1.
Proof. intros d j j' Hd _ _ _. injection Hd as <-. reflexivity. Qed.
Lemma data7 : data_ok Zring [d7] [(ISym 5, ifun)].
Proof. split; [intros p x y [<-|[]] H; now apply ifun_regular|]. intros p [<-|[]]. exists 0%nat. split; [cbn; lia|reflexivity]. Qed.
(* the density of the fluid cells *)
Notation mass7 G := (sumL (K := Zring) (fluid_cells v3line D3) (fun x => mom Zring [d7] (G (wrapg v3line x)) 0 1)).
(* The source 3 should give dt * 3 = 6 per cell and step.  The simulation without relative velocity
   gives 36 per step to the six cells, the one with the relative velocity 18. *)
Theorem C91_source_refuted : exists a a' G G', b7 = Some a /\ build Zring (zinv cands) nosimp None 1 1 [d7] = Some a' /\
  BuildProofs.source Zring [d7] 5 = Some (Num (K := Zring) 3) /\
  moving_simulates st3 [0; 2; 1] v3line [] [] bb Zring (fun _ => 0) (zinv cands) nosimp l3 [d7] a [(ISym 5, ifun)] wphi G /\
  simulates st3 [0; 2; 1] v3line [] [] bb Zring (fun _ => 0) (zinv cands) nosimp [d7] a' [(ISym 5, ifun)] wphi G' /\
  (forall x, cell_in v3line x -> agree Zring 3 (G 0%nat x) (G' 0%nat x)) /\
  mass7 (G 1%nat) = mass7 (G 0%nat) + 18 /\ mass7 (G' 1%nat) = mass7 (G' 0%nat) + 36.
Proof.
  destruct (built_ex b7) as [a Ea]; [vm_compute; reflexivity|]. destruct (fixed_build Zring (zinv cands) nosimp l3 1 1 [d7] a (dict7 a Ea)) as [a' Ea'].
  destruct (C91_simulation 1 [[0; 1; 2]] st3 [0; 2; 1] v3line [] [] bb D3 ms3 serial3 Zring (fun _ => 0) (zinv cands) nosimp l3 1 1 [d7] a (dict7 a Ea) eq_refl quiet3 [(ISym 5, ifun)] wphi data7 wphi_ok) as (G & I0 & HG & SG).
  destruct (flow 1 [[0; 1; 2]] st3 [0; 2; 1] v3line [] [] bb D3 ms3 serial3 Zring (fun _ => 0) (zinv cands) nosimp 1 1 [d7] a' (zinv_ok cands) fsimp d7_ok d7_ordered Ea' below7 eq_refl quiet3 [(ISym 5, ifun)] wphi data7 wphi_ok) as (G' & I0' & HG' & SG').
  assert (Hr : forall t, at_rest (K := Zring) [0; 2; 1] (SchemeModel.total (sizes Zring [d7])) (wphi t)) by (intros t lab x k Hk; reflexivity).
  pose proof (C91_constant_source 1 [[0; 1; 2]] st3 [0; 2; 1] v3line [] [] bb D3 ms3 serial3 Zring (fun _ => 0) (zinv cands) nosimp l3 1 1 [d7] a (dict7 a Ea) eq_refl quiet3
    5 0 1 d7 d7_is eq_refl density7 even7 wphi G 3 HG (or_introl vessel3) Hr eq_refl 1%nat) as M.
  pose proof (C75_constant_source 1 [[0; 1; 2]] st3 [0; 2; 1] v3line [] [] bb D3 ms3 serial3 Zring (fun _ => 0) (zinv cands) nosimp 1 1 [d7] a' (zinv_ok cands) fsimp d7_ok d7_ordered Ea' eq_refl quiet3
    5 0 1 d7_is even7 wphi G' 3 HG' (or_introl vessel3) Hr eq_refl 1%nat) as M'.
  exists a, a', G, G'. split; [exact Ea|]. split; [exact Ea'|]. split; [reflexivity|]. split; [exact SG|]. split; [exact SG'|]. split; [|split].
  - intros x Hx. exact (C68_determined Zring nosimp [d7] (zinv cands) None 1 1 a' (zinv_ok cands) d7_ok d7_ordered Ea' [(ISym 5, ifun)] _ _ _ (I0 x) (I0' x Hx)).
  - rewrite M. apply (f_equal (Z.add (mass7 (G 0%nat)))). vm_compute. reflexivity.
  - rewrite M'. apply (f_equal (Z.add (mass7 (G' 0%nat)))). vm_compute. reflexivity.
Qed.
Print Assumptions C91_source_refuted.

(* The density 5 and the momentum 6 are conserved, the frame moves with the fluid (q / rho), and the
   source of the momentum is the friction - q. *)
Definition zdivt : Zring -> Zring -> Zring := Z.div.
Definition zneg : Zring -> Zring := Z.opp.
Definition d8 (src : term Zring) : sdict Zring :=
  mkSdict Zring [[0]; [1]; [-1]]%Z P3 None
    [Num (K := Zring) 1%Z; Num (K := Zring) 0%Z; Num (K := Zring) 0%Z] [Bin zmul (Var 5) (Var 6); Var 5; Var 6] None [5%nat; 6%nat] [(6%nat, src)].
Definition l8 : list (term Zring) := [Bin zdivt (Var 6) (Var 5)].
Definition b8 src := build Zring (zinv cands) nosimp (Some l8) 1 1 [d8 src].
Definition friction : term Zring := Un zneg (Var 6).
Definition gravity : term Zring := Bin zmul (Num (K := Zring) 4%Z) (Var 5).
Lemma d8_moment src c b i : is_moment Zring nosimp [d8 src] c b i -> b = 0%nat /\ ((c = 5%nat /\ i = 1%nat) \/ (c = 6%nat /\ i = 2%nat)).
Proof.
  intros (d & H1 & H2 & H3 & H4 & _). destruct b as [|[|b]]; try discriminate. injection H1 as <-. split; [reflexivity|].
  destruct H2 as [<-|[<-|[]]]; destruct i as [|[|[|i]]]; cbn in H4, H3; try discriminate; try lia; auto.
Qed.
Lemma d8_rho src : is_moment Zring nosimp [d8 src] 5 0 1.
Proof. exists (d8 src). repeat split; [cbn; tauto|cbn; lia|]. intros j Hj. destruct j as [|[|[|j]]]; try discriminate; lia. Qed.
Lemma d8_q src : is_moment Zring nosimp [d8 src] 6 0 2.
Proof. exists (d8 src). repeat split; [cbn; tauto|cbn; lia|]. intros j Hj. destruct j as [|[|[|j]]]; try discriminate; lia. Qed.
Lemma dict8 src a : (forall x, In x (vars Zring src) -> x = 5%nat \/ x = 6%nat) -> b8 src = Some a -> moving_dict Zring (zinv cands) nosimp l8 1 1 [d8 src] a.
Proof.
  intros Hs Ea. split; try exact Ea.
  - apply zinv_ok.
  - exact fsimp.
  - constructor; unfold BuildProofs.closed, conserved; cbn [map concat sd_cons d8 app].
    + constructor; [|constructor]. repeat split.
    + intros d N [<-|[]] _. reflexivity.
    + repeat constructor; cbn; intuition discriminate.
    + intros d t [<-|[]] Ht c Hc. cbn in Ht. destruct Ht as [<-|[<-|[<-|[]]]]; cbn in Hc; cbn; tauto.
    + intros d t [<-|[]] Ht c Hc. cbn in Ht. destruct Ht as [<-|[<-|[<-|[]]]]; destruct Hc.
    + intros d c g [<-|[]] [Eg|[]] x Hx. injection Eg as <- <-. destruct (Hs x Hx) as [-> | ->]; cbn; tauto.
  - intros r c b i Hr Hm. apply d8_moment in Hm as (-> & [(-> & ->)|(-> & ->)]); unfold conserved in Hr; cbn in Hr; destruct r as [|[|[|r]]]; try discriminate; cbn; lia.
  - intros [|[|j]] c Hc; cbn in Hc |- *; tauto.
  - intros d t [<-|[]] Ht. cbn in Ht. destruct Ht as [<-|[<-|[<-|[]]]]; intros c Hc; cbn in Hc; lia.
  - intros d x [<-|[]] [<-|[<-|[<-|[]]]]; reflexivity.
  - intros d [<-|[]]; reflexivity.
  - intros d [<-|[]]. exact (d4_closed None).
  - intros c b i d Hm Hd w. apply d8_moment in Hm as (-> & [(-> & ->)|(-> & ->)]); injection Hd as <-; reflexivity.
Qed.
Lemma momentum8 src : momentum Zring (d8 src) 2 1 (fun u => u 0%nat).
Proof. split; [intros x u; reflexivity|]. intros x u. change (x 0%nat - u 0%nat = x 0%nat - u 0%nat * 1). lia. Qed.
Lemma only8 src c : c <> 6%nat -> BuildProofs.source Zring [d8 src] c = None.
Proof.
  intros Hc. unfold BuildProofs.source. change (match (if Nat.eqb 6 c then Some (6%nat, src) else None) with Some p => Some (snd p) | None => None end = None).
  destruct (Nat.eqb_spec 6 c) as [Ec|_]; [congruence|reflexivity].
Qed.
(* rho = 4 and q = 4, the frame moves with 1 *)
Definition f8 : vec Zring := fun k => nth k [0; 4; 0] 0.
Definition val8 : vec Zring := fun c => 4.
Lemma values8 src : conserved_values Zring nosimp [d8 src] f8 val8.
Proof. intros c b i Hm. apply d8_moment in Hm as (-> & [(-> & ->)|(-> & ->)]); reflexivity. Qed.
Example C91_gravity_example : exists a, b8 gravity = Some a /\ let f' := pull_fun Zring (algo_of Zring a) f8 in mom Zring [d8 gravity] f8 0 2 = 4 /\ mom Zring [d8 gravity] f' 0 2 = 4 + 1 * (4 * 4).
Proof.
  destruct (built_ex (b8 gravity)) as [a Ea]; [vm_compute; reflexivity|]. exists a. split; [exact Ea|]. cbv zeta. split; [reflexivity|].
  assert (HD : moving_dict Zring (zinv cands) nosimp l8 1 1 [d8 gravity] a) by (apply dict8; [intros x [<-|[]]; now left|exact Ea]).
  exact (C91_gravity Zring (zinv cands) nosimp l8 1 1 [d8 gravity] a HD f8 _ 6 5 0 2 1 (d8 gravity) (fun u => u 0%nat) gravity val8 (pull_pushed Zring (zinv cands) nosimp l8 1 1 [d8 gravity] a HD f8)
    (d8_q _) (d8_rho _) ltac:(discriminate) eq_refl (momentum8 _) eq_refl (only8 _) ltac:(intros x [<-|[]]; reflexivity) (values8 _)).
Qed.
(* The friction has no effect with the relative velocity; without it q = 4 becomes 0. *)
Theorem C91_friction_refuted : exists a a', b8 friction = Some a /\ build Zring (zinv cands) nosimp None 1 1 [d8 friction] = Some a' /\
  BuildProofs.source Zring [d8 friction] 6 = Some friction /\ pushed Zring nosimp l8 1 [d8 friction] f8 (pull_fun Zring (algo_of Zring a) f8) /\
  mom Zring [d8 friction] f8 0 2 = 4 /\ mom Zring [d8 friction] (pull_fun Zring (algo_of Zring a) f8) 0 2 = 4 /\ mom Zring [d8 friction] (pull_fun Zring (algo_of Zring a') f8) 0 2 = 0.
Proof.
  destruct (built_ex (b8 friction)) as [a Ea]; [vm_compute; reflexivity|].
  assert (HD : moving_dict Zring (zinv cands) nosimp l8 1 1 [d8 friction] a) by (apply dict8; [intros x [<-|[]]; now right|exact Ea]).
  destruct (fixed_build Zring (zinv cands) nosimp l8 1 1 [d8 friction] a HD) as [a' Ea']. exists a, a'. split; [exact Ea|]. split; [exact Ea'|]. split; [reflexivity|].
  pose proof (pull_pushed Zring (zinv cands) nosimp l8 1 1 [d8 friction] a HD f8) as HP. split; [exact HP|]. split; [reflexivity|]. split.
  - exact (C91_friction Zring (zinv cands) nosimp l8 1 1 [d8 friction] a HD f8 _ 6 5 0 2 1 (d8 friction) (fun u => u 0%nat) friction val8 HP
      (d8_q _) (d8_rho _) ltac:(discriminate) eq_refl (momentum8 _) eq_refl (only8 _) ltac:(intros w Hw; cbn; unfold zneg; rewrite Hw; reflexivity) (values8 _) eq_refl).
  - assert (X : match build Zring (zinv cands) nosimp None 1 1 [d8 friction] with Some a => mom Zring [d8 friction] (pull_fun Zring (algo_of Zring a) f8) 0 2 = 0 | None => False end) by (vm_compute; reflexivity).
    now rewrite Ea' in X.
Qed.
Print Assumptions C91_friction_refuted.
