(* C87, C88: bounds for whole simulations. With one parameter between 0 and 1 a convex set of states
   which contains its equilibria is never left; schemes with one conserved moment and increasing
   equilibria have a maximum principle, keep the order of two states and contract the distance of
   two states; schemes whose equilibrium is an orthogonal projection do not increase the energy. *)
From Coq Require Import QArith Qcanon Lqa.
From Verif Require Import PyBase VelocityModel VelocityProofs Velocity3Proofs StencilModel StencilProofs GridModel GridProofs StorageModel
  ExchangeProofs StorageProps LinAlg AlgoModel AlgoProofs RelVelProofs KernelProofs GlobalModel GlobalProofs TorusProofs AlgoProps GlobalProps
  GenModel GenProofs GenProps StepGenModel StepGenProofs StepGenProps SchemeModel SchemeProofs SchemeProps BuildModel BuildProofs BuildProps BuildFrame
  DomainModel DomainProofs DomainProps BoundaryModel BoundaryProofs BoundaryProps BoundaryUpdProps VesselProofs VesselProps ChannelProps
  ParallelModel ParallelProofs ObstacleProofs ParallelProps ObstacleProps ParallelMassProps WholeModel WholeProps InitGenModel InitGenProps DuctProps FlowProofs FlowProps MovingProps.
Require Import Lia.
Open Scope Z_scope.

(* ------------------------------------------------- inequalities of rational numbers *)
Ltac qc_terms := cbn [rcar rar QcR radd rmul rsub ropp r0 r1] in *.
Ltac qc_q := unfold Qcle, Qclt, Qcminus, Qcopp, Qcplus, Qcmult, Q2Qc in *; cbn [this] in *; repeat (rewrite Qred_correct in * ).
Lemma qle_mul (a x y : Qc) : (0 <= a -> x <= y -> a * x <= a * y)%Qc.
Proof. intros H1 H2. qc_q. nra. Qed.
Lemma qle_add (a b x y : Qc) : (a <= b -> x <= y -> a + x <= b + y)%Qc.
Proof. intros H1 H2. qc_q. lra. Qed.
Lemma qmix_le (s x y x' y' : Qc) : (0 <= s -> s <= 1 -> x <= x' -> y <= y' -> (1 - s) * x + s * y <= (1 - s) * x' + s * y')%Qc.
Proof. intros H1 H2 H3 H4. apply qle_add; apply qle_mul; try assumption. qc_q. lra. Qed.
Lemma qc_one_minus (s : Qc) : (0 <= s -> s <= 1 -> 0 <= 1 - s /\ 1 - s <= 1)%Qc.
Proof. intros H1 H2. split; qc_q; lra. Qed.
Lemma sumL_le {A} (l : list A) (f g : A -> QcR) : (forall x, In x l -> (f x <= g x)%Qc) -> (sumL l f <= sumL l g)%Qc.
Proof.
  induction l as [|x l IH]; intros H; [apply Qcle_refl|]. change ((f x + sumL l f <= g x + sumL l g)%Qc).
  apply qle_add; [apply H; now left|apply IH; intros y Hy; apply H; now right].
Qed.
Lemma sum_le n (f g : vec QcR) : (forall k, (k < n)%nat -> (f k <= g k)%Qc) -> (sum n f <= sum n g)%Qc.
Proof. intros H. apply sumL_le. intros k Hk. apply H. apply in_seq in Hk. lia. Qed.
(* the weight of the Bouzidi conditions is between 0 and 1 *)
Lemma bz_s_range d : (0 <= d)%Q -> (0 <= Q2Qc (bz_s d) /\ Q2Qc (bz_s d) <= 1)%Qc.
Proof.
  intros H. unfold bz_s. destruct (Qltb d (1 # 2)) eqn:E.
  - apply Qltb_true in E. split; qc_q; lra.
  - assert (L : (1 # 2 <= d)%Q) by (apply Qnot_lt_le; intros C; apply Qltb_true in C; congruence).
    assert (P : (0 < d)%Q) by lra. split; qc_q.
    + apply Qle_shift_div_l; lra.
    + apply Qle_shift_div_r; lra.
Qed.

Section Bounds.
Variables (dimz : Z) (schemes : list (list Z)) (st : stencil) (r : list Z) (g : grid) (es : list DomainModel.elem) (labs : list Z) (conds : Z -> list (nat * method)).
Variables (Dm : dom) (ms : list (method * list blink)).
Hypothesis E : serial dimz schemes st r g es labs conds Dm ms.
Notation K := QcR.
Notation qk := Q2Qc.
Add Ring Kring : (rth K).
Variable inv : nat -> mat K -> option (mat K).
Variable simp : term K -> term K.
Variables (dm : nat) (hdt : K) (ds : list (sdict K)) (a : salgo K).
Hypothesis HI : inv_spec K inv.
Hypothesis HSi : simp_spec K simp.
Hypothesis D : dict_ok K simp ds.
Hypothesis O : ordered K simp ds.
Hypothesis EB : build K inv simp None dm hdt ds = Some a.
Hypothesis HPl : forall d t, In d ds -> In t (sd_P K d) -> below K dm t.
Hypothesis Hsz : map (nv K) ds = map (@length Z) schemes.
Hypothesis HQ : quiet st r g ms.
Hypothesis Hsrc : forall d, In d ds -> sd_src K d = [].
Notation n := (SchemeModel.total (sizes K ds)).
Notation data := (list (ikey * (list Q -> K))).
Notation walls := (nat -> Z -> list Q -> nat -> K).
Notation arrive := (arrives st r g ms K qk).
Notation bval phi := (bvalue K qk g (velk st) (symk r) (feq_of st phi g)).
Notation hist := (history st r g ms K qk simp hdt ds).
Notation step f f' := (collided K simp hdt ds f f').
Notation at_cell x := (point g (cell_of g x)).

(* ---- the collision with one parameter ---- *)
(* e is the equilibrium of f *)
Definition equilibrium_of (f e : vec K) : Prop := forall val, conserved_values K simp ds f val ->
  forall b d i, nth_error ds b = Some d -> (i < nv K d)%nat -> mom K ds e b i = eqv K d i val.
(* all the moments which are not conserved have the parameter s *)
Definition one_parameter (s : vec K -> K) : Prop := forall val b i d, nth_error ds b = Some d -> (i < nv K d)%nat -> (forall c, ~ is_moment K simp ds c b i) ->
  teval K val (nth i (sd_s K d) (Num 0%K)) = s val.
Lemma matrices : exists M N, inverse n M N /\ forall f b d i, nth_error ds b = Some d -> (i < nv K d)%nat -> mvmul n M f (off K ds b + i)%nat = mom K ds f b i.
Proof using HI D EB.
  destruct (build_built K simp inv hdt None dm ds a HI D EB) as (M & N & sg & B). exists M, N.
  split; [exact (bu_inverse _ _ _ _ _ _ _ _ _ _ _ B)|exact (bu_moments _ _ _ _ _ _ _ _ _ _ _ B)].
Qed.
Lemma moments_inj f f' : (forall b d i, nth_error ds b = Some d -> (i < nv K d)%nat -> mom K ds f b i = mom K ds f' b i) -> agree K n f f'.
Proof using HI D EB.
  intros A. destruct matrices as (M & N & [I1 I2] & HM). intros k Hk. rewrite <- (mvmul_inverse K n _ _ f k I2 Hk), <- (mvmul_inverse K n _ _ f' k I2 Hk).
  apply mvmul_ext. intros j Hj. destruct (off_ex K ds j Hj) as (b & d & i & H1 & H3 & ->). rewrite !(HM _ b d i H1 H3). now apply (A b d).
Qed.
Lemma with_moments (m : nat -> nat -> K) : exists f : vec K, forall b d i, nth_error ds b = Some d -> (i < nv K d)%nat -> mom K ds f b i = m b i.
Proof using HI D EB.
  destruct matrices as (M & N & [I1 I2] & HM).
  assert (X : exists v : vec K, forall b d i, nth_error ds b = Some d -> (i < nv K d)%nat -> v (off K ds b + i)%nat = m b i).
  { clear. revert m. induction ds as [|d0 t IH]; intros m.
    - exists (fun _ => 0%K). intros [|b] d i Hb; discriminate.
    - destruct (IH (fun b => m (S b))) as [v Hv]. exists (fun k => if (k <? nv K d0)%nat then m 0%nat k else v (k - nv K d0)%nat). intros [|b] d i Hb Hi; cbn in Hb.
      + injection Hb as <-. change (off K (d0 :: t) 0 + i)%nat with i. apply Nat.ltb_lt in Hi. now rewrite Hi.
      + rewrite <- (Hv b d i Hb Hi). replace (off K (d0 :: t) (S b) + i)%nat with (nv K d0 + (off K t b + i))%nat by (unfold off; cbn; lia).
        destruct (Nat.ltb_spec (nv K d0 + (off K t b + i)) (nv K d0)) as [L|L]; [exfalso; clear - L; lia|]. f_equal. lia. }
  destruct X as [v Hv]. exists (mvmul n N v). intros b d i Hb Hi. rewrite <- (HM _ b d i Hb Hi), <- (Hv b d i Hb Hi). apply mvmul_inverse; [exact I1|]. now apply (off_total K ds b d i).
Qed.
Lemma equilibrium_ex f : exists e, equilibrium_of f e.
Proof using HI D EB HSi O.
  destruct (values_ex K simp hdt ds D O inv None dm a HI EB f) as [val HV].
  destruct (with_moments (fun b i => match nth_error ds b with Some d => eqv K d i val | None => 0%K end)) as [e He]. exists e. intros val' HV' b d i Hb Hi.
  rewrite (He b d i Hb Hi), Hb. apply (closed_eqv K simp ds HSi D d i _ _ (nth_error_In _ _ Hb) Hi). exact (values_same K simp hdt ds D inv None dm a HI EB f _ _ HV HV').
Qed.
Lemma equilibrium_conserved f e c b i : equilibrium_of f e -> is_moment K simp ds c b i -> mom K ds e b i = mom K ds f b i.
Proof using HI D EB HSi O.
  intros He Hm. destruct (values_ex K simp hdt ds D O inv None dm a HI EB f) as [val HV]. pose proof Hm as (d & Hb & Hc & Hi & Hq & _).
  rewrite (He val HV b d i Hb Hi), <- (HV c b i Hm), <- (eqs_eval K simp d i val HSi Hi), Hq. reflexivity.
Qed.
Lemma no_half val c : half K hdt ds val c = val c.
Proof using Hsrc.
  apply half_none. unfold BuildProofs.source. replace (concat (map (sd_src K) ds)) with (@nil (nat * term K)); [reflexivity|].
  clear - Hsrc. induction ds as [|d t IH]; [reflexivity|]. cbn. rewrite (Hsrc d) by now left. apply IH. intros d' Hd. apply Hsrc. now right.
Qed.
(* what a collision does to each moment *)
Lemma step_moments f f' val e : conserved_values K simp ds f val -> equilibrium_of f e -> step f f' ->
  (forall c b i, is_moment K simp ds c b i -> mom K ds f' b i = mom K ds f b i) /\
  forall b i d, nth_error ds b = Some d -> (i < nv K d)%nat -> (forall c, ~ is_moment K simp ds c b i) ->
    let s := teval K val (nth i (sd_s K d) (Num 0%K)) in mom K ds f' b i = ((1 - s) * mom K ds f b i + s * mom K ds e b i)%K.
Proof using D HSi Hsrc.
  intros HV He Hf. destruct (Hf val HV) as [F1 F2]. assert (S1 : same_on K ds (half K hdt ds val) val) by (intros c _; apply no_half). split.
  - intros c b i Hm. rewrite (F1 c b i Hm), !no_half. now apply HV.
  - intros b i d Hb Hi Hn s. rewrite (F2 b i d Hb Hi Hn). cbv zeta. rewrite (closed_rate K simp ds D d i _ _ (nth_error_In _ _ Hb) S1), (closed_eqv K simp ds HSi D d i _ _ (nth_error_In _ _ Hb) Hi S1).
    fold s. now rewrite (He val HV b d i Hb Hi).
Qed.
Lemma step_mix s f f' val e : one_parameter s -> conserved_values K simp ds f val -> equilibrium_of f e -> step f f' ->
  forall k, (k < n)%nat -> f' k = ((1 - s val) * f k + s val * e k)%K.
Proof using HI D EB HSi O Hsrc.
  intros Hs HV He Hf. destruct (step_moments f f' val e HV He Hf) as [F1 F2].
  apply (moments_inj f' (comb K (1 - s val)%K (s val) f e)). intros b d i Hb Hi. rewrite mom_comb.
  destruct (moment_dec K simp ds b i) as [[c Hm]|Hn].
  - rewrite (F1 c b i Hm), (equilibrium_conserved f e c b i He Hm). ring.
  - rewrite (F2 b i d Hb Hi Hn). cbv zeta. now rewrite (Hs val b i d Hb Hi Hn).
Qed.

(* --------------------------------------------------------------- C87 ----- *)
Section Sets.
Variable B : nat -> K -> Prop.
Definition convex_sets : Prop := forall k (p x y : K), (0 <= p)%Qc -> (p <= 1)%Qc -> B k x -> B k y -> B k (p * x + (1 - p) * y)%K.
Definition inside (f : vec K) : Prop := forall k, (k < n)%nat -> B k (f k).
(* The condition m at the link b gives a value of the set of its velocity: bounce back and Bouzidi
   bounce back with walls at rest if the sets of opposite velocities are the same, Neumann always. *)
Definition wall_inside (phi : Z -> list Q -> nat -> K) (m : method) (b : blink) : Prop :=
  let k := b_k b in let k' := symk r k in let w := feq_of st phi g b in
  match m with
  | MBounceBack => w k = w k' /\ (forall v, B k' v -> B k v)
  | MBouzidi => w k = w k' /\ (forall v, B k' v -> B k v) /\ (0 <= b_dist b)%Q
  | MAnti | MBouzidiAnti => False
  | _ => True
  end.
Lemma arrive_inside phi G x f : convex_sets -> (forall m b, has ms m b -> (b_k b < n)%nat -> wall_inside phi m b) ->
  (forall y, cell_in g y -> inside (G y)) -> (forall j, (j < n)%nat -> arrive phi G x j (f j)) -> inside f.
Proof using E Hsz.
  intros HC HW HG HA k Hk. assert (A : forall j y, (j < n)%nat -> B j (gfield g K G j y)).
  { intros j y Hj. apply HG; [|exact Hj]. eapply wrapg_in; exact E. }
  destruct (HA k Hk) as [(m & b & H1 & H2 & H3 & ->)|[_ ->]].
  - subst k. specialize (HW m b H1 Hk). assert (Hk' : (symk r (b_k b) < n)%nat) by (eapply sym_lt; eassumption).
    unfold wall_inside in HW. unfold bvalue, at_. destruct m; cbn [rhs iload0 fst snd]; try contradiction; try (now apply A).
    + destruct HW as [W1 W2]. rewrite W1. match goal with |- B _ (?v + (?x - ?x))%K => replace (v + (x - x))%K with v by ring end. apply W2. now apply A.
    + destruct HW as (W1 & W2 & W3). rewrite W1. match goal with |- B _ (?v + (?x - ?x))%K => replace (v + (x - x))%K with v by ring end.
      destruct (bz_s_range _ W3) as [R1 R2]. apply HC; try assumption; [apply W2; now apply A|]. unfold iload1. destruct (near b); cbn [fst snd]; [apply W2|]; now apply A.
  - apply HG; [|exact Hk]. eapply wrapg_in; exact E.
Qed.
(* A set of states which the collision does not leave. *)
Theorem C87_invariant phis G : hist phis G -> convex_sets -> (forall f f', inside f -> step f f' -> inside f') ->
  (forall t m b, has ms m b -> (b_k b < n)%nat -> wall_inside (phis t) m b) ->
  (forall x, cell_in g x -> inside (G 0%nat x)) -> forall t x, cell_in g x -> inside (G t x).
Proof using E Hsz.
  intros H HC HS HW H0. induction t as [|t IH]; intros x Hx; [now apply H0|]. destruct (H t x) as (f & F1 & F2). apply (HS f); [|exact F2].
  eapply arrive_inside; [exact HC|apply HW|exact IH|exact F1].
Qed.
(* One parameter between 0 and 1: it is enough that the equilibria of the states of the set are in the set. *)
Theorem C87_convex s : convex_sets -> one_parameter s ->
  (forall f val, inside f -> conserved_values K simp ds f val -> (0 <= s val)%Qc /\ (s val <= 1)%Qc) ->
  (forall f e, inside f -> equilibrium_of f e -> inside e) -> forall f f', inside f -> step f f' -> inside f'.
Proof using HI D EB HSi O Hsrc.
  intros HC Hs Hr He f f' Hf Hst k Hk. destruct (values_ex K simp hdt ds D O inv None dm a HI EB f) as [val HV]. destruct (equilibrium_ex f) as [e Ee].
  rewrite (step_mix s f f' val e Hs HV Ee Hst k Hk). destruct (Hr f val Hf HV) as [R1 R2]. destruct (qc_one_minus _ R1 R2) as [R3 R4].
  replace (s val) with (1 - (1 - s val))%K at 2 by ring. apply HC; try assumption; [now apply Hf|now apply (He f e)].
Qed.
(* On the arrays of the processes. *)
Theorem C87_simulation dat phis s : data_ok K ds dat -> walls_ok K phis -> convex_sets -> one_parameter s ->
  (forall f val, inside f -> conserved_values K simp ds f val -> (0 <= s val)%Qc /\ (s val <= 1)%Qc) ->
  (forall f e, inside f -> equilibrium_of f e -> inside e) ->
  (forall t m b, has ms m b -> (b_k b < n)%nat -> wall_inside (phis t) m b) ->
  (forall x f, cell_in g x -> initial_state K simp ds dat (at_cell x) f -> inside f) ->
  forall ps Ds mss pos, parallel st g es labs conds ps Ds mss -> Forall (fun x => forall c, (c < ax_p x)%nat -> ax_lo x c < ax_hi x c) (proc_axes g ps) -> (pos <= dim g)%nat ->
  let begin be := start K a pos (scheme_consm K inv simp ds) be true g ps (Some dat) in
  forall c i, coords_ok (proc_axes g ps) c -> inner (proc_axes g ps) c i ->
  (forall L0 t, inside (fst (cy_run st r g K qk a pos ps mss phis L0 t (begin Cython)) c i)) /\
  ((forall d t, In d ds -> In t (sd_s K d) -> vars K t = []) -> forall t, inside (fst (np_run st r g K qk a pos ps mss phis t (begin Numpy)) c i)).
Proof using E HI HSi D O EB HPl Hsz HQ Hsrc.
  intros Hl Hphis HC Hs Hr He HW Hi ps Ds mss pos HP NE Hpos begin c i Hc Hin.
  destruct (flow dimz schemes st r g es labs conds Dm ms E K qk inv simp dm hdt ds a HI HSi D O EB HPl Hsz HQ dat phis Hl Hphis) as (G & G0 & GH & GS).
  assert (A : forall t x, cell_in g x -> inside (G t x)).
  { apply (C87_invariant phis G GH HC); [now apply (C87_convex s)|exact HW|]. intros x Hx. apply (Hi x); [exact Hx|now apply G0]. }
  assert (X : forall t F, holds K (proc_axes g ps) n F (G t) -> inside (F c i)).
  { intros t F HF k Hk. rewrite (HF c i Hc Hin k Hk). apply A; [|exact Hk]. eapply glob_in; eassumption. }
  destruct (GS ps Ds mss pos HP NE Hpos) as [R1 R2]. split.
  - intros L0 t. apply (X t). apply R1.
  - intros Hn t. apply (X t). now apply R2.
Qed.
End Sets.

(* Bounce back at rest: what arrives at the fluid cells is a rearrangement of the values of the fluid cells. *)
Lemma closed_source phi : closed_domain dimz schemes st r g es labs conds Dm ms -> at_rest r n phi -> exists source : nat -> cell -> option cell,
  (forall k x y, (k < n)%nat -> In x (fluid_cells g Dm) -> source k x = Some y -> In y (fluid_cells g Dm) /\ source (symk r k) y = Some x) /\
  (forall k, (k < n)%nat -> (symk r k < n)%nat /\ symk r (symk r k) = k) /\
  forall G k x, (k < n)%nat -> In x (fluid_cells g Dm) ->
  boundary_condition K qk g (velk st) (symk r) (feq_of st phi g) Cython ms (gfield g K G) k (before st g k x) =
  match source k x with Some y => G (wrapg g y) k | None => G (wrapg g x) (symk r k) end.
Proof using E HI D EB Hsz.
  intros C Hphi. pose proof (whole_na schemes K inv simp dm hdt ds a HI D EB Hsz) as N1. rewrite (whole_size K inv simp dm hdt ds a HI D EB) in N1.
  rewrite N1 in *. destruct C as [C|C].
  - exists (VesselProps.src st g Dm). split; [intros k x y; now apply (src_ok _ _ _ _ _ _ _ _ _ _ C)|]. split.
    + intros k Hk. destruct (VesselProofs.sym_facts dimz schemes st r g Dm conds (labels_of g labs) ms (v_set _ _ _ _ _ _ _ _ _ _ C) (v_nodup _ _ _ _ _ _ _ _ _ _ C) k Hk) as (A & B & _). auto.
    + intros G k x Hk Hx. rewrite (transport_walls _ _ _ _ _ _ _ _ _ _ C K qk (feq_of st phi g) ltac:(intros b j Hj; apply Hphi; exact Hj)) by assumption. reflexivity.
  - exists (dsource st g Dm). split; [intros k x y; now apply (dsource_ok _ _ _ _ _ _ _ _ _ _ C)|]. split.
    + intros k Hk. destruct (VesselProofs.sym_facts dimz schemes st r g Dm conds (labels_of g labs) ms (u_set _ _ _ _ _ _ _ _ _ _ C) (u_nodup _ _ _ _ _ _ _ _ _ _ C) k Hk) as (A & B & _). auto.
    + intros G k x Hk Hx. rewrite (duct_transport _ _ _ _ _ _ _ _ _ _ C K qk (feq_of st phi g) ltac:(intros b j Hj; apply Hphi; exact Hj) Cython (gfield g K G) (fun y => G (wrapg g y))
        ltac:(intros j c _; unfold gfield; now rewrite wrapg_wrap by apply (u_grid _ _ _ _ _ _ _ _ _ _ C))) by assumption. reflexivity.
Qed.
Lemma rearranged phi G G' : closed_domain dimz schemes st r g es labs conds Dm ms -> at_rest r n phi -> exists f f' : cell -> vec K,
  (forall x j, In x (fluid_cells g Dm) -> (j < n)%nat -> arrive phi G (wrapg g x) j (f x j)) /\
  (forall x j, In x (fluid_cells g Dm) -> (j < n)%nat -> arrive phi G' (wrapg g x) j (f' x j)) /\
  forall (h : K -> K -> K) (w : nat -> K), (forall k, (k < n)%nat -> w (symk r k) = w k) ->
  sumL (fluid_cells g Dm) (fun x => sum n (fun k => (w k * h (f x k) (f' x k))%K)) = sumL (fluid_cells g Dm) (fun x => sum n (fun k => (w k * h (G (wrapg g x) k) (G' (wrapg g x) k))%K)).
Proof using E HI D EB Hsz HQ.
  intros C Hphi. destruct (closed_source phi C Hphi) as (source & S1 & S2 & S3).
  set (bc := fun G x k => boundary_condition K qk g (velk st) (symk r) (feq_of st phi g) Cython ms (gfield g K G) k (before st g k x)).
  exists (bc G), (bc G').
  assert (A : forall G x j, In x (fluid_cells g Dm) -> arrive phi G (wrapg g x) j (bc G x j)).
  { intros H x j Hx. destruct (fluid_inside dimz schemes st r g es labs conds Dm ms E x Hx) as (Lx & _ & Hint). unfold bc. rewrite <- (cell_wrapg g x Lx Hint) at 2.
    apply (arrives_bc dimz schemes st r g es labs conds Dm ms E HQ). }
  split; [intros; now apply A|]. split; [intros; now apply A|]. intros h w Hw.
  apply (reflect_sum cell (fluid_cells g Dm) n (symk r) source) with (F := fun k x => h (G (wrapg g x) k) (G' (wrapg g x) k)) (F' := fun k x => h (bc G x k) (bc G' x k)).
  - apply NoDup_filter. apply array_cells_NoDup.
  - exact S2.
  - exact S1.
  - exact Hw.
  - intros k x Hk Hx. unfold bc. rewrite !S3 by assumption. destruct (source k x); reflexivity.
Qed.

(* ---- one conserved moment, increasing equilibria ---- *)
(* c is the only conserved moment, the sum of all the distributions; W k u is the equilibrium of the
   distribution k if c = u, increasing with u. *)
Record scalar (W : nat -> K -> K) (c b i : nat) : Prop := {
  sc_is : is_moment K simp ds c b i;
  sc_rank : nth_error (conserved K ds) 0 = Some c;
  sc_only : forall c' b' i', is_moment K simp ds c' b' i' -> c' = c /\ b' = b /\ i' = i;
  sc_sum : forall f, mom K ds f b i = sum n f;
  sc_eq : forall val b' d i', nth_error ds b' = Some d -> (i' < nv K d)%nat -> mom K ds (fun k => W k (val c)) b' i' = eqv K d i' val;
  sc_mono : forall k x y, (k < n)%nat -> (x <= y)%Qc -> (W k x <= W k y)%Qc
}.
Section Scalar.
Variables (W : nat -> K -> K) (c b i : nat).
Hypothesis HW : scalar W c b i.
Lemma scalar_values f : conserved_values K simp ds f (fun _ => sum n f).
Proof using HW. intros c' b' i' Hm. destruct (sc_only _ _ _ _ HW c' b' i' Hm) as (-> & -> & ->). symmetry. apply (sc_sum _ _ _ _ HW). Qed.
Lemma scalar_equilibrium f : equilibrium_of f (fun k => W k (sum n f)).
Proof using HW HI D EB HSi.
  intros val HV b' d i' Hb Hi. rewrite <- (sc_eq _ _ _ _ HW val b' d i' Hb Hi).
  assert (X : val c = sum n f); [|now rewrite X]. rewrite (HV c b i (sc_is _ _ _ _ HW)). apply (sc_sum _ _ _ _ HW).
Qed.
Lemma scalar_total u : sum n (fun k => W k u) = u.
Proof using HW HI D EB HSi O.
  destruct (sc_is _ _ _ _ HW) as (d & Hb & Hc & Hi & Hq & _). rewrite <- (sc_sum _ _ _ _ HW). rewrite (sc_eq _ _ _ _ HW (fun _ => u) b d i Hb Hi).
  rewrite <- (eqs_eval K simp d i (fun _ => u) HSi Hi), Hq. reflexivity.
Qed.
(* s is a function of the density *)
Lemma scalar_step s f f' : one_parameter s -> step f f' -> forall k, (k < n)%nat ->
  f' k = ((1 - s (fun _ => sum n f)) * f k + s (fun _ => sum n f) * W k (sum n f))%K.
Proof using HW HI D EB HSi O Hsrc. intros Hs Hf. exact (step_mix s f f' _ _ Hs (scalar_values f) (scalar_equilibrium f) Hf). Qed.

(* The values stay between the bounds of the initial values. *)
Definition between (m M : K) (k : nat) (v : K) : Prop := (W k m <= v)%Qc /\ (v <= W k M)%Qc.
Lemma between_convex m M : convex_sets (between m M).
Proof using. 
  intros k p x y P0 P1 [X1 X2] [Y1 Y2]. destruct (qc_one_minus p P0 P1) as [Q0 Q1].
  assert (Z : forall v : K, v = (p * v + (1 - p) * v)%K) by (intros v; ring).
  split; [rewrite (Z (W k m))|rewrite (Z (W k M))]; apply qle_add; apply qle_mul; assumption.
Qed.
Lemma between_sum m M f : inside (between m M) f -> (m <= sum n f)%Qc /\ (sum n f <= M)%Qc.
Proof using HW HI D EB HSi O. intros H. pose proof (scalar_total m) as T1. pose proof (scalar_total M) as T2. split; [rewrite <- T1|rewrite <- T2]; apply sum_le; intros k Hk; apply (H k Hk). Qed.
(* bounce back needs that opposite velocities have the same equilibria at the bounds *)
Definition wall_bounds (m M : K) (phi : Z -> list Q -> nat -> K) (me : method) (bl : blink) : Prop :=
  let k := b_k bl in let k' := symk r k in
  match me with
  | MBounceBack | MBouzidi => feq_of st phi g bl k = feq_of st phi g bl k' /\ W k m = W k' m /\ W k M = W k' M /\ (0 <= b_dist bl)%Q
  | MAnti | MBouzidiAnti => False
  | _ => True
  end.
Lemma wall_between m M phi me bl : wall_bounds m M phi me bl -> wall_inside (between m M) phi me bl.
Proof using.
  unfold wall_bounds, wall_inside, between. destruct me; try exact (fun H => H); intros (H1 & H2 & H3 & H4); rewrite H2, H3; split; [exact H1| |exact H1|split; [|exact H4]]; intros v Hv; exact Hv.
Qed.
Theorem C87_maximum dat phis s m M : data_ok K ds dat -> walls_ok K phis -> one_parameter s ->
  (forall u, (m <= u)%Qc -> (u <= M)%Qc -> (0 <= s (fun _ => u))%Qc /\ (s (fun _ => u) <= 1)%Qc) ->
  (forall val val' : vec K, val c = val' c -> s val = s val') ->
  (forall x v, cell_in g x -> given_value K ds dat 0 (at_cell x) v -> (m <= v)%Qc /\ (v <= M)%Qc) ->
  (forall t me bl, has ms me bl -> (b_k bl < n)%nat -> wall_bounds m M (phis t) me bl) ->
  forall ps Ds mss pos, parallel st g es labs conds ps Ds mss -> Forall (fun x => forall c, (c < ax_p x)%nat -> ax_lo x c < ax_hi x c) (proc_axes g ps) -> (pos <= dim g)%nat ->
  let begin be := start K a pos (scheme_consm K inv simp ds) be true g ps (Some dat) in
  let bounded F := forall c' j, coords_ok (proc_axes g ps) c' -> inner (proc_axes g ps) c' j -> (m <= mom K ds (F c' j) b i)%Qc /\ (mom K ds (F c' j) b i <= M)%Qc in
  (forall L0 t, bounded (fst (cy_run st r g K qk a pos ps mss phis L0 t (begin Cython)))) /\
  ((forall d t, In d ds -> In t (sd_s K d) -> vars K t = []) -> forall t, bounded (fst (np_run st r g K qk a pos ps mss phis t (begin Numpy)))).
Proof using E HI HSi D O EB HPl Hsz HQ Hsrc HW.
  intros Hl Hphis Hs Hr Hsc Hi Hw ps Ds mss pos HP NE Hpos begin bounded.
  pose proof (C87_simulation (between m M) dat phis s Hl Hphis (between_convex m M) Hs) as X.
  assert (X1 : forall f val, inside (between m M) f -> conserved_values K simp ds f val -> (0 <= s val)%Qc /\ (s val <= 1)%Qc).
  { intros f val Hf HV. destruct (between_sum m M f Hf) as [S1 S2]. rewrite (Hsc val (fun _ => sum n f)); [now apply Hr|].
    rewrite (HV c b i (sc_is _ _ _ _ HW)). apply (sc_sum _ _ _ _ HW). }
  assert (X2 : forall f e, inside (between m M) f -> equilibrium_of f e -> inside (between m M) e).
  { intros f e Hf He k Hk. destruct (between_sum m M f Hf) as [S1 S2].
    assert (A : agree K n e (fun k => W k (sum n f))).
    { apply moments_inj. intros b' d i' Hb Hi'. rewrite (He _ (scalar_values f) b' d i' Hb Hi'). symmetry. exact (scalar_equilibrium f _ (scalar_values f) b' d i' Hb Hi'). }
    rewrite (A k Hk). split; now apply (sc_mono _ _ _ _ HW). }
  assert (X4 : forall x f, cell_in g x -> initial_state K simp ds dat (at_cell x) f -> inside (between m M) f).
  { intros x f Hx [I1 I2] k Hk. pose proof (I1 0%nat c b i (sc_rank _ _ _ _ HW) (sc_is _ _ _ _ HW)) as V. destruct (Hi x _ Hx V) as [V1 V2]. rewrite (sc_sum _ _ _ _ HW) in V1, V2.
    assert (A : agree K n f (fun k => W k (sum n f))).
    { apply moments_inj. intros b' d i' Hb Hi'. rewrite (I2 _ (scalar_values f) b' i' d Hb Hi'). symmetry. exact (scalar_equilibrium f _ (scalar_values f) b' d i' Hb Hi'). }
    rewrite (A k Hk). split; now apply (sc_mono _ _ _ _ HW). }
  specialize (X X1 X2 (fun t me bl H1 H2 => wall_between m M (phis t) me bl (Hw t me bl H1 H2)) X4 ps Ds mss pos HP NE Hpos). unfold bounded. split.
  - intros L0 t c' j Hc Hj. rewrite (sc_sum _ _ _ _ HW). apply between_sum. exact (proj1 (X c' j Hc Hj) L0 t).
  - intros Hn t c' j Hc Hj. rewrite (sc_sum _ _ _ _ HW). apply between_sum. exact (proj2 (X c' j Hc Hj) Hn t).
Qed.

(* Two simulations with the same walls: the order of the states is kept. *)
Definition below_all (f f' : vec K) : Prop := forall k, (k < n)%nat -> (f k <= f' k)%Qc.
Lemma scalar_below (s : K) f1 f2 g1 g2 : one_parameter (fun _ => s) -> (0 <= s)%Qc -> (s <= 1)%Qc -> step f1 g1 -> step f2 g2 -> below_all f1 f2 -> below_all g1 g2.
Proof using HW HI D EB HSi O Hsrc.
  intros Hs S0 S1 H1 H2 H k Hk. rewrite (scalar_step _ _ _ Hs H1 k Hk), (scalar_step _ _ _ Hs H2 k Hk). apply qmix_le; try assumption; [now apply H|].
  apply (sc_mono _ _ _ _ HW); [exact Hk|]. now apply sum_le.
Qed.
Theorem C87_comparison (s : K) phis G G' : one_parameter (fun _ => s) -> (0 <= s)%Qc -> (s <= 1)%Qc -> hist phis G -> hist phis G' ->
  (forall me bl, has ms me bl -> (b_k bl < n)%nat -> me <> MAnti /\ me <> MBouzidiAnti /\ (0 <= b_dist bl)%Q) ->
  (forall x, cell_in g x -> below_all (G 0%nat x) (G' 0%nat x)) ->
  forall t x, cell_in g x -> below_all (G t x) (G' t x) /\ (mom K ds (G t x) b i <= mom K ds (G' t x) b i)%Qc.
Proof using E Hsz HW HI D EB HSi O Hsrc.
  intros Hs S0 S1 H H' Hw H0 t x Hx. enough (A : below_all (G t x) (G' t x)) by (split; [exact A|]; rewrite !(sc_sum _ _ _ _ HW); now apply sum_le).
  revert x Hx. induction t as [|t IH]; intros x Hx; [now apply H0|]. destruct (H t x) as (f & F1 & F2). destruct (H' t x) as (f' & F1' & F2').
  apply (scalar_below s f f' _ _ Hs S0 S1 F2 F2'). intros k Hk.
  assert (A : forall j y, (j < n)%nat -> (gfield g K (G t) j y <= gfield g K (G' t) j y)%Qc).
  { intros j y Hj. apply IH; [|exact Hj]. eapply wrapg_in; exact E. }
  destruct (F1 k Hk) as [(m & bl & B1 & B2 & B3 & ->)|[N1 ->]]; destruct (F1' k Hk) as [(m' & bl' & B1' & B2' & B3' & ->)|[N1' ->]].
  - destruct (links_one _ _ _ _ _ _ _ _ _ (serial_setting _ _ _ _ _ _ _ _ _ _ E) m bl m' bl' B1 B1') as [<- <-]; [unfold key; congruence|]. subst k.
    destruct (Hw m bl B1 Hk) as (W1 & W2 & W3). assert (Hk' : (symk r (b_k bl) < n)%nat) by (eapply sym_lt; eassumption). destruct (bz_s_range _ W3) as [R1 R2]. destruct (qc_one_minus _ R1 R2) as [R3 R4].
    unfold bvalue, at_. destruct m; cbn [iload0 fst snd]; try contradiction; try (now apply A).
    + apply qle_add; [now apply A|apply Qcle_refl].
    + apply qle_add; [|apply Qcle_refl]. apply qle_add; apply qle_mul; try assumption; [now apply A|]. unfold iload1. destruct (near bl); now apply A.
  - exfalso. apply (N1' m bl B1). now split.
  - exfalso. apply (N1 m' bl' B1'). now split.
  - apply IH; [|exact Hk]. eapply wrapg_in; exact E.
Qed.

(* Closed domains: the distance of two simulations does not grow. *)
Definition dist (u v : K) : K := if Qclt_le_dec u v then (v - u)%K else (u - v)%K.
Lemma dist_nonneg u v : (0 <= dist u v)%Qc.
Proof. unfold dist. destruct (Qclt_le_dec u v) as [H|H]; qc_terms; qc_q; lra. Qed.
Lemma dist_mix (s u v u' v' : K) : (0 <= s)%Qc -> (s <= 1)%Qc -> (dist ((1 - s) * u + s * v)%K ((1 - s) * u' + s * v')%K <= (1 - s) * dist u u' + s * dist v v')%Qc.
Proof.
  intros S0 S1. destruct (qc_one_minus s S0 S1) as [S2 _].
  assert (X : forall p q, ((p <= dist p q + q) /\ (q <= dist p q + p))%Qc) by (intros p q; unfold dist; destruct (Qclt_le_dec p q); qc_terms; split; qc_q; lra).
  destruct (X u u') as [A1 A2]. destruct (X v v') as [B1 B2]. set (du := dist u u') in *. set (dv := dist v v') in *. clearbody du dv.
  pose proof (qle_mul _ _ _ S2 A1) as C1. pose proof (qle_mul _ _ _ S2 A2) as C2. pose proof (qle_mul _ _ _ S0 B1) as D1. pose proof (qle_mul _ _ _ S0 B2) as D2.
  unfold dist. destruct (Qclt_le_dec _ _); qc_terms; clear - C1 C2 D1 D2; qc_q; lra.
Qed.
Lemma dist_sum m (f f' : vec K) : (dist (sum m f) (sum m f') <= sum m (fun k => dist (f k) (f' k)))%Qc.
Proof.
  unfold sum. induction (seq 0 m) as [|k l IH]; [vm_compute; discriminate|].
  change ((dist (f k + sumL l f)%K (f' k + sumL l f')%K <= dist (f k) (f' k) + sumL l (fun k => dist (f k) (f' k)))%Qc).
  assert (X : forall p q, ((p <= dist p q + q) /\ (q <= dist p q + p))%Qc) by (intros p q; unfold dist; destruct (Qclt_le_dec p q); qc_terms; split; qc_q; lra).
  destruct (X (f k) (f' k)) as [A1 A2]. destruct (X (sumL l f) (sumL l f')) as [B1 B2].
  set (x := sumL l (fun k => dist (f k) (f' k))) in *. clearbody x. set (d1 := dist (f k) (f' k)) in *. set (d2 := dist (sumL l f) (sumL l f')) in *. clearbody d1 d2.
  set (s1 := sumL l f) in *. set (s2 := sumL l f') in *. clearbody s1 s2.
  unfold dist. destruct (Qclt_le_dec _ _); qc_terms; clear - A1 A2 B1 B2 IH; qc_q; lra.
Qed.
Lemma dist_monotone u v : sum n (fun k => dist (W k u) (W k v)) = dist u v.
Proof using HW HI D EB HSi O.
  assert (X : forall u v : K, (u <= v)%Qc -> sum n (fun k => dist (W k u) (W k v)) = (v - u)%K).
  { intros u0 v0 H. transitivity (sum n (fun k => W k v0) - sum n (fun k => W k u0))%K; [|now rewrite !scalar_total]. replace (sum n (fun k => W k v0) - sum n (fun k => W k u0))%K with (sum n (fun k => (1 * W k v0 + - (1) * W k u0)%K)) by (rewrite sum_comb; ring).
    apply sum_ext. intros k Hk. pose proof (sc_mono _ _ _ _ HW k _ _ Hk H) as M. unfold dist. destruct (Qclt_le_dec _ _) as [L|L]; [ring|].
    rewrite (Qcle_antisym _ _ M L). ring. }
  unfold dist at 2. destruct (Qclt_le_dec u v) as [L|L]; [apply X; now apply Qclt_le_weak|]. rewrite <- (X v u L). apply sum_ext. intros k Hk.
  unfold dist. destruct (Qclt_le_dec _ _) as [L1|L1], (Qclt_le_dec _ _) as [L2|L2]; try ring.
  - exfalso. exact (Qclt_not_eq _ _ (Qclt_trans _ _ _ L1 L2) eq_refl).
  - now rewrite (Qcle_antisym _ _ L1 L2).
Qed.
Lemma dist_step (s : K) f f' g1 g2 : one_parameter (fun _ => s) -> (0 <= s)%Qc -> (s <= 1)%Qc -> step f g1 -> step f' g2 ->
  (sum n (fun k => dist (g1 k) (g2 k)) <= sum n (fun k => dist (f k) (f' k)))%Qc.
Proof using HW HI D EB HSi O Hsrc.
  intros Hs S0 S1 H1 H2. apply Qcle_trans with (sum n (fun k => ((1 - s) * dist (f k) (f' k) + s * dist (W k (sum n f)) (W k (sum n f')))%K)).
  { apply sum_le. intros k Hk. rewrite (scalar_step _ _ _ Hs H1 k Hk), (scalar_step _ _ _ Hs H2 k Hk). apply dist_mix; assumption. }
  rewrite (sum_comb K n (1 - s)%K s (fun k => dist (f k) (f' k)) (fun k => dist (W k (sum n f)) (W k (sum n f')))), dist_monotone.
  pose proof (qle_mul s _ _ S0 (dist_sum n f f')) as X. set (x := sum n (fun k => dist (f k) (f' k))) in *. set (y := dist (sum n f) (sum n f')) in *. clearbody x y.
  qc_terms. clear - X. qc_q. lra.
Qed.
Notation gap G G' := (sumL (fluid_cells g Dm) (fun x => sum n (fun k => dist (G (wrapg g x) k) (G' (wrapg g x) k)))).
Theorem C87_contraction (s : K) phis G G' : one_parameter (fun _ => s) -> (0 <= s)%Qc -> (s <= 1)%Qc -> hist phis G -> hist phis G' ->
  closed_domain dimz schemes st r g es labs conds Dm ms -> (forall t, at_rest r n (phis t)) ->
  forall t, (gap (G t) (G' t) <= gap (G 0%nat) (G' 0%nat))%Qc.
Proof using E Hsz HQ HW HI D EB HSi O Hsrc.
  intros Hs S0 S1 H H' C Hr. induction t as [|t IH]; [apply Qcle_refl|]. eapply Qcle_trans; [|exact IH].
  destruct (rearranged (phis t) (G t) (G' t) C (Hr t)) as (f & f' & F1 & F2 & F3).
  assert (One : forall u : nat -> K, sum n (fun k => (1 * u k)%K) = sum n u) by (intros u; apply sum_ext; intros; ring).
  specialize (F3 dist (fun _ => 1%K) (fun _ _ => eq_refl)). rewrite (sumL_ext K _ _ _ (fun x _ => One (fun k => dist (f x k) (f' x k)))), (sumL_ext K _ _ _ (fun x _ => One (fun k => dist (G t (wrapg g x) k) (G' t (wrapg g x) k)))) in F3. rewrite <- F3.
  apply sumL_le. intros x Hx. destruct (H t (wrapg g x)) as (p & P1 & P2). destruct (H' t (wrapg g x)) as (q & Q1 & Q2).
  assert (A1 : forall k, (k < n)%nat -> p k = f x k) by (intros k Hk; eapply arrives_unique; [exact E|now apply P1|now apply F1]).
  assert (A2 : forall k, (k < n)%nat -> q k = f' x k) by (intros k Hk; eapply arrives_unique; [exact E|now apply Q1|now apply F2]).
  rewrite <- (sum_ext K n (fun k => dist (p k) (q k)) (fun k => dist (f x k) (f' x k))) by (intros k Hk; now rewrite A1, A2). now apply (dist_step s).
Qed.
(* The densities, if both simulations start at equilibrium. *)
Theorem C87_stable s dat dat' phis rho rho' : one_parameter (fun _ => s) -> (0 <= s)%Qc -> (s <= 1)%Qc -> data_ok K ds dat -> data_ok K ds dat' -> walls_ok K phis ->
  closed_domain dimz schemes st r g es labs conds Dm ms -> (forall t, at_rest r n (phis t)) ->
  (forall x, In x (fluid_cells g Dm) -> given_value K ds dat 0 (point g x) (rho x) /\ given_value K ds dat' 0 (point g x) (rho' x)) ->
  exists G G', simulates st r g es labs conds K qk inv simp ds a dat phis G /\ simulates st r g es labs conds K qk inv simp ds a dat' phis G' /\ forall t,
  (sumL (fluid_cells g Dm) (fun x => dist (mom K ds (G t (wrapg g x)) b i) (mom K ds (G' t (wrapg g x)) b i)) <= sumL (fluid_cells g Dm) (fun x => dist (rho x) (rho' x)))%Qc.
Proof using E HI HSi D O EB HPl Hsz HQ Hsrc HW.
  intros Hs S0 S1 Hl Hl' Hphis C Hr Hg.
  destruct (flow dimz schemes st r g es labs conds Dm ms E K qk inv simp dm hdt ds a HI HSi D O EB HPl Hsz HQ dat phis Hl Hphis) as (G & G0 & GH & GS).
  destruct (flow dimz schemes st r g es labs conds Dm ms E K qk inv simp dm hdt ds a HI HSi D O EB HPl Hsz HQ dat' phis Hl' Hphis) as (G' & G0' & GH' & GS').
  exists G, G'. split; [exact GS|]. split; [exact GS'|]. intros t. eapply Qcle_trans; [|eapply Qcle_trans; [exact (C87_contraction s phis G G' Hs S0 S1 GH GH' C Hr t)|]].
  - apply sumL_le. intros x _. rewrite !(sc_sum _ _ _ _ HW). apply dist_sum.
  - apply sumL_le. intros x Hx. destruct (fluid_inside dimz schemes st r g es labs conds Dm ms E x Hx) as (Lx & _ & Hint).
    assert (X : cell_in g (wrapg g x)) by (eapply wrapg_in; exact E). destruct (Hg x Hx) as [V V'].
    assert (Y : forall dt f v, initial_state K simp ds dt (at_cell (wrapg g x)) f -> given_value K ds dt 0 (point g x) v -> agree K n f (fun k => W k v)).
    { intros dt f v [I1 I2] Hv. pose proof (I1 0%nat c b i (sc_rank _ _ _ _ HW) (sc_is _ _ _ _ HW)) as U. rewrite (cell_wrapg g x Lx Hint) in U.
      rewrite (sc_sum _ _ _ _ HW) in U. rewrite <- (given_unique K ds dt _ _ _ _ U Hv). apply moments_inj. intros b' d i' Hb Hi'.
      rewrite (I2 _ (scalar_values f) b' i' d Hb Hi'). symmetry. exact (scalar_equilibrium f _ (scalar_values f) b' d i' Hb Hi'). }
    pose proof (Y dat _ _ (G0 _ X) V) as Y1. pose proof (Y dat' _ _ (G0' _ X) V') as Y2.
    rewrite (sum_ext K n _ (fun k => dist (W k (rho x)) (W k (rho' x)))) by (intros k Hk; now rewrite Y1, Y2). rewrite dist_monotone. apply Qcle_refl.
Qed.
End Scalar.

(* --------------------------------------------------------------- C88 ----- *)
(* the energy of a cell *)
Variable w : nat -> K.
Definition energy (f : vec K) : K := sum n (fun k => (w k * (f k * f k))%K).
Definition inner_product (f h : vec K) : K := sum n (fun k => (w k * (f k * h k))%K).
(* The equilibrium is the orthogonal projection on the states without other moments than the
   conserved ones: it is orthogonal to all the states whose conserved moments vanish. *)
Definition projection : Prop := forall f e h, equilibrium_of f e -> (forall c b i, is_moment K simp ds c b i -> mom K ds h b i = 0%K) -> inner_product e h = 0%K.
(* The moments are orthogonal: the energy is a sum of squares of moments; q are the factors. *)
Definition orthogonal (q : nat -> K) : Prop := (forall k, (k < n)%nat -> (0 <= q k)%Qc) /\
  forall f m, (forall b d i, nth_error ds b = Some d -> (i < nv K d)%nat -> m (off K ds b + i)%nat = mom K ds f b i) -> energy f = sum n (fun k => (q k * (m k * m k))%K).
Lemma energy_ext f f' : agree K n f f' -> energy f = energy f'.
Proof. intros H. apply sum_ext. intros k Hk. now rewrite H. Qed.
Lemma energy_sum e h : inner_product e h = 0%K -> energy (fun k => e k + h k)%K = (energy e + energy h)%K.
Proof.
  intros H. transitivity (energy e + energy h + (inner_product e h + inner_product e h))%K; [|rewrite H; ring].
  unfold energy, inner_product, sum. rewrite <- !sumL_add. apply sumL_ext. intros k _. ring.
Qed.
Lemma shrink (s x : Qc) : (0 <= s -> s <= 1 + 1 -> ((1 - s) * x) * ((1 - s) * x) <= x * x)%Qc.
Proof. intros H1 H2. assert (X : ((1 - s) * x * ((1 - s) * x) = x * x - (s * (1 + 1 - s)) * (x * x))%Qc) by ring. rewrite X. clear X.
  assert (Y : (0 <= x * x)%Qc) by (qc_q; nra). assert (Z : (0 <= s * (1 + 1 - s))%Qc) by (qc_q; nra). qc_q. nra. Qed.
Lemma mom_diff f e b i : mom K ds (fun k => f k - e k)%K b i = (mom K ds f b i - mom K ds e b i)%K.
Proof.
  transitivity (mom K ds (comb K 1%K (- (1))%K f e) b i); [|rewrite mom_comb; ring]. unfold mom, comb. destruct (nth_error ds b) as [d|]; [|reflexivity]. apply sum_ext. intros j _. ring.
Qed.
(* One collision: each parameter between 0 and 2. *)
Theorem C88_collision q f f' : projection -> orthogonal q ->
  (forall val b i d, nth_error ds b = Some d -> (i < nv K d)%nat -> (forall c, ~ is_moment K simp ds c b i) ->
     (0 <= teval K val (nth i (sd_s K d) (Num 0%K)))%Qc /\ (teval K val (nth i (sd_s K d) (Num 0%K)) <= 1 + 1)%Qc) ->
  step f f' -> (energy f' <= energy f)%Qc.
Proof using HI D EB HSi O Hsrc.
  intros HP [HQ0 HO] Hs Hf. destruct (values_ex K simp hdt ds D O inv None dm a HI EB f) as [val HV]. destruct (equilibrium_ex f) as [e He].
  destruct (step_moments f f' val e HV He Hf) as [F1 F2].
  set (h := fun k => (f k - e k)%K). set (h' := fun k => (f' k - e k)%K).
  assert (Z : forall c b i, is_moment K simp ds c b i -> mom K ds h b i = 0%K).
  { intros c b i Hm. unfold h. rewrite mom_diff, (equilibrium_conserved f e c b i He Hm). ring. }
  assert (Z' : forall c b i, is_moment K simp ds c b i -> mom K ds h' b i = 0%K).
  { intros c b i Hm. unfold h'. rewrite mom_diff, (equilibrium_conserved f e c b i He Hm), (F1 c b i Hm). ring. }
  assert (A : energy f = (energy e + energy h)%K).
  { rewrite <- (energy_sum e h (HP f e h He Z)). apply energy_ext. intros k _. unfold h. ring. }
  assert (A' : energy f' = (energy e + energy h')%K).
  { rewrite <- (energy_sum e h' (HP f e h' He Z')). apply energy_ext. intros k _. unfold h'. ring. }
  rewrite A, A'. apply qle_add; [apply Qcle_refl|]. destruct matrices as (M & N & _ & HM).
  rewrite (HO h (mvmul n M h)) by (intros b d i Hb Hi; now apply HM with (d := d)). rewrite (HO h' (mvmul n M h')) by (intros b d i Hb Hi; now apply HM with (d := d)).
  apply sum_le. intros k Hk. apply qle_mul; [now apply HQ0|]. destruct (off_ex K ds k Hk) as (b & d & i & Hb & Hi & ->). rewrite !(HM _ b d i Hb Hi).
  destruct (moment_dec K simp ds b i) as [[c Hm]|Hn]; [rewrite (Z c b i Hm), (Z' c b i Hm); apply Qcle_refl|].
  destruct (Hs val b i d Hb Hi Hn) as [S0 S1]. set (s := teval K val (nth i (sd_s K d) (Num 0%K))) in *.
  assert (X : mom K ds h' b i = ((1 - s) * mom K ds h b i)%K).
  { unfold h, h'. rewrite !mom_diff, (F2 b i d Hb Hi Hn). fold s. ring. }
  rewrite X. now apply shrink.
Qed.
(* One parameter between 0 and 2: the moments need not be orthogonal, the weights are not negative. *)
Theorem C88_one_parameter s f f' : projection -> (forall k, (k < n)%nat -> (0 <= w k)%Qc) -> one_parameter s -> (forall val, (0 <= s val)%Qc /\ (s val <= 1 + 1)%Qc) ->
  step f f' -> (energy f' <= energy f)%Qc.
Proof using HI D EB HSi O Hsrc.
  intros HP Hw Hs Hr Hf. destruct (values_ex K simp hdt ds D O inv None dm a HI EB f) as [val HV]. destruct (equilibrium_ex f) as [e He]. destruct (Hr val) as [S0 S1].
  set (h := fun k => (f k - e k)%K). set (h' := fun k => ((1 - s val) * h k)%K).
  assert (Z : forall c b i, is_moment K simp ds c b i -> mom K ds h b i = 0%K).
  { intros c b i Hm. unfold h. rewrite mom_diff, (equilibrium_conserved f e c b i He Hm). ring. }
  assert (I : inner_product e h = 0%K) by now apply (HP f).
  assert (I' : inner_product e h' = 0%K).
  { transitivity ((1 - s val) * inner_product e h)%K; [|rewrite I; ring]. unfold inner_product, sum. rewrite <- sumL_mul_l. apply sumL_ext. intros k _. unfold h'. ring. }
  assert (A : energy f = (energy e + energy h)%K).
  { rewrite <- (energy_sum e h I). apply energy_ext. intros k _. unfold h. ring. }
  assert (A' : energy f' = (energy e + energy h')%K).
  { rewrite <- (energy_sum e h' I'). apply energy_ext. intros k Hk. rewrite (step_mix s f f' val e Hs HV He Hf k Hk). unfold h', h. ring. }
  rewrite A, A'. apply qle_add; [apply Qcle_refl|]. apply sum_le. intros k Hk. apply qle_mul; [now apply Hw|]. now apply shrink.
Qed.
Notation total_energy F := (sumL (fluid_cells g Dm) (fun x => energy (F (wrapg g x)))).
(* Closed domains: if the collision does not increase the energy, the simulation does not. *)
Theorem C88_energy phis G : hist phis G -> closed_domain dimz schemes st r g es labs conds Dm ms -> (forall t, at_rest r n (phis t)) ->
  (forall k, (k < n)%nat -> w (symk r k) = w k) -> (forall f f', step f f' -> (energy f' <= energy f)%Qc) ->
  forall t, (total_energy (G (S t)) <= total_energy (G t))%Qc.
Proof using E Hsz HQ HI D EB HSi.
  intros H C Hr Hw Hc t. destruct (rearranged (phis t) (G t) (G t) C (Hr t)) as (f & f' & F1 & F2 & F3).
  assert (A : forall x, In x (fluid_cells g Dm) -> agree K n (f' x) (f x)) by (intros x Hx k Hk; eapply arrives_unique; [exact E|now apply F2|now apply F1]).
  specialize (F3 rmul w Hw). change (sumL (fluid_cells g Dm) (fun x => energy (G (S t) (wrapg g x))) <= sumL (fluid_cells g Dm) (fun x => sum n (fun k => (w k * (G t (wrapg g x) k * G t (wrapg g x) k))%K)))%Qc.
  rewrite <- F3. apply sumL_le. intros x Hx. destruct (H t (wrapg g x)) as (p & P1 & P2).
  assert (B : agree K n p (f x)) by (intros k Hk; eapply arrives_unique; [exact E|now apply P1|now apply F1]).
  eapply Qcle_trans; [exact (Hc _ _ P2)|]. rewrite (energy_ext _ _ B). unfold energy. apply sum_le. intros k Hk. rewrite (A x Hx k Hk). apply Qcle_refl.
Qed.
(* On the arrays of the processes: no state has a larger energy than the initial one. *)
Theorem C88_simulation dat phis : data_ok K ds dat -> walls_ok K phis -> closed_domain dimz schemes st r g es labs conds Dm ms -> (forall t, at_rest r n (phis t)) ->
  (forall k, (k < n)%nat -> w (symk r k) = w k) -> (forall f f', step f f' -> (energy f' <= energy f)%Qc) ->
  forall ps Ds mss css pos, parallel st g es labs conds ps Ds mss -> Forall (fun x => forall c, (c < ax_p x)%nat -> ax_lo x c < ax_hi x c) (proc_axes g ps) -> (pos <= dim g)%nat ->
  NoDup css -> (forall c, In c css <-> coords_ok (proc_axes g ps) c) ->
  let begin be := start K a pos (scheme_consm K inv simp ds) be true g ps (Some dat) in
  let all F := fluid_total g ps Ds css energy F in
  (forall L0 t, (all (fst (cy_run st r g K qk a pos ps mss phis L0 (S t) (begin Cython))) <= all (fst (cy_run st r g K qk a pos ps mss phis L0 t (begin Cython))))%Qc) /\
  ((forall d t, In d ds -> In t (sd_s K d) -> vars K t = []) ->
     forall t, (all (fst (np_run st r g K qk a pos ps mss phis (S t) (begin Numpy))) <= all (fst (np_run st r g K qk a pos ps mss phis t (begin Numpy))))%Qc).
Proof using E HI HSi D O EB HPl Hsz HQ.
  intros Hl Hphis C Hr Hw Hc ps Ds mss css pos HP NE Hpos Hnd Hcs begin all.
  destruct (flow dimz schemes st r g es labs conds Dm ms E K qk inv simp dm hdt ds a HI HSi D O EB HPl Hsz HQ dat phis Hl Hphis) as (G & G0 & GH & GS).
  destruct (GS ps Ds mss pos HP NE Hpos) as [R1 R2].
  assert (Hq : forall f f', agree K (length (concat schemes)) f f' -> energy f = energy f').
  { intros f f' Hf. apply energy_ext. intros k Hkn. apply Hf.
    rewrite <- (whole_na schemes K inv simp dm hdt ds a HI D EB Hsz), (whole_size K inv simp dm hdt ds a HI D EB). exact Hkn. }
  pose proof (fun F G H => fluid_total_ref dimz schemes st r g es labs conds Dm ms E ps Ds mss HP css Hnd Hcs K energy F G Hq H) as FT.
  rewrite <- (whole_na schemes K inv simp dm hdt ds a HI D EB Hsz), (whole_size K inv simp dm hdt ds a HI D EB) in FT. split.
  - intros L0 t. unfold all, begin. rewrite (FT _ (G (S t)) (R1 L0 (S t))), (FT _ (G t) (R1 L0 t)). now apply (C88_energy phis).
  - intros Hn t. unfold all, begin. rewrite (FT _ (G (S t)) (R2 Hn (S t))), (FT _ (G t) (R2 Hn t)). now apply (C88_energy phis).
Qed.
End Bounds.
Print Assumptions C87_invariant.
Print Assumptions C87_convex.
Print Assumptions C87_simulation.
Print Assumptions C87_maximum.
Print Assumptions C87_comparison.
Print Assumptions C87_contraction.
Print Assumptions C87_stable.
Print Assumptions C88_collision.
Print Assumptions C88_one_parameter.
Print Assumptions C88_energy.
Print Assumptions C88_simulation.

(* ------------------------------------------------- examples *)
Definition qeqb (x y : Qc) : bool := Qeq_bool (this x) (this y).
Lemma qeqb_eq x y : qeqb x y = true -> x = y.
Proof. intros H. apply Qc_is_canon. now apply Qeq_bool_eq. Qed.
Definition qcheck (n : nat) (A B : mat QcR) : bool :=
  forallb (fun i => forallb (fun j => qeqb (mmul (K := QcR) n A B i j) (idm (K := QcR) i j) && qeqb (mmul (K := QcR) n B A i j) (idm (K := QcR) i j)) (seq 0 n)) (seq 0 n).
Definition qinv (cands : list (mat QcR)) (n : nat) (A : mat QcR) : option (mat QcR) := find (qcheck n A) cands.
Lemma qinv_ok cands : inv_spec QcR (qinv cands).
Proof.
  intros n A B E. unfold qinv in E. apply find_some in E as [_ E]. unfold qcheck in E. rewrite forallb_forall in E.
  split; intros i j Hi Hj; specialize (E i ltac:(apply in_seq; lia)); rewrite forallb_forall in E; specialize (E j ltac:(apply in_seq; lia));
    apply andb_prop in E as [E1 E2]; [exact (qeqb_eq _ _ E1)|exact (qeqb_eq _ _ E2)].
Qed.
(* Three velocities 0, 1, -1, the moments 1, X, X^2 - 1/2, of which the first one is conserved and
   the others have the equilibrium 0: the equilibria of the distributions are u/2, u/4, u/4. *)
Definition qn (q : Q) : term QcR := Num (K := QcR) (Q2Qc q).
Definition qX : term QcR := Var 0.
Definition dq (s1 s2 : Q) : sdict QcR :=
  mkSdict QcR [[Q2Qc 0]; [Q2Qc 1]; [Q2Qc (-1)]] [qn 1; qX; Bin (K := QcR) Qcminus (Bin (K := QcR) Qcmult qX qX) (qn (1 # 2))] None
    [qn 0; qn s1; qn s2] [Var 5; qn 0; qn 0] None [5%nat] [].
Definition qm (l : list (list Q)) : mat QcR := fun i j => Q2Qc (nth j (nth i l []) 0%Q).
Definition qcands : list (mat QcR) := [qm [[1 # 2; 0; - 1]; [1 # 4; 1 # 2; 1 # 2]; [1 # 4; - (1 # 2); 1 # 2]]%Q].
Definition qsimp (t : term QcR) : term QcR := t.
Lemma qsimp_ok : simp_spec QcR qsimp.
Proof. intros val t. reflexivity. Qed.
Definition qbuild (s1 s2 : Q) : option (salgo QcR) := build QcR (qinv qcands) qsimp None 1 (Q2Qc 0) [dq s1 s2].
Section Dq.
Variables s1 s2 : Q.
Lemma dq_ok : dict_ok QcR qsimp [dq s1 s2].
Proof.
  constructor; unfold BuildProofs.closed, conserved; cbn [map concat sd_cons dq app].
  - constructor; [|constructor]. repeat split.
  - intros d N [<-|[]] _. reflexivity.
  - repeat constructor. intros [].
  - intros d t [<-|[]] Ht c Hc. cbn in Ht. destruct Ht as [<-|[<-|[<-|[]]]]; cbn in Hc; cbn; tauto.
  - intros d t [<-|[]] Ht c Hc. cbn in Ht. destruct Ht as [<-|[<-|[<-|[]]]]; destruct Hc.
  - intros d c g [<-|[]] [].
Qed.
Lemma dq_moment c b i : is_moment QcR qsimp [dq s1 s2] c b i <-> b = 0%nat /\ c = 5%nat /\ i = 0%nat.
Proof.
  split.
  - intros (d & H1 & H2 & H3 & H4 & _). destruct b as [|[|b]]; try discriminate. injection H1 as <-. split; [reflexivity|].
    destruct H2 as [<-|[]]. destruct i as [|[|[|i]]]; cbn in H4, H3; try discriminate; [now split|lia].
  - intros (-> & -> & ->). exists (dq s1 s2). repeat split; [cbn; tauto|cbn; lia|]. intros j Hj. lia.
Qed.
Lemma dq_ordered : ordered QcR qsimp [dq s1 s2].
Proof. intros r c b i Hr Hm. apply dq_moment in Hm as (-> & -> & ->). unfold conserved in Hr. cbn in Hr. destruct r as [|[|r]]; try discriminate. reflexivity. Qed.
Lemma dq_below d t : In d [dq s1 s2] -> In t (sd_P QcR d) -> below QcR 1 t.
Proof. intros [<-|[]] Ht. cbn in Ht. destruct Ht as [<-|[<-|[<-|[]]]]; intros c Hc; cbn in Hc; lia. Qed.
Lemma dq_nosrc d : In d [dq s1 s2] -> sd_src QcR d = [].
Proof. now intros [<-|[]]. Qed.
Lemma dq_entry i j : (i < 3)%nat -> (j < 3)%nat -> entry QcR (dq s1 s2) i j = qm [[1; 1; 1]; [0; 1; - 1]; [- (1 # 2); 1 # 2; 1 # 2]]%Q i j.
Proof. intros Hi Hj. destruct i as [|[|[|i]]]; try lia; destruct j as [|[|[|j]]]; try lia; apply Qc_is_canon; vm_compute; reflexivity. Qed.
Lemma dq_mom f i : (i < 3)%nat -> mom QcR [dq s1 s2] f 0 i = sum (K := QcR) 3 (fun j => (qm [[1; 1; 1]; [0; 1; - 1]; [- (1 # 2); 1 # 2; 1 # 2]]%Q i j * f j)%Qc).
Proof. intros Hi. unfold mom. cbn [nth_error]. apply sum_ext. intros j Hj. rewrite dq_entry by assumption. reflexivity. Qed.
Lemma dq_mom0 f : mom QcR [dq s1 s2] f 0 0 = (f 0%nat + (f 1%nat + f 2%nat))%Qc.
Proof. rewrite dq_mom by lia. unfold sum, sumL, qm. cbn [seq fold_right nth radd r0 rar QcR]. apply Qc_is_canon. qc_q. ring. Qed.
Lemma dq_mom1 f : mom QcR [dq s1 s2] f 0 1 = (f 1%nat - f 2%nat)%Qc.
Proof. rewrite dq_mom by lia. unfold sum, sumL, qm. cbn [seq fold_right nth radd r0 rar QcR]. apply Qc_is_canon. qc_q. ring. Qed.
Lemma dq_mom2 f : mom QcR [dq s1 s2] f 0 2 = (Q2Qc (1 # 2) * (f 1%nat + f 2%nat - f 0%nat))%Qc.
Proof. rewrite dq_mom by lia. unfold sum, sumL, qm. cbn [seq fold_right nth radd r0 rar QcR]. apply Qc_is_canon. qc_q. ring. Qed.
End Dq.
Definition Wq (k : nat) (u : QcR) : QcR := (Q2Qc (if Nat.eqb k 0 then 1 # 2 else 1 # 4) * u)%Qc.
Lemma dq_scalar s1 s2 : scalar qsimp [dq s1 s2] Wq 5 0 0.
Proof.
  split.
  - now apply dq_moment.
  - reflexivity.
  - intros c b i Hm. apply dq_moment in Hm. intuition.
  - intros f. rewrite dq_mom0. unfold sum, sumL. cbn [SchemeModel.total sizes map nv dq sd_v length list_sum fold_right Nat.add seq radd r0 rar QcR]. apply Qc_is_canon. qc_q. ring.
  - intros val b d i Hb Hi. destruct b as [|[|b]]; try discriminate. injection Hb as <-. change (i < 3)%nat in Hi.
    destruct i as [|[|[|i]]]; try lia; [rewrite dq_mom0|rewrite dq_mom1|rewrite dq_mom2]; unfold Wq, eqv; cbn [sd_eq dq nth teval qn Nat.eqb]; apply Qc_is_canon; qc_q; ring.
  - intros k x y Hk Hxy. apply qle_mul; [|exact Hxy]. destruct (Nat.eqb k 0); vm_compute; discriminate.
Qed.
Definition qphi (_ : nat) (_ : Z) (_ : list Q) (_ : nat) : QcR := Q2Qc 0.
Lemma qphi_ok : walls_ok QcR qphi.
Proof. intros t lab x y k H. reflexivity. Qed.
(* 1 at the cells from the third one on, 0 before *)
Definition qfun (x : list Q) : QcR := if Qle_bool 3 (hd 0%Q x + (1 # 2))%Q then Q2Qc 1 else Q2Qc 0.
Definition qdata : list (ikey * (list Q -> QcR)) := [(ISym 5, qfun)].
Definition qrun (conds : Z -> list (nat * method)) (s1 s2 : Q) (be : BoundaryModel.backend) (t : nat) : option (list (list Q)) :=
  match qbuild s1 s2 with
  | None => None
  | Some a =>
      let begin be := start QcR a 0 (scheme_consm QcR (qinv qcands) qsimp [dq s1 s2]) be true v3line [2%nat] (Some qdata) in
      let mss := links_at st3 v3line [] [] conds [2%nat] in
      let F := fst match be with
        | Cython => cy_run st3 [0; 2; 1] v3line QcR Q2Qc a 0 [2%nat] mss qphi (fun _ => Q2Qc 0) t (begin Cython)
        | _ => np_run st3 [0; 2; 1] v3line QcR Q2Qc a 0 [2%nat] mss qphi t (begin Numpy) end in
      Some (map (fun p => map (fun k => this (F [fst p] [snd p] k)) [0; 1; 2]%nat) [(0%nat, 1); (0%nat, 2); (0%nat, 3); (1%nat, 1); (1%nat, 2); (1%nat, 3)])
  end.
Definition dens (o : option (list (list Q))) : list Q := match o with Some l => map (fun p => Qred (nth 0 p 0 + nth 1 p 0 + nth 2 p 0)%Q) l | None => [] end.
Definition abb (_ : Z) : list (nat * method) := [(0%nat, MAnti)].
Lemma qfun_range x : (0 <= qfun x)%Qc /\ (qfun x <= 1)%Qc.
Proof. unfold qfun. destruct (Qle_bool _ _); split; vm_compute; discriminate. Qed.
Lemma qdata_ok s1 s2 : data_ok QcR [dq s1 s2] qdata.
Proof.
  split.
  - intros p x y [<-|[]] H. cbn [snd]. unfold qfun. assert (X : (hd 0 x == hd 0 y)%Q) by (inversion H; [reflexivity|assumption]).
    destruct (Qle_bool 3 (hd 0%Q x + (1 # 2))%Q) eqn:E1, (Qle_bool 3 (hd 0%Q y + (1 # 2))%Q) eqn:E2; try reflexivity; exfalso.
    + apply Qle_bool_iff in E1. rewrite X in E1. apply Qle_bool_iff in E1. congruence.
    + apply Qle_bool_iff in E2. rewrite <- X in E2. apply Qle_bool_iff in E2. congruence.
  - intros p [<-|[]]. exists 0%nat. split; [cbn; lia|reflexivity].
Qed.
Lemma qdata_range s1 s2 x v : given_value QcR [dq s1 s2] qdata 0 x v -> (0 <= v)%Qc /\ (v <= 1)%Qc.
Proof.
  intros [(l1 & k & w & l2 & H1 & _ & _ & ->)|[_ ->]]; [|split; vm_compute; discriminate].
  destruct l1 as [|p l1]; [|injection H1 as _ H1; destruct l1; discriminate]. injection H1 as <- <- _. apply qfun_range.
Qed.
Lemma ms3_links m b : has ms3 m b -> m = MBounceBack /\ (0 <= b_dist b)%Q.
Proof.
  intros (L & HL & Hb). assert (X : Forall (fun p => fst p = MBounceBack /\ Forall (fun b => (0 <= b_dist b)%Q) (snd p)) ms3).
  { vm_compute. repeat constructor; cbn; try discriminate. }
  rewrite Forall_forall in X. destruct (X _ HL) as [X1 X2]. split; [exact X1|]. rewrite Forall_forall in X2. exact (X2 _ Hb).
Qed.
Lemma dq_one s s1 s2 : Q2Qc s1 = Q2Qc s -> Q2Qc s2 = Q2Qc s -> one_parameter qsimp [dq s1 s2] (fun _ => Q2Qc s).
Proof.
  intros E1 E2 val b i d Hb Hi Hn. destruct b as [|[|b]]; try discriminate. injection Hb as <-. change (i < 3)%nat in Hi. destruct i as [|[|[|i]]]; try lia; [|exact E1|exact E2].
  destruct (Hn 5%nat). now apply dq_moment.
Qed.
Lemma dq_numbers s1 s2 d t : In d [dq s1 s2] -> In t (sd_s QcR d) -> vars QcR t = [].
Proof. intros [<-|[]] [<-|[<-|[<-|[]]]]; reflexivity. Qed.
Lemma Wq_sym k k' u : (k < 3)%nat -> k' = symk [0; 2; 1] k -> Wq k u = Wq k' u.
Proof. intros Hk ->. destruct k as [|[|[|k]]]; try lia; reflexivity. Qed.
Lemma built_some (o : option (salgo QcR)) : (match o with Some _ => true | None => false end) = true -> exists a, o = Some a.
Proof. destruct o; [eauto|discriminate]. Qed.
Notation qstart be s1 s2 a := (start QcR a 0 (scheme_consm QcR (qinv qcands) qsimp [dq s1 s2]) be true v3line [2%nat] (Some qdata)).
(* parameters 1/2: on two processes the density stays between 0 and 1 *)
Example C87_example : exists a, qbuild (1 # 2) (1 # 2) = Some a /\ forall t c j, coords_ok (proc_axes v3line [2%nat]) c -> inner (proc_axes v3line [2%nat]) c j ->
  let F := fst (np_run st3 [0; 2; 1] v3line QcR Q2Qc a 0 [2%nat] mss3 qphi t (qstart Numpy (1 # 2) (1 # 2) a)) in
  (0 <= mom QcR [dq (1 # 2) (1 # 2)] (F c j) 0 0)%Qc /\ (mom QcR [dq (1 # 2) (1 # 2)] (F c j) 0 0 <= 1)%Qc.
Proof.
  destruct (built_some (qbuild (1 # 2) (1 # 2))) as [a Ea]; [vm_compute; reflexivity|]. exists a. split; [exact Ea|].
  destruct (C87_maximum 1 [[0; 1; 2]] st3 [0; 2; 1] v3line [] [] bb D3 ms3 serial3 (qinv qcands) qsimp 1 (Q2Qc 0) [dq (1 # 2) (1 # 2)] a (qinv_ok _) qsimp_ok (dq_ok _ _) (dq_ordered _ _) Ea
    (dq_below _ _) eq_refl quiet3 (dq_nosrc _ _) Wq 5%nat 0%nat 0%nat (dq_scalar _ _) qdata qphi (fun _ => Q2Qc (1 # 2)) (Q2Qc 0) (Q2Qc 1)) with (ps := [2%nat]) (Ds := Ds3) (mss := mss3) (pos := 0%nat) as [_ R].
  - apply qdata_ok.
  - exact qphi_ok.
  - now apply dq_one.
  - intros u _ _. split; vm_compute; discriminate.
  - reflexivity.
  - intros x v _ Hv. exact (qdata_range _ _ _ _ Hv).
  - intros t m bl Hb Hk. destruct (ms3_links m bl Hb) as [-> Hd]. split; [reflexivity|]. split; [now apply Wq_sym|]. split; [now apply Wq_sym|exact Hd].
  - exact parallel3.
  - exact axes3.
  - cbn. lia.
  - intros t c j Hc Hj. exact (R (dq_numbers _ _) t c j Hc Hj).
Qed.
Example C87_values : map (map Qred) (match qrun bb (1 # 2) (1 # 2) Cython 1 with Some l => l | None => [] end) =
    [[0; 0; 0]; [1 # 16; 1 # 32; 5 # 32]; [7 # 16; 3 # 32; 7 # 32]; [1 # 2; 1 # 4; 1 # 4]; [1 # 2; 1 # 4; 1 # 4]; [1 # 2; 1 # 4; 1 # 4]]%Q /\
  dens (qrun bb (1 # 2) (1 # 2) Numpy 2) = [5 # 32; 9 # 32; 23 # 32; 27 # 32; 1; 1]%Q.
Proof. split; vm_compute; reflexivity. Qed.
(* The parameter 2: the initial density is between 0 and 1, that after two steps is not. *)
Theorem C87_parameter_refuted : exists a, qbuild 2 2 = Some a /\ scalar qsimp [dq 2 2] Wq 5 0 0 /\ one_parameter qsimp [dq 2 2] (fun _ => Q2Qc 2) /\
  (forall x v, given_value QcR [dq 2 2] qdata 0 x v -> (0 <= v)%Qc /\ (v <= 1)%Qc) /\
  let F := fst (cy_run st3 [0; 2; 1] v3line QcR Q2Qc a 0 [2%nat] mss3 qphi (fun _ => Q2Qc 0) 2 (qstart Cython 2 2 a)) in
  mom QcR [dq 2 2] (F [0%nat] [1]) 0 0 = Q2Qc (- (1 # 8)) /\ mom QcR [dq 2 2] (F [1%nat] [1]) 0 0 = Q2Qc (9 # 8).
Proof.
  destruct (built_some (qbuild 2 2)) as [a Ea]; [vm_compute; reflexivity|]. exists a. split; [exact Ea|]. split; [apply dq_scalar|]. split; [now apply dq_one|]. split; [apply qdata_range|].
  assert (X : match qbuild 2 2 with Some a => let F := fst (cy_run st3 [0; 2; 1] v3line QcR Q2Qc a 0 [2%nat] mss3 qphi (fun _ => Q2Qc 0) 2 (qstart Cython 2 2 a)) in
    this (mom QcR [dq 2 2] (F [0%nat] [1]) 0 0) = (- (1 # 8))%Q /\ this (mom QcR [dq 2 2] (F [1%nat] [1]) 0 0) = (9 # 8)%Q | None => False end) by (vm_compute; split; reflexivity).
  rewrite Ea in X. cbv zeta in X. destruct X as [X1 X2]. cbv zeta. split; apply Qc_is_canon; [rewrite X1|rewrite X2]; reflexivity.
Qed.
Print Assumptions C87_parameter_refuted.
(* Anti bounce back with the equilibrium 0 at the walls, parameter 1/2: a distribution is negative after one step, all of them were between 0 and 1/2. *)
Theorem C87_anti_refuted : exists a, qbuild (1 # 2) (1 # 2) = Some a /\
  let run t := fst (cy_run st3 [0; 2; 1] v3line QcR Q2Qc a 0 [2%nat] (links_at st3 v3line [] [] abb [2%nat]) qphi (fun _ => Q2Qc 0) t (qstart Cython (1 # 2) (1 # 2) a)) in
  (forall c j k, In c wcs -> In j [1; 2; 3] -> (k < 3)%nat -> between Wq (Q2Qc 0) (Q2Qc 1) k (run 0%nat c [j] k)) /\ run 1%nat [1%nat] [3] 2%nat = Q2Qc (- (1 # 16)).
Proof.
  destruct (built_some (qbuild (1 # 2) (1 # 2))) as [a Ea]; [vm_compute; reflexivity|]. exists a. split; [exact Ea|].
  set (run := fun a t => fst (cy_run st3 [0; 2; 1] v3line QcR Q2Qc a 0 [2%nat] (links_at st3 v3line [] [] abb [2%nat]) qphi (fun _ => Q2Qc 0) t (qstart Cython (1 # 2) (1 # 2) a))).
  assert (X : match qbuild (1 # 2) (1 # 2) with Some a => forallb (fun c => forallb (fun j => forallb (fun k => Qle_bool (this (Wq k (Q2Qc 0))) (this (run a 0%nat c [j] k)) && Qle_bool (this (run a 0%nat c [j] k)) (this (Wq k (Q2Qc 1)))) (seq 0 3)) [1; 2; 3]) wcs = true
     /\ this (run a 1%nat [1%nat] [3] 2%nat) = (- (1 # 16))%Q | None => False end) by (vm_compute; split; reflexivity).
  rewrite Ea in X. destruct X as [X1 X2]. cbv zeta. split; [|apply Qc_is_canon; change (this (run a 1%nat [1%nat] [3%Z] 2%nat) == this (Q2Qc (- (1 # 16))))%Q; rewrite X2; reflexivity].
  intros c j k Hc Hj Hk. change (between Wq (Q2Qc 0) (Q2Qc 1) k (run a 0%nat c [j] k)). rewrite forallb_forall in X1. specialize (X1 c Hc). rewrite forallb_forall in X1. specialize (X1 j Hj). rewrite forallb_forall in X1.
  specialize (X1 k ltac:(apply in_seq; lia)). apply andb_prop in X1 as [X3 X4]. split; now apply Qle_bool_iff.
Qed.
Print Assumptions C87_anti_refuted.

(* C88: the weights 2, 4, 4; the energy is rho^2 + 2 q^2 + 4 e^2 with the moments rho, q, e. *)
Definition qweights (k : nat) : QcR := Q2Qc (if Nat.eqb k 0 then 2 else 4).
Definition qfactors (k : nat) : QcR := Q2Qc (nth k [1; 2; 4]%Q 0%Q).
Lemma dq_projection s1 s2 : projection qsimp [dq s1 s2] qweights.
Proof.
  intros f e h He Hh. assert (H0 := Hh 5%nat 0%nat 0%nat ltac:(now apply dq_moment)). rewrite dq_mom0 in H0.
  assert (HV : conserved_values QcR qsimp [dq s1 s2] f (fun _ => sum (K := QcR) 3 f)) by (apply (scalar_values qsimp [dq s1 s2] Wq 5%nat 0%nat 0%nat (dq_scalar s1 s2))).
  pose proof (He _ HV 0%nat (dq s1 s2)) as X. set (u := sum (K := QcR) 3 f) in *. clearbody u.
  pose proof (X 1%nat eq_refl ltac:(cbn; lia)) as X1. pose proof (X 2%nat eq_refl ltac:(cbn; lia)) as X2. rewrite dq_mom1 in X1. rewrite dq_mom2 in X2.
  unfold eqv in X1, X2. cbn [sd_eq dq nth teval qn] in X1, X2. unfold inner_product, sum, sumL, qweights. cbn [SchemeModel.total sizes map nv dq sd_v length list_sum fold_right Nat.add seq Nat.eqb radd rmul r0 rar QcR].
  assert (Y1 : e 1%nat = e 2%nat). { apply Qc_is_canon. apply (f_equal this) in X1. assert (Z : (this (e 1%nat - e 2%nat)%Qc == this (Q2Qc 0))%Q) by now rewrite X1. clear - Z. qc_q. lra. }
  assert (Y2 : e 0%nat = (e 1%nat + e 2%nat)%Qc). { apply Qc_is_canon. apply (f_equal this) in X2. assert (Z : (this (Q2Qc (1 # 2) * (e 1%nat + e 2%nat - e 0%nat))%Qc == this (Q2Qc 0))%Q) by now rewrite X2. clear - Z. qc_q. lra. }
  rewrite Y2, Y1. assert (Z : (this (h 0%nat + (h 1%nat + h 2%nat))%Qc == 0)%Q) by now rewrite H0. clear - Z. set (x := e 2%nat) in *. clearbody x. set (h0 := h 0%nat) in *. set (h1 := h 1%nat) in *. set (h2 := h 2%nat) in *. clearbody h0 h1 h2.
  apply Qc_is_canon. qc_q. setoid_replace (h0 : Q)%Q with (- (h1 + h2))%Q by lra. ring.
Qed.
Lemma dq_orthogonal s1 s2 : orthogonal [dq s1 s2] qweights qfactors.
Proof.
  split.
  - intros k Hk. change (k < 3)%nat in Hk. destruct k as [|[|[|k]]]; try lia; vm_compute; discriminate.
  - intros f m Hm. pose proof (Hm 0%nat (dq s1 s2) 0%nat eq_refl ltac:(cbn; lia)) as M0. pose proof (Hm 0%nat (dq s1 s2) 1%nat eq_refl ltac:(cbn; lia)) as M1. pose proof (Hm 0%nat (dq s1 s2) 2%nat eq_refl ltac:(cbn; lia)) as M2.
    rewrite dq_mom0 in M0. rewrite dq_mom1 in M1. rewrite dq_mom2 in M2. cbn [off firstn map fold_right Nat.add] in M0, M1, M2.
    unfold energy, sum, sumL, qweights, qfactors. cbn [SchemeModel.total sizes map nv dq sd_v length list_sum fold_right Nat.add seq Nat.eqb nth radd rmul r0 rar QcR].
    rewrite M0, M1, M2. apply Qc_is_canon. qc_q. ring.
Qed.
Example C88_example : exists a, qbuild (1 # 2) 2 = Some a /\ forall t,
  let run t := fst (np_run st3 [0; 2; 1] v3line QcR Q2Qc a 0 [2%nat] mss3 qphi t (qstart Numpy (1 # 2) 2 a)) in
  (fluid_total v3line [2%nat] Ds3 wcs (energy [dq (1 # 2) 2] qweights) (run (S t)) <= fluid_total v3line [2%nat] Ds3 wcs (energy [dq (1 # 2) 2] qweights) (run t))%Qc.
Proof.
  destruct (built_some (qbuild (1 # 2) 2)) as [a Ea]; [vm_compute; reflexivity|]. exists a. split; [exact Ea|].
  destruct (C88_simulation 1 [[0; 1; 2]] st3 [0; 2; 1] v3line [] [] bb D3 ms3 serial3 (qinv qcands) qsimp 1 (Q2Qc 0) [dq (1 # 2) 2] a (qinv_ok _) qsimp_ok (dq_ok _ _) (dq_ordered _ _) Ea
    (dq_below _ _) eq_refl quiet3 qweights qdata qphi) with (ps := [2%nat]) (Ds := Ds3) (mss := mss3) (css := wcs) (pos := 0%nat) as [_ R].
  - apply qdata_ok.
  - exact qphi_ok.
  - left. exact vessel3.
  - intros t lab x k Hk. reflexivity.
  - intros k Hk. change (k < 3)%nat in Hk. destruct k as [|[|[|k]]]; try lia; reflexivity.
  - intros f f'. apply (C88_collision (qinv qcands) qsimp 1 (Q2Qc 0) [dq (1 # 2) 2] a (qinv_ok _) qsimp_ok (dq_ok _ _) (dq_ordered _ _) Ea (dq_nosrc _ _) qweights qfactors f f' (dq_projection _ _) (dq_orthogonal _ _)).
    intros val b i d Hb Hi Hn. destruct b as [|[|b]]; try discriminate. injection Hb as <-. change (i < 3)%nat in Hi. destruct i as [|[|[|i]]]; try lia; split; vm_compute; discriminate.
  - exact parallel3.
  - exact axes3.
  - cbn. lia.
  - repeat constructor; cbn; intuition discriminate.
  - intros c. symmetry. apply wcoords.
  - exact (R (dq_numbers _ _)).
Qed.
(* A parameter larger than 2: (0, 1, -1) becomes (0, -3/2, 3/2). *)
Theorem C88_parameter_refuted : exists f f', projection qsimp [dq (5 # 2) 1] qweights /\ orthogonal [dq (5 # 2) 1] qweights qfactors /\
  collided QcR qsimp (Q2Qc 0) [dq (5 # 2) 1] f f' /\ energy [dq (5 # 2) 1] qweights f = Q2Qc 8 /\ energy [dq (5 # 2) 1] qweights f' = Q2Qc 18.
Proof.
  exists (fun k => Q2Qc (nth k [0; 1; - (1)]%Q 0%Q)), (fun k => Q2Qc (nth k [0; - (3 # 2); 3 # 2]%Q 0%Q)). split; [apply dq_projection|]. split; [apply dq_orthogonal|]. split.
  - intros val HV. assert (V := HV 5%nat 0%nat 0%nat ltac:(now apply dq_moment)). rewrite dq_mom0 in V. split.
    + intros c b i Hm. apply dq_moment in Hm as (-> & -> & ->). rewrite !(no_half (Q2Qc 0) _ (dq_nosrc _ _)), V, dq_mom0. apply Qc_is_canon. vm_compute. reflexivity.
    + intros b i d Hb Hi Hn. destruct b as [|[|b]]; try discriminate. injection Hb as <-. change (i < 3)%nat in Hi. destruct i as [|[|[|i]]]; try lia.
      * destruct (Hn 5%nat). now apply dq_moment.
      * rewrite !dq_mom1. apply Qc_is_canon. vm_compute. reflexivity.
      * rewrite !dq_mom2. apply Qc_is_canon. vm_compute. reflexivity.
  - split; apply Qc_is_canon; vm_compute; reflexivity.
Qed.
Print Assumptions C88_parameter_refuted.
