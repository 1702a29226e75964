(* C98: simulations which run backwards. *)
From Coq Require Import QArith Qcanon Lqa.
From Verif Require Import PyBase VelocityModel VelocityProofs Velocity3Proofs StencilModel StencilProofs GridModel GridProofs StorageModel
  ExchangeProofs StorageProps LinAlg AlgoModel AlgoProofs RelVelProofs KernelProofs GlobalModel GlobalProofs TorusProofs AlgoProps GlobalProps
  GenModel GenProofs GenProps StepGenModel StepGenProofs StepGenProps SchemeModel SchemeProofs SchemeProps BuildModel BuildProofs BuildProps BuildFrame
  DomainModel DomainProofs DomainProps BoundaryModel BoundaryProofs BoundaryProps BoundaryUpdProps VesselProofs VesselProps ChannelProps
  ParallelModel ParallelProofs ObstacleProofs ParallelProps ObstacleProps ParallelMassProps WholeModel WholeProps InitGenModel InitGenProps DuctProps FlowProofs FlowProps MovingProps BoundsProps MirrorProps.
Require Import Lia.
Open Scope Z_scope.

Section Reverse.
Variables (dimz : Z) (schemes : list (list Z)) (st : stencil) (r : list Z) (g : grid) (es : list DomainModel.elem) (labs : list Z) (conds : Z -> list (nat * method)).
Variables (Dm : dom) (ms : list (method * list blink)).
Hypothesis E : serial dimz schemes st r g es labs conds Dm ms.
Notation K := QcR.
Notation qk := Q2Qc.
Add Ring Kring : (rth K).
Variable inv : nat -> mat K -> option (mat K).
Variable simp : term K -> term K.
Variables (dm : nat) (hdt : K) (ds : list (sdict K)) (a : salgo K).
Hypothesis HI : inv_spec K inv.
Hypothesis HSi : simp_spec K simp.
Hypothesis D : dict_ok K simp ds.
Hypothesis O : ordered K simp ds.
Hypothesis EB : build K inv simp None dm hdt ds = Some a.
Hypothesis HPl : forall d t, In d ds -> In t (sd_P K d) -> below K dm t.
Hypothesis Hsz : map (nv K) ds = map (@length Z) schemes.
Hypothesis HQ : quiet st r g ms.
Hypothesis Hsrc : forall d, In d ds -> sd_src K d = [].
Notation n := (SchemeModel.total (sizes K ds)).
Notation arrive := (arrives st r g ms K qk).
Notation hist := (history st r g ms K qk simp hdt ds).
Notation step f f' := (collided K simp hdt ds f f').
Notation fluid x := (In x (fluid_cells g Dm)).
(* the distributions of the opposite velocities *)
Definition reversed (f : vec K) : vec K := fun k => f (symk r k).

(* The moments which are not conserved have the parameter 2 or 0. *)
Definition two_or_zero : Prop := forall val b i d, nth_error ds b = Some d -> (i < nv K d)%nat -> (forall c, ~ is_moment K simp ds c b i) ->
  teval K val (nth i (sd_s K d) (Num 0%K)) = (1 + 1)%K \/ teval K val (nth i (sd_s K d) (Num 0%K)) = 0%K.
Hypothesis H2 : two_or_zero.
(* The equilibrium does not change when all the velocities are reversed: each moment of the
   reversed distributions is the moment with the sign ep, and its equilibrium has the same sign. *)
Variable ec : nat -> K.
Variable ep : nat -> nat -> K.
Hypothesis HD : mirror_dict K simp ds (symk r) ec ep.

(* Two collisions give back the state. *)
Theorem C98_collision f f' : step f f' -> step f' f.
Proof using HI HSi D O EB Hsrc H2.
  intros Hf. destruct (values_ex K simp hdt ds D O inv None dm a HI EB f) as [u Hu]. destruct (Hf u Hu) as [F1 F2].
  pose proof (no_half hdt ds Hsrc) as NH.
  assert (S1 : same_on K ds (half K hdt ds u) u) by (intros c _; apply NH).
  assert (HV : conserved_values K simp ds f' u).
  { intros c b i Hm. rewrite (F1 c b i Hm), !NH. reflexivity. }
  apply (collided_one K simp hdt ds HSi D inv None dm a HI EB _ _ _ HV).
  - intros c b i Hm. rewrite !NH. symmetry. exact (Hu c b i Hm).
  - intros b i d Hb Hi Hn s. rewrite (F2 b i d Hb Hi Hn). fold s. destruct (H2 (half K hdt ds u) b i d Hb Hi Hn) as [X|X]; fold s in X; rewrite X; ring.
Qed.

(* Bounce back at rest (as closed_source of BoundsProps.v, the same origin for all the walls at rest). *)
Definition origin (source : nat -> cell -> option cell) (phi : Z -> list Q -> nat -> K) : Prop := forall G k x, (k < n)%nat -> fluid x ->
  boundary_condition K qk g (velk st) (symk r) (feq_of st phi g) Cython ms (gfield g K G) k (before st g k x) =
  match source k x with Some y => G (wrapg g y) k | None => G (wrapg g x) (symk r k) end.
Lemma origins : closed_domain dimz schemes st r g es labs conds Dm ms -> exists source : nat -> cell -> option cell,
  (forall k x y, (k < n)%nat -> fluid x -> source k x = Some y -> fluid y /\ source (symk r k) y = Some x) /\
  (forall k, (k < n)%nat -> (symk r k < n)%nat /\ symk r (symk r k) = k) /\
  forall phi, at_rest r n phi -> origin source phi.
Proof using E HI D EB Hsz.
  intros C. pose proof (whole_na schemes K inv simp dm hdt ds a HI D EB Hsz) as N1. rewrite (whole_size K inv simp dm hdt ds a HI D EB) in N1.
  unfold origin. rewrite N1 in *. destruct C as [C|C].
  - exists (VesselProps.src st g Dm). split; [intros k x y; now apply (src_ok _ _ _ _ _ _ _ _ _ _ C)|]. split.
    + intros k Hk. destruct (VesselProofs.sym_facts dimz schemes st r g Dm conds (labels_of g labs) ms (v_set _ _ _ _ _ _ _ _ _ _ C) (v_nodup _ _ _ _ _ _ _ _ _ _ C) k Hk) as (A & B & _). auto.
    + intros phi Hphi G k x Hk Hx. rewrite (transport_walls _ _ _ _ _ _ _ _ _ _ C K qk (feq_of st phi g) ltac:(intros b j Hj; apply Hphi; exact Hj)) by assumption. reflexivity.
  - exists (dsource st g Dm). split; [intros k x y; now apply (dsource_ok _ _ _ _ _ _ _ _ _ _ C)|]. split.
    + intros k Hk. destruct (VesselProofs.sym_facts dimz schemes st r g Dm conds (labels_of g labs) ms (u_set _ _ _ _ _ _ _ _ _ _ C) (u_nodup _ _ _ _ _ _ _ _ _ _ C) k Hk) as (A & B & _). auto.
    + intros phi Hphi G k x Hk Hx. rewrite (duct_transport _ _ _ _ _ _ _ _ _ _ C K qk (feq_of st phi g) ltac:(intros b j Hj; apply Hphi; exact Hj) Cython (gfield g K G) (fun y => G (wrapg g y))
        ltac:(intros j c _; unfold gfield; now rewrite wrapg_wrap by apply (u_grid _ _ _ _ _ _ _ _ _ _ C))) by assumption. reflexivity.
Qed.
Lemma arrive_closed phi G x k y source : origin source phi ->
  (k < n)%nat -> fluid x -> arrive phi G (wrapg g x) k y -> y = match source k x with Some z => G (wrapg g z) k | None => G (wrapg g x) (symk r k) end.
Proof using E HQ.
  intros HS Hk Hx Hy. rewrite <- HS by assumption. eapply arrives_unique; [exact E|exact Hy|].
  destruct (fluid_inside dimz schemes st r g es labs conds Dm ms E x Hx) as (Lx & _ & Hint). rewrite <- (cell_wrapg g x Lx Hint) at 2.
  apply (arrives_bc dimz schemes st r g es labs conds Dm ms E HQ).
Qed.

(* A history which starts with the collision of the reversed state of the time T goes through the
   collisions of the reversed states of the times T - 1, T - 2, ..., 0. *)
Theorem C98_history phis phis' G H T : hist phis G -> hist phis' H -> closed_domain dimz schemes st r g es labs conds Dm ms ->
  (forall t, at_rest r n (phis t)) -> (forall t, at_rest r n (phis' t)) ->
  (forall x, fluid x -> step (reversed (G T (wrapg g x))) (H 0%nat (wrapg g x))) ->
  forall t, (t <= T)%nat -> forall x, fluid x -> step (reversed (G (T - t)%nat (wrapg g x))) (H t (wrapg g x)).
Proof using E HI HSi D O EB Hsz HQ Hsrc H2 HD.
  intros HG HH C R R' H0. induction t as [|t IH]; intros Ht x Hx; [rewrite Nat.sub_0_r; now apply H0|].
  specialize (IH ltac:(lia)). set (u := (T - S t)%nat) in *. replace (T - t)%nat with (S u) in IH by (unfold u; lia).
  destruct (origins C) as (src & S1 & SI & S3).
  (* the state of H before its collision is the reversed state before the collision of G *)
  assert (Back : forall y, fluid y -> forall p, step p (G (S u) (wrapg g y)) -> agree K n (H t (wrapg g y)) (reversed p)).
  { intros y Hy p Hp. specialize (IH y Hy).
    apply (step_fun K simp hdt ds HSi D O inv None dm a HI EB (reversed (G (S u) (wrapg g y))) (reversed (G (S u) (wrapg g y)))); [intros k _; reflexivity|exact IH|].
    apply C98_collision. exact (step_mirror K inv simp dm hdt ds a HI HSi D O EB (symk r) ec ep HD p _ Hp). }
  destruct (HH t (wrapg g x)) as (q & Q1 & Q2). apply (collided_agree K simp hdt ds q _ (H (S t) (wrapg g x)) _); [|intros k _; reflexivity|exact Q2].
  intros k Hk. destruct (SI k Hk) as [Sk Skk]. unfold reversed.
  rewrite (arrive_closed (phis' t) (H t) x k (q k) src (S3 _ (R' t)) Hk Hx (Q1 k Hk)).
  destruct (src k x) as [y|] eqn:Es.
  - destruct (S1 k x y Hk Hx Es) as [Hy Ey]. destruct (HG u (wrapg g y)) as (p & P1 & P2). rewrite (Back y Hy p P2 k Hk). unfold reversed.
    rewrite (arrive_closed (phis u) (G u) y (symk r k) (p (symk r k)) src (S3 _ (R u)) Sk Hy (P1 _ Sk)).
    now rewrite Ey.
  - destruct (HG u (wrapg g x)) as (p & P1 & P2). rewrite (Back x Hx p P2 (symk r k) Sk). unfold reversed. rewrite Skk.
    rewrite (arrive_closed (phis u) (G u) x k (p k) src (S3 _ (R u)) Hk Hx (P1 k Hk)).
    now rewrite Es.
Qed.
(* The conserved moments of such a state: the old ones with their signs. *)
Lemma back_moments f f' c b i : step (reversed f) f' -> is_moment K simp ds c b i -> mom K ds f' b i = (ec c * mom K ds f b i)%K.
Proof using HI HSi D O EB Hsrc HD.
  intros Hf Hm. destruct (values_ex K simp hdt ds D O inv None dm a HI EB (reversed f)) as [u Hu]. destruct (Hf u Hu) as [F1 _].
  rewrite (F1 c b i Hm), !(no_half hdt ds Hsrc), (Hu c b i Hm). destruct Hm as (d & Hb & Hc & Hi & Hr).
  unfold reversed. rewrite (md_mom _ _ _ _ _ _ HD f b i d Hb Hi). f_equal. apply (md_cons _ _ _ _ _ _ HD). now exists d.
Qed.

(* The arrays of any simulation which holds G at the start hold G after t steps: on every process
   grid, with both back ends, in every order of the storage. *)
Definition computes (phis : nat -> Z -> list Q -> nat -> K) (G : nat -> list Z -> vec K) : Prop :=
  forall ps Ds mss pos, parallel st g es labs conds ps Ds mss -> Forall (fun x => forall c, (c < ax_p x)%nat -> ax_lo x c < ax_hi x c) (proc_axes g ps) -> (pos <= dim g)%nat ->
  forall s, holds K (proc_axes g ps) n (fst s) (G 0%nat) ->
  (forall L0 t, holds K (proc_axes g ps) n (fst (cy_run st r g K qk a pos ps mss phis L0 t s)) (G t)) /\
  ((forall d t, In d ds -> In t (sd_s K d) -> vars K t = []) -> forall t, holds K (proc_axes g ps) n (fst (np_run st r g K qk a pos ps mss phis t s)) (G t)).

(* A simulation from any state G0, for T steps; then a simulation from the collision of the
   reversed last state: after t steps its conserved moments are those of the first one after
   T - t steps, with their signs, and one more collision gives the reversed distributions. *)
Theorem C98_simulation phis phis' G0 T : walls_ok K phis -> walls_ok K phis' -> closed_domain dimz schemes st r g es labs conds Dm ms ->
  (forall t, at_rest r n (phis t)) -> (forall t, at_rest r n (phis' t)) ->
  exists G, G 0%nat = G0 /\ computes phis G /\
  forall H0, (forall x, fluid x -> step (reversed (G T (wrapg g x))) (H0 (wrapg g x))) ->
  exists H, H 0%nat = H0 /\ computes phis' H /\
  forall t, (t <= T)%nat -> forall x, fluid x ->
    step (H t (wrapg g x)) (reversed (G (T - t)%nat (wrapg g x))) /\
    forall c b i, is_moment K simp ds c b i -> mom K ds (H t (wrapg g x)) b i = (ec c * mom K ds (G (T - t)%nat (wrapg g x)) b i)%K.
Proof using E HI HSi D O EB HPl Hsz HQ Hsrc H2 HD.
  intros W W' C R R'.
  destruct (C65_simulation dimz schemes st r g es labs conds Dm ms E K qk inv simp dm hdt ds a HI HSi D O EB HPl Hsz phis G0 HQ W) as (G & G1 & G2 & G3).
  exists G. split; [exact G1|]. split.
  { intros ps Ds mss pos P1 P2 P3 s Hs. rewrite G1 in Hs. destruct (G3 ps Ds mss pos P1 P2 P3 s Hs) as [R1 R2]. split; [exact R1|]. intros Hn t. exact (proj1 (R2 Hn t)). }
  intros H0 HH0.
  destruct (C65_simulation dimz schemes st r g es labs conds Dm ms E K qk inv simp dm hdt ds a HI HSi D O EB HPl Hsz phis' H0 HQ W') as (H & J1 & J2 & J3).
  exists H. split; [exact J1|]. split.
  { intros ps Ds mss pos P1 P2 P3 s Hs. rewrite J1 in Hs. destruct (J3 ps Ds mss pos P1 P2 P3 s Hs) as [R1 R2]. split; [exact R1|]. intros Hn t. exact (proj1 (R2 Hn t)). }
  intros t Ht x Hx. assert (X : step (reversed (G (T - t)%nat (wrapg g x))) (H t (wrapg g x))).
  { apply (C98_history phis phis' G H T); try assumption. intros y Hy. rewrite J1. now apply HH0. }
  split; [now apply C98_collision|]. intros c b i Hm. now apply back_moments.
Qed.
End Reverse.
Print Assumptions C98_collision.
Print Assumptions C98_history.
Print Assumptions C98_simulation.

(* ------------------------------------------------- examples *)
(* The line of C87: velocities 0, 1, -1, two walls, two processes; both parameters are 2. *)
Lemma reverse_dq s1 s2 : mirror_dict QcR qsimp [dq s1 s2] (symk [0; 2; 1]) ec3 ep3.
Proof.
  destruct (mirror_dq s1 s2) as [M1 M2 M3 M4 M5]. split; try assumption. intros f b i d Hb Hi. rewrite <- (M1 f b i d Hb Hi).
  apply mom_agree. intros k Hk. change (k < 3)%nat in Hk. destruct k as [|[|[|k]]]; try lia; reflexivity.
Qed.
Lemma two_dq : two_or_zero qsimp [dq 2 2].
Proof.
  intros val b i d Hb Hi Hn. left. destruct b as [|[|b]]; try discriminate. injection Hb as <-. change (i < 3)%nat in Hi.
  destruct i as [|[|[|i]]]; try lia; [destruct (Hn 5%nat); now apply dq_moment| |]; apply Qc_is_canon; reflexivity.
Qed.
(* A simulation of T steps from any state, turned back, has the initial densities again after T steps. *)
Example C98_example : exists a, qbuild 2 2 = Some a /\ forall (G0 : list Z -> vec QcR) T, exists G, G 0%nat = G0 /\
  computes st3 [0; 2; 1] v3line [] [] bb [dq 2 2] a qphi G /\
  exists H, computes st3 [0; 2; 1] v3line [] [] bb [dq 2 2] a qphi H /\
  (forall x, In x (fluid_cells v3line D3) -> collided QcR qsimp (Q2Qc 0) [dq 2 2] (reversed [0; 2; 1] (G T (wrapg v3line x))) (H 0%nat (wrapg v3line x))) /\
  forall x, In x (fluid_cells v3line D3) -> mom QcR [dq 2 2] (H T (wrapg v3line x)) 0 0 = mom QcR [dq 2 2] (G0 (wrapg v3line x)) 0 0.
Proof.
  destruct (built_some (qbuild 2 2)) as [a Ea]; [vm_compute; reflexivity|]. exists a. split; [exact Ea|]. intros G0 T.
  destruct (C98_simulation 1 [[0; 1; 2]] st3 [0; 2; 1] v3line [] [] bb D3 ms3 serial3 (qinv qcands) qsimp 1 (Q2Qc 0) [dq 2 2] a (qinv_ok _) qsimp_ok (dq_ok _ _) (dq_ordered _ _) Ea
    (dq_below _ _) eq_refl quiet3 (dq_nosrc _ _) two_dq ec3 ep3 (reverse_dq _ _) qphi qphi G0 T) as (G & G1 & G2 & G3).
  - exact qphi_ok.
  - exact qphi_ok.
  - left. exact vessel3.
  - intros t lab x k Hk. reflexivity.
  - intros t lab x k Hk. reflexivity.
  - exists G. split; [exact G1|]. split; [exact G2|].
    set (H0 := fun x => collide QcR (algo_of QcR a) (reversed [0; 2; 1] (G T x))).
    assert (X : forall x, collided QcR qsimp (Q2Qc 0) [dq 2 2] (reversed [0; 2; 1] (G T x)) (H0 x)) by (intros x; apply (C64_step QcR (qinv qcands) qsimp None 1 (Q2Qc 0) [dq 2 2] a (qinv_ok _) qsimp_ok (dq_ok _ _) (dq_ordered _ _) Ea); [discriminate|apply dq_below]).
    destruct (G3 H0 (fun x _ => X (wrapg v3line x))) as (H & J1 & J2 & J3). exists H. split; [exact J2|]. split; [intros x _; rewrite J1; apply X|].
    intros x Hx. destruct (J3 T (le_n T) x Hx) as [_ M]. rewrite (M 5%nat 0%nat 0%nat) by now apply dq_moment. rewrite Nat.sub_diag, G1. unfold ec3. apply Qc_is_canon. cbn [rmul rar QcR]. qc_q. ring.
Qed.
(* With the parameter 1 two states have the same collision: nothing can run backwards. *)
Theorem C98_parameter_refuted : exists f f' e, f 1%nat <> f' 1%nat /\ collided QcR qsimp (Q2Qc 0) [dq 1 1] f e /\ collided QcR qsimp (Q2Qc 0) [dq 1 1] f' e.
Proof.
  assert (X : forall l : list Q, (nth 0 l 0 + (nth 1 l 0 + nth 2 l 0) == 0)%Q -> collided QcR qsimp (Q2Qc 0) [dq 1 1] (fun k => Q2Qc (nth k l 0%Q)) (fun _ => Q2Qc 0)).
  { intros l Hl val HV. assert (V := HV 5%nat 0%nat 0%nat ltac:(now apply dq_moment)). rewrite dq_mom0 in V.
    assert (V0 : val 5%nat = Q2Qc 0) by (rewrite V; apply Qc_is_canon; qc_q; exact Hl). split.
    - intros c b i Hm. apply dq_moment in Hm as (-> & -> & ->). rewrite !(no_half (Q2Qc 0) _ (dq_nosrc _ _)), V0, dq_mom0. apply Qc_is_canon. vm_compute. reflexivity.
    - intros b i d Hb Hi Hn. destruct b as [|[|b]]; try discriminate. injection Hb as <-. change (i < 3)%nat in Hi. destruct i as [|[|[|i]]]; try lia.
      + destruct (Hn 5%nat). now apply dq_moment.
      + rewrite !dq_mom1. unfold eqv. cbn [sd_s sd_eq dq nth teval qn rsub radd rmul r1 rar ropp QcR]. apply Qc_is_canon. qc_q. ring.
      + rewrite !dq_mom2. unfold eqv. cbn [sd_s sd_eq dq nth teval qn rsub radd rmul r1 rar ropp QcR]. apply Qc_is_canon. qc_q. ring. }
  exists (fun k => Q2Qc (nth k [0; 1; - (1)]%Q 0%Q)), (fun k => Q2Qc (nth k [0; 0; 0]%Q 0%Q)), (fun _ => Q2Qc 0). split; [discriminate|]. split; apply X; reflexivity.
Qed.
Print Assumptions C98_parameter_refuted.
