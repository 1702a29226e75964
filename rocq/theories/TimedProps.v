(* C90: dictionaries whose equilibria, relaxation parameters and sources contain the time, the time
   step or extra parameters: during each step the simulation follows the dictionary with the values
   which the kernels get at the start of this step. *)
From Coq Require Import QArith.
From Verif Require Import PyBase VelocityModel VelocityProofs Velocity3Proofs StencilModel StencilProofs GridModel GridProofs StorageModel
  ExchangeProofs StorageProps LinAlg AlgoModel AlgoProofs RelVelProofs KernelProofs GlobalModel GlobalProofs TorusProofs AlgoProps GlobalProps
  GenModel GenProofs GenProps StepGenModel StepGenProofs StepGenProps SchemeModel SchemeProofs SchemeProps BuildModel BuildProofs BuildProps BuildFrame
  DomainModel DomainProofs DomainProps BoundaryModel BoundaryProofs BoundaryProps BoundaryUpdProps VesselProofs VesselProps ChannelProps
  ParallelModel ParallelProofs ObstacleProofs ParallelProps ObstacleProps ParallelMassProps WholeModel WholeProps InitGenModel InitGenProps FlowProofs FlowProps
  TimedModel TimedProofs.
Require Import Lia.
Open Scope Z_scope.

(* ------------------------------------------------- the specification *)
Section Spec.
Variable K : ring.
Variable simp : term K -> term K.
Variables (hdt : K) (ds : list (sdict K)).
(* val gives the values arg to the symbols which are not conserved moments *)
Definition with_values (arg val : nat -> K) : Prop := forall c, ~ In c (conserved K ds) -> val c = arg c.
(* the collision of C64, where the other symbols have the values arg *)
Definition collided_with (arg : nat -> K) (f f' : vec K) : Prop := forall val : vec K,
  (forall c b i, is_moment K simp ds c b i -> val c = mom K ds f b i) -> with_values arg val ->
  let val1 := half K hdt ds val in
  (forall c b i, is_moment K simp ds c b i -> mom K ds f' b i = half K hdt ds val1 c) /\
  (forall b i d, nth_error ds b = Some d -> (i < nv K d)%nat -> (forall c, ~ is_moment K simp ds c b i) ->
     let s := teval K val1 (nth i (sd_s K d) (Num 0%K)) in
     mom K ds f' b i = ((1 - s) * mom K ds f b i + s * eqv K d i val1)%K).
(* the initial state of C68, where the other symbols have the values arg *)
Definition initial_with (arg : nat -> K) (l : list (ikey * (list Q -> K))) (x : list Q) (f : vec K) : Prop :=
  (forall r c b i, nth_error (conserved K ds) r = Some c -> is_moment K simp ds c b i -> given_value K ds l r x (mom K ds f b i)) /\
  (forall val : vec K, (forall c b i, is_moment K simp ds c b i -> val c = mom K ds f b i) -> with_values arg val ->
   forall b i d, nth_error ds b = Some d -> (i < nv K d)%nat -> mom K ds f b i = eqv K d i val).
End Spec.

(* ------------------------------------------------- the dictionary with the values of one call *)
Section Call.
Variable K : ring.
Variable inv : nat -> mat K -> option (mat K).
Variable simp : term K -> term K.
Variables (dm : nat) (hdt : K) (ds : list (sdict K)) (a : salgo K).
Hypothesis HI : inv_spec K inv.
Hypothesis HSi : simp_spec K simp.
Hypothesis HO : open_ok K ds.
Hypothesis O : ordered K simp ds.
Hypothesis EB : build K inv simp None dm hdt ds = Some a.
Hypothesis HPl : forall d t, In d ds -> In t (sd_P K d) -> below K dm t.
Variable arg : nat -> K.
Notation cs := (conserved K ds).
Notation n := (SchemeModel.total (sizes K ds)).
Definition fds := map (fixed_dict K simp arg cs) ds.
Definition fa : salgo K := match build K inv simp None dm hdt fds with Some a' => a' | None => a end.
Notation fdict := (fixed_dict K simp arg cs).
Lemma call_ok : dict_ok K simp fds.
Proof using HO. exact (fds_ok K simp arg cs ds HO eq_refl). Qed.
Lemma call_ordered : ordered K simp fds.
Proof using HO O. exact (fds_ordered K simp arg cs ds HO eq_refl O). Qed.
Lemma call_build : build K inv simp None dm hdt fds = Some fa.
Proof using HI HO EB. destruct (build_fixed K inv simp HI arg cs ds HO eq_refl None dm hdt a EB) as (a' & E' & _). unfold fa. cbn [option_map] in E'. fold fds in E'. now rewrite E'. Qed.
Lemma call_facts : same_algo K fa (called K arg a) /\ scheme_consm K inv simp fds = scheme_consm K inv simp ds /\ sa_n K a = n /\ (forall c g, In (c, g) (concat (map (sd_src K) ds)) -> In c cs).
Proof using HI HO EB.
  destruct (build_fixed K inv simp HI arg cs ds HO eq_refl None dm hdt a EB) as (a' & E' & H). unfold fa. cbn [option_map] in E'. fold fds in E', H. now rewrite E'.
Qed.
Lemma call_below d t : In d fds -> In t (sd_P K d) -> below K dm t.
Proof using HPl. intros Hd Ht. apply in_map_iff in Hd as (d0 & <- & Hd). exact (HPl d0 t Hd Ht). Qed.
Lemma call_sizes : sizes K fds = sizes K ds.
Proof using. exact (fds_sizes K simp arg cs ds). Qed.
Lemma call_nv : map (nv K) fds = map (nv K) ds.
Proof using. exact call_sizes. Qed.
Lemma call_moment c b i : is_moment K simp fds c b i <-> is_moment K simp ds c b i.
Proof using HO. exact (fds_moment K simp arg cs ds HO eq_refl c b i). Qed.
Lemma call_mom f b i : mom K fds f b i = mom K ds f b i.
Proof using. exact (fds_mom K simp arg cs ds f b i). Qed.
Lemma call_conserved : conserved K fds = cs.
Proof using. exact (fds_conserved K simp arg cs ds eq_refl). Qed.
Lemma call_nth b d : nth_error ds b = Some d -> nth_error fds b = Some (fdict d).
Proof using. intros H. apply (fds_nth K simp arg cs ds). now exists d. Qed.
Lemma call_refers k r : refers K fds k r <-> refers K ds k r.
Proof using. unfold refers. now rewrite call_conserved, call_sizes. Qed.
Lemma call_known k : known K ds k -> known K fds k.
Proof using. intros (r & H1 & H2). exists r. rewrite call_sizes. split; [exact H1|now apply call_refers]. Qed.
Lemma call_given l r x v : given_value K fds l r x v <-> given_value K ds l r x v.
Proof using.
  unfold given_value. split; (intros [(l1 & k & w & l2 & E1 & E2 & E3 & E4)|[E1 E2]]; [left; exists l1, k, w, l2|right]; repeat split; try assumption; try (now apply call_refers);
    intros p Hp Hr; [apply (E3 p Hp)|apply (E1 p Hp)]; now apply call_refers).
Qed.
Lemma call_numpy : (forall d t c, In d ds -> In t (sd_s K d) -> In c (vars K t) -> ~ In c cs) -> forall d t, In d fds -> In t (sd_s K d) -> vars K t = [].
Proof using.
  intros H d t Hd Ht. apply in_map_iff in Hd as (d0 & <- & Hd). cbn in Ht. apply in_map_iff in Ht as (t0 & <- & Ht).
  assert (X : forall t, (forall c, In c (vars K t) -> ~ In c cs) -> vars K (fixed K arg cs t) = []).
  { induction t as [x|i|o t IH|o t1 IH1 t2 IH2]; intros Hf; cbn in *; try reflexivity.
    - destruct (existsb (Nat.eqb i) cs) eqn:Ei; [|reflexivity]. apply mem_spec in Ei. destruct (Hf i (or_introl eq_refl) Ei).
    - now apply IH.
    - rewrite IH1, IH2; [reflexivity|intros c Hc; apply Hf, in_or_app; now right|intros c Hc; apply Hf, in_or_app; now left]. }
  apply X. intros c Hc. exact (H d0 t0 c Hd Ht Hc).
Qed.
Lemma call_collided f f' : collided K simp hdt fds f f' <-> collided_with K simp hdt ds arg f f'.
Proof using HI HSi HO EB.
  pose proof call_ok as DK. split.
  - intros H val HV Hg val1. destruct (half_fixed K simp arg cs ds eq_refl hdt val Hg) as [E1 G1]. destruct (half_fixed K simp arg cs ds eq_refl hdt val1 G1) as [E2 G2]. fold fds in E1, E2.
    destruct (H val) as [H1 H2]; [intros c b i Hm; rewrite call_mom; apply HV; now apply call_moment|]. rewrite E1 in H1, H2. fold val1 in H1, H2. split.
    + intros c b i Hm. rewrite <- call_mom, (H1 c b i) by now apply call_moment. now rewrite E2.
    + intros b i d Hb Hi Hn s. pose proof (H2 b i (fdict d) (call_nth b d Hb) Hi ltac:(intros c Hc; apply (Hn c); now apply call_moment)) as H3. cbv zeta in H3. rewrite !call_mom in H3.
      rewrite (eqv_fixed K simp HSi arg cs ds HO d i val1 (nth_error_In _ _ Hb) Hi G1) in H3. cbn [fixed_dict sd_s] in H3.
      rewrite nth_fixed, (fixed_eval K arg cs val1 _ G1) in H3. exact H3.
  - intros H val HV val1. set (u := put_args K arg cs val). pose proof (put_given K arg cs val) as Hg. fold u in Hg. set (u1 := half K hdt ds u).
    destruct (half_fixed K simp arg cs ds eq_refl hdt u Hg) as [E1 G1]. destruct (half_fixed K simp arg cs ds eq_refl hdt u1 G1) as [E2 G2]. fold fds in E1, E2. fold u1 in E1, G1.
    assert (S0 : same_on K fds val u) by (intros c Hc; rewrite call_conserved in Hc; symmetry; now apply put_same).
    pose proof (half_same K simp hdt fds DK val u S0) as S1. fold val1 in S1. rewrite E1 in S1. pose proof (half_same K simp hdt fds DK val1 u1 S1) as S2. rewrite E2 in S2.
    destruct (H u) as [H1 H2].
    { intros c b i Hm. assert (Hc : In c cs) by (eapply moment_in; exact Hm). unfold u. rewrite (put_same K arg cs val c Hc), <- call_mom. apply HV. now apply call_moment. }
    { exact Hg. }
    fold u1 in H1, H2. split.
    + intros c b i Hm. apply call_moment in Hm. rewrite call_mom, (H1 c b i Hm). symmetry. apply S2. rewrite call_conserved. eapply moment_in; exact Hm.
    + intros b i d Hb Hi Hn s. pose proof Hb as Hb'. apply (fds_nth K simp arg cs ds) in Hb' as (d0 & Hb0 & ->).
      pose proof (H2 b i d0 Hb0 Hi ltac:(intros c Hc; apply (Hn c); now apply call_moment)) as H3. cbv zeta in H3. rewrite !call_mom.
      rewrite <- (eqv_fixed K simp HSi arg cs ds HO d0 i u1 (nth_error_In _ _ Hb0) Hi G1) in H3.
      rewrite <- (closed_eqv K simp fds HSi DK (fdict d0) i val1 u1 (nth_error_In _ _ Hb) Hi S1) in H3.
      rewrite <- (fixed_eval K arg cs u1 _ G1), <- nth_fixed in H3.
      unfold s. rewrite (closed_rate K simp fds DK (fdict d0) i val1 u1 (nth_error_In _ _ Hb) S1). exact H3.
Qed.
Lemma call_initial l x f : initial_state K simp fds l x f <-> initial_with K simp ds arg l x f.
Proof using HSi HO.
  pose proof call_ok as DK. unfold initial_state, initial_with. rewrite call_conserved. split; intros [H1 H2]; split.
  - intros r c b i Hr Hm. rewrite <- call_mom. apply call_given. apply (H1 r c b i Hr). now apply call_moment.
  - intros val HV Hg b i d Hb Hi. rewrite <- (eqv_fixed K simp HSi arg cs ds HO d i val (nth_error_In _ _ Hb) Hi Hg), <- call_mom.
    apply H2; [|now apply call_nth|exact Hi]. intros c b' i' Hm. rewrite call_mom. apply HV. now apply call_moment.
  - intros r c b i Hr Hm. rewrite call_mom. apply call_given. apply (H1 r c b i Hr). now apply call_moment.
  - intros val HV b i d Hb Hi. pose proof Hb as Hb'. apply (fds_nth K simp arg cs ds) in Hb' as (d0 & Hb0 & ->). rewrite call_mom.
    rewrite (closed_eqv K simp fds HSi DK (fdict d0) i val (put_args K arg cs val) (nth_error_In _ _ Hb) Hi).
    2:{ intros c Hc. rewrite call_conserved in Hc. symmetry. now apply put_same. }
    rewrite (eqv_fixed K simp HSi arg cs ds HO d0 i _ (nth_error_In _ _ Hb0) Hi (put_given K arg cs val)).
    apply H2; [|apply put_given|exact Hb0|exact Hi]. intros c b' i' Hm. assert (Hc : In c cs) by (eapply moment_in; exact Hm). rewrite (put_same K arg cs val c Hc), <- call_mom. apply HV. now apply call_moment.
Qed.
(* The description determines the values. *)
Theorem C90_determined f f' f'' : collided_with K simp hdt ds arg f f' -> collided_with K simp hdt ds arg f f'' -> agree K n f' f''.
Proof using HI HSi HO O EB.
  intros H' H''. rewrite <- call_sizes. apply (C64_determined K inv simp None dm hdt fds fa HI call_ok call_ordered call_build f); now apply call_collided.
Qed.
Theorem C90_start_determined l x f f' : initial_with K simp ds arg l x f -> initial_with K simp ds arg l x f' -> agree K n f f'.
Proof using HI HSi HO O EB.
  intros H H'. rewrite <- call_sizes. apply (C68_determined K simp fds inv None dm hdt fa HI call_ok call_ordered call_build l x); now apply call_initial.
Qed.
End Call.

(* ------------------------------------------------- simulations *)
Section Sim.
Variables (dimz : Z) (schemes : list (list Z)) (st : stencil) (r : list Z) (g : grid) (es : list DomainModel.elem) (labs : list Z) (conds : Z -> list (nat * method)).
Variables (Dm : dom) (ms : list (method * list blink)).
Hypothesis E : serial dimz schemes st r g es labs conds Dm ms.
Variables (K : ring) (qk : Q -> K).
Add Ring Kring : (rth K).
Variable inv : nat -> mat K -> option (mat K).
Variable simp : term K -> term K.
Variables (dm : nat) (hdt : K) (ds : list (sdict K)) (a : salgo K).
Hypothesis HI : inv_spec K inv.
Hypothesis HSi : simp_spec K simp.
Hypothesis HO : open_ok K ds.
Hypothesis O : ordered K simp ds.
Hypothesis EB : build K inv simp None dm hdt ds = Some a.
Hypothesis HPl : forall d t, In d ds -> In t (sd_P K d) -> below K dm t.
Hypothesis Hsz : map (nv K) ds = map (@length Z) schemes.
Hypothesis HQ : quiet st r g ms.
Notation n := (SchemeModel.total (sizes K ds)).
Notation cs := (conserved K ds).
(* the values of the symbols which are not conserved moments, during the step t: simulation.py 402-420
   and base.py 630-667; the equilibrium of the initialization uses those of the step 0 *)
Variable args : nat -> nat -> K.
Notation at_step t := (called K (args t) a).
Fixpoint timed_cy pos ps mss (phis : nat -> Z -> list Q -> nat -> K) L0 t s := match t with
  | Datatypes.O => s
  | S t => cy_step st r g K qk (at_step t) pos ps mss Cython (phis t) L0 (timed_cy pos ps mss phis L0 t s)
  end.
Fixpoint timed_np pos ps mss (phis : nat -> Z -> list Q -> nat -> K) t s := match t with
  | Datatypes.O => s
  | S t => np_step st r g K qk (at_step t) pos ps mss Numpy (phis t) (timed_np pos ps mss phis t s)
  end.
Definition timed_start pos be ps l := start K (at_step 0%nat) pos (scheme_consm K inv simp ds) be true g ps (Some l).
(* the parameters of relaxation have no conserved moments *)
Definition plain_rates : Prop := forall d t c, In d ds -> In t (sd_s K d) -> In c (vars K t) -> ~ In c cs.
(* the simulation holds the values of G: on every process grid, with both back ends, in every order of
   the storage; no error of NumPy *)
Definition timed_simulates l (phis : nat -> Z -> list Q -> nat -> K) (G : nat -> list Z -> vec K) : Prop :=
  forall ps Ds mss pos, parallel st g es labs conds ps Ds mss -> Forall (fun x => forall c, (c < ax_p x)%nat -> ax_lo x c < ax_hi x c) (proc_axes g ps) -> (pos <= dim g)%nat ->
  (forall L0 t, holds K (proc_axes g ps) n (fst (timed_cy pos ps mss phis L0 t (timed_start pos Cython ps l))) (G t)) /\
  (plain_rates -> forall t, holds K (proc_axes g ps) n (fst (timed_np pos ps mss phis t (timed_start pos Numpy ps l))) (G t) /\
     np_fine st r g K qk (at_step t) pos ps mss Numpy (phis t) (timed_np pos ps mss phis t (timed_start pos Numpy ps l))).
(* each cell follows the dictionary, with the values of the step t, from what arrives *)
Definition timed_history (phis : nat -> Z -> list Q -> nat -> K) (G : nat -> list Z -> vec K) : Prop := forall t x,
  exists f, (forall j, (j < n)%nat -> arrives st r g ms K qk (phis t) (G t) x j (f j)) /\ collided_with K simp hdt ds (args t) f (G (S t) x).

Notation FA t := (fa K inv simp dm hdt ds a (args t)).
Notation FD t := (fds K simp ds (args t)).
Notation ok t := (call_ok K simp ds HO (args t)).
Notation ord t := (call_ordered K simp ds HO O (args t)).
Notation bld t := (call_build K inv simp dm hdt ds a HI HO EB (args t)).
Notation blw t := (call_below K simp dm ds HPl (args t)).
Lemma step_size t : sa_n K (FA t) = n.
Proof using HI HO EB. rewrite (whole_size K inv simp dm hdt (FD t) (FA t) HI (ok t) (bld t)). now rewrite call_sizes. Qed.
Lemma step_nv t : map (nv K) (FD t) = map (@length Z) schemes.
Proof using Hsz. rewrite call_nv. exact Hsz. Qed.
Lemma step_same t : same_algo K (FA t) (at_step t).
Proof using HI HO EB. exact (proj1 (call_facts K inv simp dm hdt ds a HI HO EB (args t))). Qed.
Lemma cy_same t pos ps mss be phi L0 s : cy_step st r g K qk (at_step t) pos ps mss be phi L0 s = cy_step st r g K qk (FA t) pos ps mss be phi L0 s.
Proof using HI HO EB. unfold cy_step. now rewrite (same_cython K _ _ (step_same t)). Qed.
Lemma np_same t pos ps mss be phi s : np_step st r g K qk (at_step t) pos ps mss be phi s = np_step st r g K qk (FA t) pos ps mss be phi s.
Proof using HI HO EB. unfold np_step. now rewrite (same_numpy K _ _ (step_same t)), (sm_n _ _ _ (step_same t)). Qed.
Lemma fine_same t pos ps mss be phi s : np_fine st r g K qk (FA t) pos ps mss be phi s -> np_fine st r g K qk (at_step t) pos ps mss be phi s.
Proof using HI HO EB. unfold np_fine. now rewrite (same_numpy K _ _ (step_same t)), (sm_n _ _ _ (step_same t)). Qed.
Lemma start_same pos be ps l : timed_start pos be ps l = start K (FA 0%nat) pos (scheme_consm K inv simp (FD 0%nat)) be true g ps (Some l).
Proof using HI HO EB. unfold timed_start. rewrite <- (same_start K _ _ (step_same 0%nat)). now rewrite (proj1 (proj2 (call_facts K inv simp dm hdt ds a HI HO EB (args 0%nat)))). Qed.

Fixpoint timed_ref (phis : nat -> Z -> list Q -> nat -> K) (G0 : list Z -> vec K) t := match t with
  | Datatypes.O => G0
  | S t => ref_step st r g ms K qk (algo_of K (FA t)) Cython (phis t) (timed_ref phis G0 t)
  end.
Theorem C90_simulation l phis : regular_data K l -> (forall p, In p l -> known K ds (fst p)) -> (forall t, ParallelProps.regular (phis t)) ->
  exists G : nat -> list Z -> vec K, (forall x, initial_with K simp ds (args 0%nat) l (point g (cell_of g x)) (G 0%nat x)) /\ timed_history phis G /\ timed_simulates l phis G.
Proof using E HI HSi HO O EB HPl Hsz HQ.
  intros Hl Hk Hphis.
  destruct (C68_start dimz schemes st r g es labs conds Dm ms E K inv simp None dm hdt (FD 0%nat) (FA 0%nat) HI HSi (ok 0%nat) (ord 0%nat) (bld 0%nat) ltac:(discriminate) (blw 0%nat) l Hl
    (fun p Hp => call_known K simp ds (args 0%nat) _ (Hk p Hp))) as (G0 & S0 & I0).
  exists (timed_ref phis G0). split; [intros x; apply (call_initial K simp ds HSi HO); exact (I0 x)|]. split.
  - intros t x. cbn [timed_ref]. set (Gt := timed_ref phis G0 t).
    set (f := fun k => boundary_condition K qk g (velk st) (symk r) (feq_of st (phis t) g) Cython ms (gfield g K Gt) k (before st g k (cell_of g x))).
    pose proof (whole_ok K inv simp dm hdt (FD t) (FA t) HI (ok t) (ord t) (bld t) (blw t)) as SO. destruct (scheme_algo K (FA t) SO) as (He & Hs & HR).
    exists f. split; [intros j _; now apply (arrives_bc dimz schemes st r g es labs conds Dm ms E HQ)|].
    apply (call_collided K inv simp dm hdt ds a HI HSi HO EB).
    apply (collided_agree K simp hdt (FD t) f f (collide K (algo_of K (FA t)) f)); [intros k _; reflexivity| |apply (C64_step K inv simp None dm hdt (FD t) (FA t) HI HSi (ok t) (ord t) (bld t)); [discriminate|exact (blw t)]].
    intros k Hk'. symmetry. apply (pull_fun_collide K (algo_of K (FA t)) f He Hs); [cbn; now rewrite (built_relvel K inv simp None dm hdt (FD t) (FA t) HI (ok t) (bld t))|].
    cbn. rewrite step_size. now rewrite call_sizes in Hk'.
  - intros ps Ds mss pos HP NE Hpos.
    assert (H0 : forall be, holds K (proc_axes g ps) n (fst (timed_start pos be ps l)) G0).
    { intros be. rewrite start_same. destruct (S0 ps Ds mss pos be HP NE Hpos) as [_ H]. rewrite call_sizes in H. exact H. }
    assert (Ena : forall t, sa_n K (FA t) = length (concat schemes)) by (intros t; exact (whole_na schemes K inv simp dm hdt (FD t) (FA t) HI (ok t) (bld t) (step_nv t))).
    assert (SO : forall t, scheme_ok K (FA t)) by (intros t; exact (whole_ok K inv simp dm hdt (FD t) (FA t) HI (ok t) (ord t) (bld t) (blw t))).
    split.
    + intros L0 t. induction t as [|t IH]; [exact (H0 Cython)|]. cbn [timed_cy timed_ref]. rewrite cy_same. rewrite <- (step_size t) in *.
      exact (cy_step_holds dimz schemes st r g es labs conds Dm ms E HQ K qk (FA t) pos Hpos (Ena t) (SO t) ps Ds mss HP NE Cython (phis t) L0 _ _ (Hphis t) IH).
    + intros Hn. assert (N : forall t, numpy_ok K (FA t)).
      { intros t. apply (built_numpy K inv simp None dm hdt (FD t) (FA t) HI (ok t) (bld t)); [reflexivity|]. exact (call_numpy K simp ds (args t) Hn). }
      assert (H : forall t, holds K (proc_axes g ps) n (fst (timed_np pos ps mss phis t (timed_start pos Numpy ps l))) (timed_ref phis G0 t)).
      { induction t as [|t IH]; [exact (H0 Numpy)|]. cbn [timed_np timed_ref]. rewrite np_same. rewrite <- (step_size t) in *. intros c i Hc Hi.
        eapply agree_trans; [exact (proj1 (np_step_holds dimz schemes st r g es labs conds Dm ms E HQ K qk (FA t) pos Hpos (Ena t) (SO t) ps Ds mss HP NE Numpy (phis t) _ _ (N t) (Hphis t) IH) c i Hc Hi)|].
        apply (stepped_backend dimz schemes st r g es labs conds Dm ms E HQ K qk (FA t) (SO t) Numpy Cython). }
      intros t. split; [apply H|]. apply fine_same. pose proof (H t) as Ht. rewrite <- (step_size t) in Ht.
      exact (proj2 (np_step_holds dimz schemes st r g es labs conds Dm ms E HQ K qk (FA t) pos Hpos (Ena t) (SO t) ps Ds mss HP NE Numpy (phis t) _ _ (N t) (Hphis t) Ht)).
Qed.

(* ---- conserved quantities in closed domains ---- *)
Section Total.
Variables (c b i : nat).
Hypothesis Hm : is_moment K simp ds c b i.
Hypothesis He : even_moment r K ds b i.
Variables (phis : nat -> Z -> list Q -> nat -> K) (G : nat -> list Z -> vec K).
Hypothesis HG : timed_history phis G.
Hypothesis Hphis : forall t, ParallelProps.regular (phis t).
Hypothesis C : closed_domain dimz schemes st r g es labs conds Dm ms.
Hypothesis Hr : forall t, at_rest r n (phis t).
Notation total F := (sumL (fluid_cells g Dm) (fun x => mom K ds (F (wrapg g x)) b i)).
(* One step: the total changes by what the sources give to the values which arrive, with the time of the
   start of the step in both half steps. *)
Theorem C90_budget t : exists v : cell -> vec K,
  (forall x, In x (fluid_cells g Dm) -> exists f, (forall j, (j < n)%nat -> arrives st r g ms K qk (phis t) (G t) (wrapg g x) j (f j)) /\
     conserved_values K simp ds f (v x) /\ with_values K ds (args t) (v x)) /\
  (total (G (S t)) = total (G t) + sumL (fluid_cells g Dm) (fun x => half K hdt ds (half K hdt ds (v x)) c - v x c))%K.
Proof using E HI HSi HO O EB HPl Hsz HQ Hm He HG Hphis C Hr.
  destruct (C65_simulation dimz schemes st r g es labs conds Dm ms E K qk inv simp dm hdt (FD t) (FA t) HI HSi (ok t) (ord t) (bld t) (blw t) (step_nv t) (fun _ => phis t) (G t) HQ (fun _ => Hphis t))
    as (H & H0 & HH & _).
  assert (A : forall x, agree K n (H 1%nat x) (G (S t) x)).
  { intros x. destruct (HH 0%nat x) as (f & F1 & F2). destruct (HG t x) as (f' & F1' & F2'). apply (call_collided K inv simp dm hdt ds a HI HSi HO EB) in F2'. rewrite H0 in F1.
    rewrite <- (call_sizes K simp ds (args t)). apply (step_fun K simp hdt (FD t) HSi (ok t) (ord t) inv None dm (FA t) HI (bld t) f f'); [|exact F2|exact F2'].
    intros j Hj. eapply arrives_unique; [exact E|now apply F1|]. apply F1'. now rewrite call_sizes in Hj. }
  assert (Hm' : is_moment K simp (FD t) c b i) by (apply call_moment; assumption).
  assert (He' : even_moment r K (FD t) b i).
  { intros d j j' Hb Hj Hj'. rewrite (fds_off K simp (args t) cs ds). apply (fds_nth K simp (args t) cs ds) in Hb as (d0 & Hb & ->). exact (He d0 j j' Hb Hj Hj'). }
  assert (Hr' : forall t', at_rest r (SchemeModel.total (sizes K (FD t))) ((fun _ : nat => phis t) t')) by (intros t'; rewrite call_sizes; apply Hr).
  destruct (C75_budget dimz schemes st r g es labs conds Dm ms E K qk inv simp dm hdt (FD t) (FA t) HI HSi (ok t) (ord t) (bld t) (step_nv t) HQ c b i Hm' He' (fun _ => phis t) H HH C Hr') as [v HB].
  destruct (HB 0%nat) as [B1 B2]. rewrite H0 in B1, B2. exists (fun x => put_args K (args t) cs (v 0%nat x)). split.
  - intros x Hx. destruct (B1 x Hx) as (f & F1 & F2). exists f. split; [intros j Hj; apply F1; now rewrite call_sizes|]. split; [|apply put_given].
    intros c' b' i' Hc. assert (Hin : In c' cs) by (eapply moment_in; exact Hc). rewrite (put_same K (args t) cs _ c' Hin), <- (call_mom K simp ds (args t)). apply F2. now apply call_moment.
  - assert (T : forall F, sumL (fluid_cells g Dm) (fun x => mom K (FD t) (F (wrapg g x)) b i) = total F) by (intros F; apply sumL_ext; intros x _; apply call_mom).
    rewrite !T in B2. replace (total (G (S t))) with (total (H 1%nat)) by (apply sumL_ext; intros x _; apply mom_agree; apply A). rewrite B2. f_equal. apply sumL_ext. intros x _.
    set (u := put_args K (args t) cs (v 0%nat x)). pose proof (put_given K (args t) cs (v 0%nat x)) as Hg. fold u in Hg.
    destruct (half_fixed K simp (args t) cs ds eq_refl hdt u Hg) as [E1 G1]. destruct (half_fixed K simp (args t) cs ds eq_refl hdt (half K hdt ds u) G1) as [E2 G2].
    assert (S0 : same_on K (FD t) (v 0%nat x) u) by (intros c' Hc; rewrite call_conserved in Hc; symmetry; now apply put_same).
    pose proof (half_same K simp hdt (FD t) (ok t) _ _ (half_same K simp hdt (FD t) (ok t) _ _ S0)) as S2. fold (FD t) in E1, E2. rewrite E1, E2 in S2.
    assert (Hc : In c (conserved K (FD t))) by (eapply moment_in; exact Hm'). now rewrite (S2 c Hc), (S0 c Hc).
Qed.
Theorem C90_no_source : BuildProofs.source K ds c = None -> forall t, total (G t) = total (G 0%nat).
Proof using E HI HSi HO O EB HPl Hsz HQ Hm He HG Hphis C Hr.
  intros Hs. induction t as [|t IH]; [reflexivity|]. destruct (C90_budget t) as (v & _ & B). rewrite B, IH.
  assert (X : sumL (fluid_cells g Dm) (fun x => half K hdt ds (half K hdt ds (v x)) c - v x c)%K = 0%K); [|rewrite X; ring].
  rewrite <- (sumL_zero K (fluid_cells g Dm)). apply sumL_ext. intros x _. rewrite !half_none by exact Hs. ring.
Qed.
(* A source s of the time and the parameters: the total grows by 2 hdt s = dt s per cell, with the value
   of s at the start of the step. *)
Theorem C90_source s : BuildProofs.source K ds c = Some s -> (forall x, In x (vars K s) -> ~ In x cs) ->
  forall t, total (G t) = (total (G 0%nat) + sum t (fun i => sumL (fluid_cells g Dm) (fun _ => hdt * teval K (args i) s + hdt * teval K (args i) s)))%K.
Proof using E HI HSi HO O EB HPl Hsz HQ Hm He HG Hphis C Hr.
  intros Hs Hf. assert (Hc : In c cs) by (eapply moment_in; exact Hm). induction t as [|t IH]; [cbn; ring|]. destruct (C90_budget t) as (v & BV & B). rewrite B, IH, sum_S.
  assert (X : sumL (fluid_cells g Dm) (fun x => half K hdt ds (half K hdt ds (v x)) c - v x c)%K = sumL (fluid_cells g Dm) (fun _ => hdt * teval K (args t) s + hdt * teval K (args t) s)%K); [|rewrite X; ring].
  apply sumL_ext. intros x Hx. destruct (BV x Hx) as (f & _ & _ & Hg). destruct (half_fixed K simp (args t) cs ds eq_refl hdt (v x) Hg) as [_ G1].
  rewrite (half_free K (args t) cs ds HO eq_refl hdt c s _ Hc Hs Hf G1), (half_free K (args t) cs ds HO eq_refl hdt c s _ Hc Hs Hf Hg). ring.
Qed.
End Total.
(* The mass of the simulation: what "init" gives and what the source gave, on every process grid. *)
Theorem C90_mass l phis c b i s rk ps Ds mss css pos : regular_data K l -> (forall p, In p l -> known K ds (fst p)) -> (forall t, ParallelProps.regular (phis t)) ->
  closed_domain dimz schemes st r g es labs conds Dm ms -> (forall t, at_rest r n (phis t)) -> is_moment K simp ds c b i -> even_moment r K ds b i ->
  nth_error cs rk = Some c -> BuildProofs.source K ds c = Some s -> (forall x, In x (vars K s) -> ~ In x cs) ->
  parallel st g es labs conds ps Ds mss -> Forall (fun x => forall c, (c < ax_p x)%nat -> ax_lo x c < ax_hi x c) (proc_axes g ps) -> (pos <= dim g)%nat ->
  NoDup css -> (forall c, In c css <-> coords_ok (proc_axes g ps) c) ->
  let mass := fluid_total g ps Ds css (fun f => mom K ds f b i) in
  exists rho : cell -> K, (forall x, In x (fluid_cells g Dm) -> given_value K ds l rk (point g x) (rho x)) /\
  let expected t := (sumL (fluid_cells g Dm) rho + sum t (fun i => sumL (fluid_cells g Dm) (fun _ => hdt * teval K (args i) s + hdt * teval K (args i) s)))%K in
  (forall L0 t, mass (fst (timed_cy pos ps mss phis L0 t (timed_start pos Cython ps l))) = expected t) /\
  (plain_rates -> forall t, mass (fst (timed_np pos ps mss phis t (timed_start pos Numpy ps l))) = expected t).
Proof using E HI HSi HO O EB HPl Hsz HQ.
  intros Hl Hk Hphis C Hr Hm He Hrk Hs Hf HP NE Hpos Hnd Hcs mass. destruct (C90_simulation l phis Hl Hk Hphis) as (G & G0 & GH & GS).
  destruct (GS ps Ds mss pos HP NE Hpos) as [R1 R2]. pose proof (C90_source c b i Hm He phis G GH Hphis C Hr s Hs Hf) as T.
  assert (Hq : forall f f', agree K (length (concat schemes)) f f' -> mom K ds f b i = mom K ds f' b i).
  { intros f f' Hff. apply mom_agree. intros k Hkn. apply Hff. rewrite <- (whole_na schemes K inv simp dm hdt (FD 0%nat) (FA 0%nat) HI (ok 0%nat) (bld 0%nat) (step_nv 0%nat)), step_size. exact Hkn. }
  pose proof (fun F G H => fluid_total_ref dimz schemes st r g es labs conds Dm ms E ps Ds mss HP css Hnd Hcs K (fun f => mom K ds f b i) F G Hq H) as FT.
  rewrite <- (whole_na schemes K inv simp dm hdt (FD 0%nat) (FA 0%nat) HI (ok 0%nat) (bld 0%nat) (step_nv 0%nat)), step_size in FT.
  exists (fun x => mom K ds (G 0%nat (wrapg g x)) b i). split; [|split].
  - intros x Hx. destruct (fluid_inside dimz schemes st r g es labs conds Dm ms E x Hx) as (Lx & _ & Hint).
    rewrite <- (cell_wrapg g x Lx Hint) at 1. exact (proj1 (G0 _) rk c b i Hrk Hm).
  - intros L0 t. rewrite <- T. apply FT. apply R1.
  - intros Hn t. rewrite <- T. apply FT. now apply R2.
Qed.
End Sim.
(* the time at the start of the step i is i dt *)
Lemma clock_value (K : ring) (dt : K) i : clock K dt i = sum i (fun _ => dt).
Proof. induction i as [|i IH]; [reflexivity|]. cbn [clock]. now rewrite IH, sum_S. Qed.
(* The time, as it is seen by the collision of the step i. *)
Theorem C90_clock (K : ring) simp hdt ds dt tn env i f f' : ~ In tn (conserved K ds) -> collided_with K simp hdt ds (clock_args K dt tn env i) f f' ->
  forall val : vec K, (forall c b k, is_moment K simp ds c b k -> val c = mom K ds f b k) -> val tn = sum i (fun _ => dt) -> (forall c, ~ In c (conserved K ds) -> c <> tn -> val c = env c) ->
  let val1 := half K hdt ds val in
  (forall c b k, is_moment K simp ds c b k -> mom K ds f' b k = half K hdt ds val1 c) /\
  (forall b k d, nth_error ds b = Some d -> (k < nv K d)%nat -> (forall c, ~ is_moment K simp ds c b k) ->
     let s := teval K val1 (nth k (sd_s K d) (Num 0%K)) in
     mom K ds f' b k = ((1 - s) * mom K ds f b k + s * eqv K d k val1)%K).
Proof.
  intros Ht H val HV Hv Henv. apply H; [exact HV|]. intros c Hc. unfold clock_args. destruct (Nat.eqb_spec c tn) as [->|Ne]; [rewrite clock_value; exact Hv|now apply Henv].
Qed.
Print Assumptions C90_determined.
Print Assumptions C90_start_determined.
Print Assumptions C90_simulation.
Print Assumptions C90_budget.
Print Assumptions C90_no_source.
Print Assumptions C90_source.
Print Assumptions C90_mass.
Print Assumptions C90_clock.

(* ------------------------------------------------- examples *)
(* the line of C75_example; the symbol 7 is the time, 8 an extra parameter: the equilibrium of the second
   moment is 3 u + t, the source of u is t + p *)
Definition q7 : term Zring := Bin zadd (Bin zmul (Num (K := Zring) 3%Z) (Var 5)) (Var 7).
Definition src7 : list (nat * term Zring) := [(5%nat, Bin zadd (Var 7) (Var 8))].
Definition dt7 := dflow q7 src7.
Definition args7 (p : Z) := clock_args Zring 2%Z 7 (fun _ => p).
Lemma dt7_moment c b i : is_moment Zring nosimp [dt7] c b i <-> (c = 5 /\ b = 0 /\ i = 0)%nat.
Proof.
  split.
  - intros (d & H1 & H2 & H3 & H4 & _). destruct b as [|[|b]]; try discriminate. injection H1 as <-.
    destruct i as [|[|i]]; cbn in H4, H3; [split; [congruence|auto]|discriminate|lia].
  - intros (-> & -> & ->). exists dt7. split; [reflexivity|]. split; [now left|]. split; [cbn; lia|]. split; [reflexivity|]. intros j Hj. lia.
Qed.
Lemma dt7_ok : open_ok Zring [dt7].
Proof. constructor; [repeat constructor|intros d M [<-|[]] H; discriminate|repeat constructor; intros []]. Qed.
Lemma dt7_ordered : ordered Zring nosimp [dt7].
Proof. intros k c b i Hk Hm. apply dt7_moment in Hm as (-> & -> & ->). destruct k as [|[|k]]; try discriminate. cbn. lia. Qed.
Lemma dt7_free x : In x (vars Zring (Bin zadd (Var 7) (Var 8))) -> ~ In x (conserved Zring [dt7]).
Proof. cbn. intuition lia. Qed.
Lemma clock7 p i : args7 p i 7 = 2 * Z.of_nat i.
Proof.
  change (clock Zring 2%Z i = 2 * Z.of_nat i). induction i as [|i IH]; [reflexivity|]. cbn [clock]. rewrite IH. change (2 * Z.of_nat i + 2 = 2 * Z.of_nat (S i)). lia.
Qed.
(* dt = 2, four cells, the source at the start of the step i is 2 i + p: each step gives 4 dt (2 i + p) *)
Example C90_example (p : Z) : exists a, fbuild q7 src7 = Some a /\ exists rho, (forall x, In x (fluid_cells (sline 6) (sD 6 wall34)) -> given_value Zring [dt7] [(ISym 5, ifun)] 0 (point (sline 6) x) (rho x)) /\
  forall L0 t, fluid_total (sline 6) [2%nat] mDs wcs (fun f => mom Zring [dt7] f 0 0)
    (fst (timed_cy sst [1; 0] (sline 6) Zring (fun _ => 0) a (args7 p) 0 [2%nat] mlinks wphi L0 t (timed_start (sline 6) Zring finv nosimp [dt7] a (args7 p) 0 Cython [2%nat] [(ISym 5, ifun)]))) =
    sumL (fluid_cells (sline 6) (sD 6 wall34)) rho + 8 * Z.of_nat t * (Z.of_nat t - 1 + p).
Proof.
  destruct (built_ex (fbuild q7 src7)) as [a Ea]; [vm_compute; reflexivity|]. exists a. split; [exact Ea|].
  destruct (C90_mass 1 [[1; 2]] sst [1; 0] (sline 6) wall34 [5] bb (sD 6 wall34) mms mserial Zring (fun _ => 0) finv nosimp 1 1 [dt7] a (zinv_ok _) fsimp dt7_ok dt7_ordered Ea (dflow_below _ _) eq_refl fquiet
    (args7 p) [(ISym 5, ifun)] wphi 5%nat 0%nat 0%nat (Bin zadd (Var 7) (Var 8)) 0%nat [2%nat] mDs mlinks wcs 0%nat) as (rho & R1 & R2 & _); try reflexivity.
  - exact (proj1 (dflow_data q7 src7 ifun ifun_regular)).
  - exact (proj2 (dflow_data q7 src7 ifun ifun_regular)).
  - exact wphi_ok.
  - left. exact mvessel.
  - intros t lab x k Hk. reflexivity.
  - apply dt7_moment. auto.
  - exact (dflow_even q7 src7).
  - exact dt7_free.
  - exact wparallel.
  - repeat constructor. intros [|[|c]] Hc; [vm_compute; reflexivity|vm_compute; reflexivity|cbn in Hc; lia].
  - cbn. lia.
  - repeat constructor; cbn; intuition discriminate.
  - intros c. symmetry. apply wcoords.
  - exists rho. split; [exact R1|]. intros L0 t. rewrite R2.
    assert (F : forall v : Z, sumL (K := Zring) (fluid_cells (sline 6) (sD 6 wall34)) (fun _ => v) = 4 * v).
    { intros v. assert (L : length (fluid_cells (sline 6) (sD 6 wall34)) = 4%nat) by (vm_compute; reflexivity). revert L. generalize (fluid_cells (sline 6) (sD 6 wall34)).
      intros [|x1 [|x2 [|x3 [|x4 [|]]]]]; intros L; try discriminate. change (v + (v + (v + (v + 0))) = 4 * v). lia. }
    apply (f_equal (Z.add (sumL (K := Zring) (fluid_cells (sline 6) (sD 6 wall34)) rho))). clear R1 R2. induction t as [|t IH]; [reflexivity|]. rewrite sum_S, IH, F.
    change (teval Zring (args7 p t) (Bin zadd (Var 7) (Var 8))) with (args7 p t 7 + p). rewrite clock7.
    change (8 * Z.of_nat t * (Z.of_nat t - 1 + p) + 4 * (1 * (2 * Z.of_nat t + p) + 1 * (2 * Z.of_nat t + p)) = 8 * Z.of_nat (S t) * (Z.of_nat (S t) - 1 + p)). lia.
Qed.
Definition trun (p : Z) (be : backend) (t : nat) : option (list (list Z) * Z) :=
  match fbuild q7 src7 with
  | None => None
  | Some a => let s := timed_start (sline 6) Zring finv nosimp [dt7] a (args7 p) 0 be [2%nat] [(ISym 5, ifun)] in
     Some (look_run (fst match be with
      | Cython => timed_cy sst [1; 0] (sline 6) Zring (fun _ => 0) a (args7 p) 0 [2%nat] mlinks wphi (fun _ => 0) t s
      | _ => timed_np sst [1; 0] (sline 6) Zring (fun _ => 0) a (args7 p) 0 [2%nat] mlinks wphi t s end))
  end.
Example C90_values : match trun 0 Cython 0, trun 0 Cython 1, trun 0 Cython 2, trun 0 Numpy 2 with
  | Some (_, m0), Some (_, m1), Some (l, m2), Some (l', m2') => m1 = m0 /\ m2 = m0 + 16 /\ m2' = m2 /\ l' = l | _, _, _, _ => False end.
Proof. vm_compute. repeat split; reflexivity. Qed.
(* The two half steps of the source are not at the start and at the end of the step: with the source t
   (p = 0), the half steps hdt s(t) and hdt s(t + dt) would give the integral 4 (2 t)^2 / 2 of the source over
   the four cells after t steps; the simulation gives less, after every number of steps. *)
Theorem C90_half_times_refuted : exists a, fbuild q7 src7 = Some a /\ exists rho, (forall x, In x (fluid_cells (sline 6) (sD 6 wall34)) -> given_value Zring [dt7] [(ISym 5, ifun)] 0 (point (sline 6) x) (rho x)) /\
  forall L0 t, let mass := fluid_total (sline 6) [2%nat] mDs wcs (fun f => mom Zring [dt7] f 0 0)
    (fst (timed_cy sst [1; 0] (sline 6) Zring (fun _ => 0) a (args7 0) 0 [2%nat] mlinks wphi L0 t (timed_start (sline 6) Zring finv nosimp [dt7] a (args7 0) 0 Cython [2%nat] [(ISym 5, ifun)]))) in
  let trapezoidal := sumL (fluid_cells (sline 6) (sD 6 wall34)) rho + sum (K := Zring) t (fun i => 4 * (1 * (2 * Z.of_nat i) + 1 * (2 * Z.of_nat i + 2))) in
  trapezoidal = sumL (fluid_cells (sline 6) (sD 6 wall34)) rho + 2 * (2 * Z.of_nat t) * (2 * Z.of_nat t) /\ mass + 8 * Z.of_nat t = trapezoidal.
Proof.
  destruct (C90_example 0) as (a & Ea & rho & R1 & R2). exists a. split; [exact Ea|]. exists rho. split; [exact R1|]. intros L0 t. cbv zeta. rewrite R2.
  assert (T : sum (K := Zring) t (fun i => 4 * (1 * (2 * Z.of_nat i) + 1 * (2 * Z.of_nat i + 2))) = 8 * Z.of_nat t * Z.of_nat t).
  { induction t as [|t IH]; [reflexivity|]. rewrite sum_S, IH. change (8 * Z.of_nat t * Z.of_nat t + 4 * (1 * (2 * Z.of_nat t) + 1 * (2 * Z.of_nat t + 2)) = 8 * Z.of_nat (S t) * Z.of_nat (S t)). lia. }
  assert (X : forall x : Z, x + 8 * Z.of_nat t * Z.of_nat t = x + 2 * (2 * Z.of_nat t) * (2 * Z.of_nat t) /\ x + 8 * Z.of_nat t * (Z.of_nat t - 1 + 0) + 8 * Z.of_nat t = x + 8 * Z.of_nat t * Z.of_nat t) by (intros x; split; lia).
  rewrite T. exact (X _).
Qed.
Print Assumptions C90_half_times_refuted.
