(* C86: whole simulations with a relative velocity (scheme.py "relative_velocity"). *)
From Coq Require Import QArith.
From Verif Require Import PyBase VelocityModel VelocityProofs Velocity3Proofs StencilModel StencilProofs GridModel GridProofs StorageModel
  ExchangeProofs StorageProps LinAlg AlgoModel AlgoProofs RelVelProofs KernelProofs GlobalModel GlobalProofs TorusProofs AlgoProps GlobalProps
  GenModel GenProofs GenProps StepGenModel StepGenProofs StepGenProps SchemeModel SchemeProofs SchemeProps BuildModel BuildProofs BuildProps BuildFrame
  DomainModel DomainProofs DomainProps BoundaryModel BoundaryProofs BoundaryProps BoundaryUpdProps VesselProofs VesselProps ChannelProps
  ParallelModel ParallelProofs ObstacleProofs ParallelProps ObstacleProps ParallelMassProps WholeModel WholeProps InitGenModel InitGenProps DuctProps FlowProofs FlowProps.
Require Import Lia.
Open Scope Z_scope.

(* ------------------------------------------------- the collision *)
Section Cell.
Variable K : ring.
Add Ring Kring : (rth K).
Variable inv : nat -> mat K -> option (mat K).
Variable simp : term K -> term K.
Variables (l : list (term K)) (dm : nat) (hdt : K) (ds : list (sdict K)) (a : salgo K).
(* the value of the polynomial i of the dictionary d at a point *)
Definition poly (d : sdict K) (i : nat) (x : vec K) : K := teval K x (nth i (sd_P K d) (Num 0%K)).
(* f' is f after the collision: with u the relative velocity of the cell and e the distributions at
   equilibrium of the cell, in the frame which moves with u the conserved moments are kept and each
   other moment relaxes to that of e. *)
Definition moves (f f' : vec K) : Prop := forall val e,
  conserved_values K simp ds f val ->
  (forall b d i, nth_error ds b = Some d -> (i < nv K d)%nat -> mom K ds e b i = eqv K d i val) ->
  let u := vrel K l val in
  (forall c b i, is_moment K simp ds c b i -> momu K ds u f' b i = momu K ds u f b i) /\
  (forall b i d, nth_error ds b = Some d -> (i < nv K d)%nat -> (forall c, ~ is_moment K simp ds c b i) ->
     let s := teval K val (nth i (sd_s K d) (Num 0%K)) in
     momu K ds u f' b i = ((1 - s) * momu K ds u f b i + s * momu K ds u e b i)%K).
(* What the dictionary has to satisfy. *)
Record moving_dict : Prop := {
  md_inv : inv_spec K inv;
  md_simp : simp_spec K simp;
  md_ok : dict_ok K simp ds;
  md_ordered : ordered K simp ds;
  md_build : build K inv simp (Some l) dm hdt ds = Some a;
  md_rel : forall j, BuildProofs.closed K ds (nth j l (Num 0%K));
  md_below : forall d t, In d ds -> In t (sd_P K d) -> below K dm t;
  md_dim : forall d x, In d ds -> In x (sd_v K d) -> length x = dm;
  (* moments given by polynomials, whose span is invariant by translation *)
  md_poly : forall d, In d ds -> sd_M K d = None;
  md_closed : forall d, In d ds -> translation_closed K dm (nv K d) (pol K d);
  (* the parameters of the conserved moments are 0 *)
  md_kept : forall c b i d, is_moment K simp ds c b i -> nth_error ds b = Some d -> forall w, teval K w (nth i (sd_s K d) (Num 0%K)) = 0%K
}.
(* no source terms (C91 has them) *)
Definition no_source : Prop := forall d, In d ds -> sd_src K d = [].
(* The translations of the polynomials of the conserved moments are combinations of such polynomials. *)
Definition conserved_span : Prop := forall c b i d u, is_moment K simp ds c b i -> nth_error ds b = Some d -> exists co : nat -> K,
  (forall j, (j < nv K d)%nat -> (forall c', ~ is_moment K simp ds c' b j) -> co j = 0%K) /\
  forall x, poly d i (fun p => x p - u p)%K = sum (nv K d) (fun j => (co j * poly d j x)%K).
Notation n := (SchemeModel.total (sizes K ds)).
Hypothesis H : moving_dict.
Hypothesis HN : no_source.

(* the same dictionary without relative velocity can be built *)
Lemma fixed_build : exists a', build K inv simp None dm hdt ds = Some a'.
Proof using H.
  pose proof (md_build H) as E. unfold build in E |- *. destruct (before_swap K inv simp ds) as [b|]; [|discriminate]. cbv zeta in E |- *.
  destruct (sources K (b_n K b) _ _) as [src|]; [|discriminate]. eexists. reflexivity.
Qed.
Lemma pull_moves f : moves f (pull_fun K (algo_of K a) f).
Proof using H HN.
  intros val e HV He. destruct H. now apply (C64_moving K inv simp l dm hdt ds a).
Qed.
Notation T := (BuildFrame.T K inv l ds).
Lemma T_opp u i j : T (vopp (vopp u)) i j = T u i j.
Proof. unfold BuildFrame.T. apply teval_ext. intros c _. unfold vopp. ring. Qed.
Lemma matrices_of : exists M N, inverse n M N /\ forall f b d i, nth_error ds b = Some d -> (i < nv K d)%nat -> mvmul n M f (off K ds b + i)%nat = mom K ds f b i.
Proof using H.
  destruct (build_built K simp inv hdt (Some l) dm ds a (md_inv H) (md_ok H) (md_build H)) as (M & N & sg & B). exists M, N.
  split; [exact (bu_inverse _ _ _ _ _ _ _ _ _ _ _ B)|exact (bu_moments _ _ _ _ _ _ _ _ _ _ _ B)].
Qed.
(* the distributions are determined by their moments in the moving frame *)
Lemma momu_inj u f f' : (forall b d i, nth_error ds b = Some d -> (i < nv K d)%nat -> momu K ds u f b i = momu K ds u f' b i) -> agree K n f f'.
Proof using H.
  intros A. destruct matrices_of as (M & N & [I1 I2] & HM). destruct H.
  assert (TT : agree K n (mvmul n (T u) (mvmul n M f)) (mvmul n (T u) (mvmul n M f'))).
  { intros k Hk. destruct (off_ex K ds k Hk) as (b & d & i & H1 & H3 & ->).
    rewrite !(T_moments K inv simp l dm hdt ds a md_inv0 md_ok0 md_build0 md_below0 md_dim0 md_poly0 M u _ b d i HM H1 H3). now apply (A b d). }
  assert (ID : is_id n (mmul n (T (vopp u)) (T u))).
  { intros i j Hi Hj. rewrite <- (T_inverse K inv simp l dm hdt ds a md_inv0 md_ok0 md_build0 md_below0 md_dim0 md_poly0 md_closed0 (vopp u) i j Hi Hj).
    apply sum_ext. intros q _. now rewrite T_opp. }
  assert (MM : agree K n (mvmul n M f) (mvmul n M f')).
  { intros k Hk. rewrite <- (mvmul_inverse K n _ _ (mvmul n M f) k ID Hk), <- (mvmul_inverse K n _ _ (mvmul n M f') k ID Hk). apply mvmul_ext. exact TT. }
  intros k Hk. rewrite <- (mvmul_inverse K n _ _ f k I2 Hk), <- (mvmul_inverse K n _ _ f' k I2 Hk). apply mvmul_ext. exact MM.
Qed.
(* the distributions at equilibrium exist *)
Lemma equilibrium_ex val : exists e : vec K, forall b d i, nth_error ds b = Some d -> (i < nv K d)%nat -> mom K ds e b i = eqv K d i val.
Proof using H.
  destruct matrices_of as (M & N & [I1 I2] & HM).
  assert (X : exists m : vec K, forall b d i, nth_error ds b = Some d -> (i < nv K d)%nat -> m (off K ds b + i)%nat = eqv K d i val).
  { clear. induction ds as [|d0 t [m IH]].
    - exists (fun _ => 0%K). intros [|b] d i Hb; discriminate.
    - exists (fun k => if (k <? nv K d0)%nat then eqv K d0 k val else m (k - nv K d0)%nat). intros [|b] d i Hb Hi; cbn in Hb.
      + injection Hb as <-. change (off K (d0 :: t) 0 + i)%nat with i. apply Nat.ltb_lt in Hi. now rewrite Hi.
      + rewrite <- (IH b d i Hb Hi). replace (off K (d0 :: t) (S b) + i)%nat with (nv K d0 + (off K t b + i))%nat by (unfold off; cbn; lia).
        destruct (Nat.ltb_spec (nv K d0 + (off K t b + i)) (nv K d0)) as [L|L]; [exfalso; clear - L; lia|]. f_equal. lia. }
  destruct X as [m Hm]. exists (mvmul n N m). intros b d i Hb Hi. rewrite <- (HM _ b d i Hb Hi), <- (Hm b d i Hb Hi). apply mvmul_inverse; [exact I1|]. now apply (off_total K ds b d i).
Qed.
Lemma momu_agree u f f' b i : agree K n f f' -> momu K ds u f b i = momu K ds u f' b i.
Proof using.
  intros A. unfold momu. destruct (nth_error ds b) as [d|] eqn:Hb; [|reflexivity]. apply sum_ext. intros j Hj. f_equal. apply A. now apply (off_total K ds b d j).
Qed.
Lemma moves_values f : exists val, conserved_values K simp ds f val.
Proof using H. apply (values_ex K simp hdt ds (md_ok H) (md_ordered H) inv (Some l) dm a (md_inv H) (md_build H)). Qed.
Theorem C86_determined f g f' g' : agree K n f g -> moves f f' -> moves g g' -> agree K n f' g'.
Proof using H.
  intros A Hf Hg. destruct (moves_values f) as [val HV]. destruct (equilibrium_ex val) as [e He].
  assert (HV' : conserved_values K simp ds g val) by (intros c b i Hm; rewrite (HV c b i Hm); now apply mom_agree).
  destruct (Hf val e HV He) as [F1 F2]. destruct (Hg val e HV' He) as [G1 G2]. apply (momu_inj (vrel K l val)). intros b d i Hb Hi.
  destruct (moment_dec K simp ds b i) as [[c Hm]|Hn].
  - rewrite (F1 c b i Hm), (G1 c b i Hm). now apply momu_agree.
  - rewrite (F2 b i d Hb Hi Hn), (G2 b i d Hb Hi Hn). now rewrite (momu_agree _ f g b i A).
Qed.

(* ---- the moments of the fixed frame ---- *)
Lemma mom_poly f b d i : nth_error ds b = Some d -> mom K ds f b i = sum (nv K d) (fun j => (poly d i (fun c => coord K (nth j (sd_v K d) []) c) * f (off K ds b + j)%nat)%K).
Proof using H. intros Hb. unfold mom. rewrite Hb. apply sum_ext. intros j _. unfold entry. rewrite (md_poly H d) by now apply nth_error_In in Hb. reflexivity. Qed.
Lemma momu_poly u f b d i : nth_error ds b = Some d -> momu K ds u f b i = sum (nv K d) (fun j => (poly d i (fun c => coord K (nth j (sd_v K d) []) c - u c)%K * f (off K ds b + j)%nat)%K).
Proof using. intros Hb. unfold momu. now rewrite Hb. Qed.
Lemma sum_swap_co m (co : nat -> K) (p : nat -> nat -> K) (f : nat -> K) :
  sum m (fun q => (sum m (fun j => (co j * p j q)%K) * f q)%K) = sum m (fun j => (co j * sum m (fun q => (p j q * f q)%K))%K).
Proof using.
  pose proof (mvmul_assoc K m (fun _ j => co j) (fun j q => p j q) f) as A. specialize (A 0%nat). unfold mvmul, mmul in A. symmetry. exact A.
Qed.
Lemma span_frame u c b i d : conserved_span -> is_moment K simp ds c b i -> nth_error ds b = Some d -> exists co : nat -> K,
  (forall j, (j < nv K d)%nat -> (forall c', ~ is_moment K simp ds c' b j) -> co j = 0%K) /\ forall f, momu K ds u f b i = sum (nv K d) (fun j => (co j * mom K ds f b j)%K).
Proof using H.
  intros HS Hm Hb. destruct (HS c b i d u Hm Hb) as (co & C1 & C2). exists co. split; [exact C1|]. intros f. rewrite (momu_poly u f b d i Hb).
  rewrite (sum_ext K _ (fun j => (co j * mom K ds f b j)%K) (fun j => (co j * sum (nv K d) (fun q => (poly d j (fun c => coord K (nth q (sd_v K d) []) c) * f (off K ds b + q)%nat)%K))%K)) by (intros j _; now rewrite (mom_poly f b d j Hb)).
  rewrite <- sum_swap_co. apply sum_ext. intros q _. now rewrite C2.
Qed.
Lemma span_back u c b i d : conserved_span -> is_moment K simp ds c b i -> nth_error ds b = Some d -> exists co : nat -> K,
  (forall j, (j < nv K d)%nat -> (forall c', ~ is_moment K simp ds c' b j) -> co j = 0%K) /\ forall f, mom K ds f b i = sum (nv K d) (fun j => (co j * momu K ds u f b j)%K).
Proof using H.
  intros HS Hm Hb. destruct (HS c b i d (vopp u) Hm Hb) as (co & C1 & C2). exists co. split; [exact C1|]. intros f. rewrite (mom_poly f b d i Hb).
  rewrite (sum_ext K _ (fun j => (co j * momu K ds u f b j)%K) (fun j => (co j * sum (nv K d) (fun q => (poly d j (fun c => coord K (nth q (sd_v K d) []) c - u c)%K * f (off K ds b + q)%nat)%K))%K)) by (intros j _; now rewrite (momu_poly u f b d j Hb)).
  rewrite <- sum_swap_co. apply sum_ext. intros q _. rewrite <- C2. f_equal. apply teval_ext. intros p _. unfold vopp. ring.
Qed.
(* The conserved moments, in the fixed frame, do not change. *)
Theorem C86_conserved f f' : conserved_span -> moves f f' -> forall c b i, is_moment K simp ds c b i -> mom K ds f' b i = mom K ds f b i.
Proof using H.
  intros HS Hf c b i Hm. destruct (moves_values f) as [val HV]. destruct (equilibrium_ex val) as [e He]. destruct (Hf val e HV He) as [F1 _].
  pose proof Hm as (d & Hb & _). destruct (span_back (vrel K l val) c b i d HS Hm Hb) as (co & C1 & C2). rewrite !C2. apply sum_ext. intros j Hj.
  destruct (moment_dec K simp ds b j) as [[c' Hm']|Hn]; [now rewrite (F1 c' b j Hm')|]. rewrite (C1 j Hj Hn). ring.
Qed.
Lemma momu_comb u p q f g b i : momu K ds u (comb K p q f g) b i = (p * momu K ds u f b i + q * momu K ds u g b i)%K.
Proof using.
  unfold momu, comb. destruct (nth_error ds b) as [d|]; [|ring]. rewrite <- sum_comb. apply sum_ext. intros j _. ring.
Qed.
(* One parameter for all the other moments: the relative velocity has no effect. *)
Theorem C86_equal_parameters (s : vec K -> K) f f' : conserved_span ->
  (forall val b i d, nth_error ds b = Some d -> (i < nv K d)%nat -> (forall c, ~ is_moment K simp ds c b i) -> teval K val (nth i (sd_s K d) (Num 0%K)) = s val) ->
  moves f f' -> collided K simp hdt ds f f'.
Proof using H HN.
  intros HS Hs Hf. destruct (moves_values f) as [val HV]. destruct (equilibrium_ex val) as [e He]. destruct (Hf val e HV He) as [F1 F2]. set (u := vrel K l val) in *.
  assert (EC : forall c b i, is_moment K simp ds c b i -> mom K ds e b i = mom K ds f b i).
  { intros c b i Hm. pose proof Hm as (d & Hb & Hc & Hi & Hq & _). rewrite (He b d i Hb Hi), <- (HV c b i Hm), <- (eqs_eval K simp d i val (md_simp H) Hi), Hq. reflexivity. }
  set (h := comb K (1 - s val)%K (s val) f e).
  assert (A : agree K n f' h).
  { apply (momu_inj u). intros b d i Hb Hi. unfold h. rewrite momu_comb. destruct (moment_dec K simp ds b i) as [[c Hm]|Hn].
    - rewrite (F1 c b i Hm). assert (X : momu K ds u e b i = momu K ds u f b i); [|rewrite X; ring].
      destruct (span_frame u c b i d HS Hm Hb) as (co & C1 & C2). rewrite !C2. apply sum_ext. intros j Hj.
      destruct (moment_dec K simp ds b j) as [[c' Hm']|Hn]; [now rewrite (EC c' b j Hm')|]. rewrite (C1 j Hj Hn). ring.
    - rewrite (F2 b i d Hb Hi Hn), (Hs val b i d Hb Hi Hn). reflexivity. }
  assert (NS : forall c, BuildProofs.source K ds c = None).
  { intros c. unfold BuildProofs.source. replace (concat (map (sd_src K) ds)) with (@nil (nat * term K)); [reflexivity|]. 
    clear - HN. unfold no_source in HN. induction ds as [|d t IH]; [reflexivity|]. cbn. rewrite (HN d) by now left. apply IH. intros d' Hd. apply HN. now right. }
  assert (H1 : same_on K ds (half K hdt ds val) val) by (intros c _; now apply half_none).
  destruct H. apply (collided_one K simp hdt ds md_simp0 md_ok0 inv (Some l) dm a md_inv0 md_build0 f f' val HV).
  - intros c b i Hm. rewrite !half_none by apply NS. rewrite (HV c b i Hm), (mom_agree K ds f' h b i A). unfold h. rewrite mom_comb, (EC c b i Hm). ring.
  - intros b i d Hb Hi Hn s'. rewrite (mom_agree K ds f' h b i A). unfold h. rewrite mom_comb. unfold s'. pose proof (nth_error_In _ _ Hb) as Hd.
    rewrite (closed_rate K simp ds md_ok0 d i _ _ Hd H1), (closed_eqv K simp ds md_simp0 md_ok0 d i _ _ Hd Hi H1), (Hs val b i d Hb Hi Hn), (He b d i Hb Hi). reflexivity.
Qed.
(* A state at equilibrium is not changed. *)
Theorem C86_equilibrium e : (forall val, conserved_values K simp ds e val -> forall b i d, nth_error ds b = Some d -> (i < nv K d)%nat -> mom K ds e b i = eqv K d i val) -> moves e e.
Proof using H.
  intros He val e' HV He' u. split; [reflexivity|]. intros b i d Hb Hi Hn s.
  assert (A : agree K n e e').
  { destruct matrices_of as (M & N & [I1 I2] & HM). intros k Hk. rewrite <- (mvmul_inverse K n _ _ e k I2 Hk), <- (mvmul_inverse K n _ _ e' k I2 Hk). apply mvmul_ext.
    intros j Hj. destruct (off_ex K ds j Hj) as (b' & d' & i' & H1 & H3 & ->). rewrite !(HM _ b' d' i' H1 H3), (He' b' d' i' H1 H3). now apply He. }
  rewrite <- (momu_agree u e e' b i A). ring.
Qed.
End Cell.

(* ------------------------------------------------- the simulation *)
Section Sim.
Variables (dimz : Z) (schemes : list (list Z)) (st : stencil) (r : list Z) (g : grid) (es : list DomainModel.elem) (labs : list Z) (conds : Z -> list (nat * method)).
Variables (Dm : dom) (ms : list (method * list blink)).
Hypothesis E : serial dimz schemes st r g es labs conds Dm ms.
Variables (K : ring) (qk : Q -> K).
Add Ring Kring_sim : (rth K).
Variable inv : nat -> mat K -> option (mat K).
Variable simp : term K -> term K.
Variables (l : list (term K)) (dm : nat) (hdt : K) (ds : list (sdict K)) (a : salgo K).
Hypothesis H : moving_dict K inv simp l dm hdt ds a.
Hypothesis HN : no_source K ds.
Hypothesis Hsz : map (nv K) ds = map (@length Z) schemes.
Hypothesis HQ : quiet st r g ms.
Notation n := (SchemeModel.total (sizes K ds)).
Notation data := (list (ikey * (list Q -> K))).
Notation walls := (nat -> Z -> list Q -> nat -> K).
Notation arrive := (arrives st r g ms K qk).
Notation at_cell x := (point g (cell_of g x)).
Notation begin dat be ps pos := (start K a pos (scheme_consm K inv simp ds) be true g ps (Some dat)).
(* Each cell follows the dictionary, from what arrives. *)
Definition moving_history (phis : walls) (G : nat -> list Z -> vec K) : Prop :=
  forall t x, exists f, (forall j, (j < n)%nat -> arrive (phis t) (G t) x j (f j)) /\ moves K simp l ds f (G (S t) x).
(* The simulation started from "init" holds G, on every process grid, in every order of the storage,
   with Cython, and with NumPy if the parameters are numbers and no component of the velocity is
   just a conserved moment. *)
Definition moving_simulates (dat : data) (phis : walls) (G : nat -> list Z -> vec K) : Prop :=
  forall ps Ds mss pos, parallel st g es labs conds ps Ds mss -> Forall (fun x => forall c, (c < ax_p x)%nat -> ax_lo x c < ax_hi x c) (proc_axes g ps) -> (pos <= dim g)%nat ->
  (forall L0 t, holds K (proc_axes g ps) n (fst (cy_run st r g K qk a pos ps mss phis L0 t (begin dat Cython ps pos))) (G t)) /\
  ((forall d t, In d ds -> In t (sd_s K d) -> vars K t = []) -> (forall j c, nth j l (Num 0%K) <> Var c) -> forall t,
     holds K (proc_axes g ps) n (fst (np_run st r g K qk a pos ps mss phis t (begin dat Numpy ps pos))) (G t) /\
     np_fine st r g K qk a pos ps mss Numpy (phis t) (np_run st r g K qk a pos ps mss phis t (begin dat Numpy ps pos))).

Lemma moving_size : sa_n K a = n.
Proof using H. exact (built_size K inv simp (Some l) dm hdt ds a (md_inv _ _ _ _ _ _ _ _ H) (md_ok _ _ _ _ _ _ _ _ H) (md_build _ _ _ _ _ _ _ _ H)). Qed.
Lemma moving_na : sa_n K a = length (concat schemes).
Proof using H Hsz.
  rewrite moving_size. unfold sizes. rewrite Hsz. clear. induction schemes as [|s t IH]; [reflexivity|]. cbn. rewrite app_length. f_equal. exact IH.
Qed.
Lemma moving_ok : scheme_ok K a.
Proof using H. destruct H. apply (built_ok K inv simp (Some l) dm hdt ds a md_inv0 md_ok0 md_ordered0 md_build0); [|exact md_below0]. intros l' j [= <-]. apply md_rel0. Qed.
Lemma moving_numpy : (forall d t, In d ds -> In t (sd_s K d) -> vars K t = []) -> (forall j c, nth j l (Num 0%K) <> Var c) -> numpy_ok K a.
Proof using H.
  intros Hs Hl. destruct H. destruct (build_built K simp inv hdt (Some l) dm ds a md_inv0 md_ok0 md_build0) as (M & N & sg & B). constructor.
  - intros k _. rewrite (bu_s _ _ _ _ _ _ _ _ _ _ _ B).
    assert (V : forall t, vars K t = [] -> vars K (rename K n (ranks (conserved K ds)) t) = []).
    { clear. induction t as [x|c|o t IH|o t1 IH1 t2 IH2]; cbn; intros H; [reflexivity|discriminate|now apply IH|].
      apply app_eq_nil in H as [H1 H2]. now rewrite IH1, IH2. }
    apply V. apply (nth_in_or (fun t => vars K t = [])); [reflexivity|]. intros t Ht. apply in_concat in Ht as (l' & Hl' & Ht).
    apply in_map_iff in Hl' as (d & <- & Hd). exact (Hs d t Hd Ht).
  - intros rel j i Er _ Eq. rewrite (bu_rel _ _ _ _ _ _ _ _ _ _ _ B) in Er. injection Er as <-. specialize (Hl j).
    destruct (nth j l (Num 0%K)) as [x|c|o t|o t1 t2]; cbn in Eq; try discriminate. now apply (Hl c).
Qed.
(* The history of a simulation, whatever its start. *)
Lemma moving_runs (phis : walls) G0 : walls_ok K phis -> exists G, G 0%nat = G0 /\ moving_history phis G /\
  forall ps Ds mss pos, parallel st g es labs conds ps Ds mss -> Forall (fun x => forall c, (c < ax_p x)%nat -> ax_lo x c < ax_hi x c) (proc_axes g ps) -> (pos <= dim g)%nat ->
  forall s, holds K (proc_axes g ps) n (fst s) G0 ->
  (forall L0 t, holds K (proc_axes g ps) n (fst (cy_run st r g K qk a pos ps mss phis L0 t s)) (G t)) /\
  ((forall d t, In d ds -> In t (sd_s K d) -> vars K t = []) -> (forall j c, nth j l (Num 0%K) <> Var c) -> forall t,
     holds K (proc_axes g ps) n (fst (np_run st r g K qk a pos ps mss phis t s)) (G t) /\
     np_fine st r g K qk a pos ps mss Numpy (phis t) (np_run st r g K qk a pos ps mss phis t s)).
Proof using E H HN Hsz HQ.
  intros Hphis. exists (fun t => ref_run st r g ms K qk a phis t G0). split; [reflexivity|]. split.
  - intros t x. cbn [ref_run]. set (Gt := ref_run st r g ms K qk a phis t G0).
    set (f := fun k => boundary_condition K qk g (velk st) (symk r) (feq_of st (phis t) g) Cython ms (gfield g K Gt) k (before st g k (cell_of g x))).
    exists f. split; [intros j _; now apply (arrives_bc dimz schemes st r g es labs conds Dm ms E HQ)|]. exact (pull_moves K inv simp l dm hdt ds a H HN f).
  - intros ps Ds mss pos HP NE Hpos s HG. rewrite <- moving_size in *.
    destruct (runs_hold dimz schemes st r g es labs conds Dm ms E HQ K qk a pos Hpos moving_na moving_ok ps Ds mss phis G0 HP NE Hphis) as [H1 H2]. split.
    + intros L0 t. now apply H1.
    + intros Hn Hl t. apply H2; [now apply moving_numpy|exact HG].
Qed.
Theorem C86_simulation dat phis : data_ok K ds dat -> walls_ok K phis -> exists G : nat -> list Z -> vec K,
  (forall x, initial_state K simp ds dat (at_cell x) (G 0%nat x)) /\ moving_history phis G /\ moving_simulates dat phis G.
Proof using E H HN Hsz HQ.
  intros [Hl Hk] Hphis. pose proof H as H'. destruct H'.
  destruct (C68_start dimz schemes st r g es labs conds Dm ms E K inv simp (Some l) dm hdt ds a md_inv0 md_simp0 md_ok0 md_ordered0 md_build0 ltac:(intros l' j [= <-]; apply md_rel0) md_below0 dat Hl Hk) as (G0 & S0 & I0).
  destruct (moving_runs phis G0 Hphis) as (G & <- & G1 & G2). exists G. split; [exact I0|]. split; [exact G1|]. intros ps Ds mss pos HP NE Hpos. split.
  - exact (proj1 (G2 ps Ds mss pos HP NE Hpos (begin dat Cython ps pos) (proj2 (S0 ps Ds mss pos Cython HP NE Hpos)))).
  - exact (proj2 (G2 ps Ds mss pos HP NE Hpos (begin dat Numpy ps pos) (proj2 (S0 ps Ds mss pos Numpy HP NE Hpos)))).
Qed.
(* The state of a cell after t steps depends on the initial values at distance t V at most, and on
   the walls at distance (t - s) V at most in the step s. *)
Theorem C86_domain_of_dependence phis phis' G G' V : moving_history phis G -> moving_history phis' G' -> 0 <= V -> speed st g K ds V ->
  forall t x, cell_in g x ->
  (forall y, within g (Z.of_nat t * V) x y -> agree K n (G 0%nat y) (G' 0%nat y)) ->
  (forall s, (s < t)%nat -> same_walls st g ms K ds (Z.of_nat (t - s) * V) x (phis s) (phis' s)) ->
  agree K n (G t x) (G' t x).
Proof using E H Hsz.
  intros HG HG' V0 HV t. induction t as [|t IH]; intros x Hx H0 HW.
  - apply H0. apply within_refl; [lia|exact Hx].
  - assert (A : forall y, within g V x y -> agree K n (G t y) (G' t y)).
    { intros y Hy. apply IH.
      - eapply within_in; eassumption.
      - intros z Hz. apply H0. apply (within_le g (V + Z.of_nat t * V)); [lia|]. eapply within_add; eassumption.
      - intros s Hs m b k Hb Hw Hk. apply (HW s ltac:(lia) m b k Hb); [|exact Hk].
        apply (within_le g (V + Z.of_nat (t - s) * V)); [replace (S t - s)%nat with (S (t - s)) by lia; lia|]. eapply within_add; eassumption. }
    assert (W : same_walls st g ms K ds V x (phis t) (phis' t)).
    { intros m b k Hb Hw Hk. apply (HW t ltac:(lia) m b k Hb); [|exact Hk]. apply (within_le g V); [replace (S t - t)%nat with 1%nat by lia; lia|exact Hw]. }
    destruct (HG t x) as (f & F1 & F2). destruct (HG' t x) as (f' & F1' & F2').
    apply (C86_determined K inv simp l dm hdt ds a H f f'); [|exact F2|exact F2']. intros j Hj.
    exact (arrives_local dimz schemes st r g es labs conds Dm ms E K qk ds Hsz V (phis t) (phis' t) (G t) (G' t) x j _ _ HV V0 Hj A W (F1 j Hj) (F1' j Hj)).
Qed.
Lemma moving_unique phis G G' : moving_history phis G -> moving_history phis G' -> (forall x, cell_in g x -> agree K n (G 0%nat x) (G' 0%nat x)) -> forall t x, cell_in g x -> agree K n (G t x) (G' t x).
Proof using E H Hsz.
  intros H1 H2 H0 t x Hx. destruct (speed_ex st g K ds) as (V & V0 & HV). apply (C86_domain_of_dependence phis phis G G' V H1 H2 V0 HV t x Hx).
  - intros y Hy. apply H0. eapply within_in; eassumption.
  - intros s _ m b k _ _ _. reflexivity.
Qed.
(* a history from the initial values is what the simulation holds *)
Lemma moving_sim_of dat phis G : data_ok K ds dat -> walls_ok K phis -> moving_history phis G ->
  (forall x, cell_in g x -> initial_state K simp ds dat (at_cell x) (G 0%nat x)) -> moving_simulates dat phis G.
Proof using E H HN Hsz HQ.
  intros Hl Hphis HG H0. destruct (C86_simulation dat phis Hl Hphis) as (G' & I' & HG' & S'). pose proof H as H'. destruct H'.
  assert (U : forall t x, cell_in g x -> agree K n (G' t x) (G t x)).
  { apply (moving_unique phis); [exact HG'|exact HG|]. intros x Hx. exact (C68_determined K simp ds inv (Some l) dm hdt a md_inv0 md_ok0 md_ordered0 md_build0 dat _ _ _ (I' x) (H0 x Hx)). }
  intros ps Ds mss pos HP NE Hpos. destruct (S' ps Ds mss pos HP NE Hpos) as [R1 R2].
  assert (C : forall c i, coords_ok (proc_axes g ps) c -> inner (proc_axes g ps) c i -> cell_in g (globc (proc_axes g ps) c i)) by (intros c i Hc Hi; eapply glob_in; eassumption). split.
  - intros L0 t c i Hc Hi. eapply agree_trans; [exact (R1 L0 t c i Hc Hi)|apply U; now apply C].
  - intros Hn Hv t. destruct (R2 Hn Hv t) as [R3 R4]. split; [|exact R4]. intros c i Hc Hi. eapply agree_trans; [exact (R3 c i Hc Hi)|apply U; now apply C].
Qed.

(* ---- conservation ---- *)
Notation mass F b i := (sumL (fluid_cells g Dm) (fun x => mom K ds (F (wrapg g x)) b i)).
Lemma mass_history phis G c b i : moving_history phis G -> conserved_span K simp ds -> closed_domain dimz schemes st r g es labs conds Dm ms -> (forall t, at_rest r n (phis t)) ->
  is_moment K simp ds c b i -> even_moment r K ds b i -> forall t, mass (G t) b i = mass (G 0%nat) b i.
Proof using E H Hsz HQ.
  intros HG HS C Hr Hm He t. induction t as [|t IH]; [reflexivity|]. rewrite <- IH. clear IH.
  destruct (fixed_build K inv simp l dm hdt ds a H) as [a' EB]. pose proof H as H'. destruct H'.
  destruct (even_weights dimz schemes st r g es labs conds Dm ms E K inv simp dm hdt ds a' md_inv0 md_ok0 md_ordered0 EB Hsz c b i Hm He) as (w & W1 & W2).
  set (f := fun x k => boundary_condition K qk g (velk st) (symk r) (feq_of st (phis t) g) Cython ms (gfield g K (G t)) k (before st g k x)).
  transitivity (sumL (fluid_cells g Dm) (fun x => mom K ds (f x) b i)).
  - apply sumL_ext. intros x Hx. destruct (HG t (wrapg g x)) as (f' & F1 & F2). rewrite (C86_conserved K inv simp l dm hdt ds a H f' _ HS F2 c b i Hm). apply mom_agree.
    intros j Hj. eapply arrives_unique; [exact E|now apply F1|]. destruct (fluid_inside dimz schemes st r g es labs conds Dm ms E x Hx) as (Lx & _ & Hint). unfold f.
    rewrite <- (cell_wrapg g x Lx Hint) at 2. apply (arrives_bc dimz schemes st r g es labs conds Dm ms E HQ).
  - rewrite (sumL_ext K _ _ _ (fun x _ => W1 (f x))), (sumL_ext K _ (fun x => mom K ds (G t (wrapg g x)) b i) _ (fun x _ => W1 (G t (wrapg g x)))).
    exact (arrival_sum dimz schemes st r g es labs conds Dm ms E K qk inv simp dm hdt ds a' md_inv0 md_ok0 EB Hsz (phis t) (G t) w C (Hr t) W2).
Qed.
(* In a closed vessel or duct with walls at rest the total of each conserved moment which counts
   opposite velocities the same is, on the arrays of the processes and at all times, the sum of the
   values of the user's function over the fluid cells. *)
Theorem C86_mass dat phis rk c b i ps Ds mss css pos : data_ok K ds dat -> walls_ok K phis -> conserved_span K simp ds ->
  closed_domain dimz schemes st r g es labs conds Dm ms -> (forall t, at_rest r n (phis t)) ->
  nth_error (conserved K ds) rk = Some c -> is_moment K simp ds c b i -> even_moment r K ds b i ->
  parallel st g es labs conds ps Ds mss -> Forall (fun x => forall c, (c < ax_p x)%nat -> ax_lo x c < ax_hi x c) (proc_axes g ps) -> (pos <= dim g)%nat ->
  NoDup css -> (forall c, In c css <-> coords_ok (proc_axes g ps) c) ->
  let total := fluid_total g ps Ds css (fun f => mom K ds f b i) in
  exists rho : cell -> K, (forall x, In x (fluid_cells g Dm) -> given_value K ds dat rk (point g x) (rho x)) /\
  (forall L0 t, total (fst (cy_run st r g K qk a pos ps mss phis L0 t (begin dat Cython ps pos))) = sumL (fluid_cells g Dm) rho) /\
  ((forall d t, In d ds -> In t (sd_s K d) -> vars K t = []) -> (forall j c, nth j l (Num 0%K) <> Var c) ->
     forall t, total (fst (np_run st r g K qk a pos ps mss phis t (begin dat Numpy ps pos))) = sumL (fluid_cells g Dm) rho).
Proof using E H HN Hsz HQ.
  intros Hl Hphis HS C Hr Hrk Hm He HP NE Hpos Hnd Hcs total. destruct (C86_simulation dat phis Hl Hphis) as (G & I0 & HG & S0).
  assert (Hq : forall f f', agree K (length (concat schemes)) f f' -> mom K ds f b i = mom K ds f' b i).
  { intros f f' Hf. apply mom_agree. intros k Hkn. apply Hf. rewrite <- moving_na, moving_size. exact Hkn. }
  pose proof (fun F G H => fluid_total_ref dimz schemes st r g es labs conds Dm ms E ps Ds mss HP css Hnd Hcs K (fun f => mom K ds f b i) F G Hq H) as FT.
  rewrite <- moving_na, moving_size in FT. destruct (S0 ps Ds mss pos HP NE Hpos) as [R1 R2].
  pose proof (mass_history phis G c b i HG HS C Hr Hm He) as MH.
  exists (fun x => mom K ds (G 0%nat (wrapg g x)) b i). split; [|split].
  - intros x Hx. destruct (fluid_inside dimz schemes st r g es labs conds Dm ms E x Hx) as (Lx & _ & Hint).
    rewrite <- (cell_wrapg g x Lx Hint) at 1. exact (proj1 (I0 (wrapg g x)) rk c b i Hrk Hm).
  - intros L0 t. rewrite <- (MH t). unfold total. apply FT. apply R1.
  - intros Hn Hv t. rewrite <- (MH t). unfold total. apply FT. now apply R2.
Qed.
(* Equal parameters: the simulations with and without relative velocity give the same values. *)
Theorem C86_same (s : vec K -> K) dat phis : data_ok K ds dat -> walls_ok K phis -> conserved_span K simp ds ->
  (forall val b i d, nth_error ds b = Some d -> (i < nv K d)%nat -> (forall c, ~ is_moment K simp ds c b i) -> teval K val (nth i (sd_s K d) (Num 0%K)) = s val) ->
  exists a' G, build K inv simp None dm hdt ds = Some a' /\ moving_simulates dat phis G /\ simulates st r g es labs conds K qk inv simp ds a' dat phis G.
Proof using E H HN Hsz HQ.
  intros Hl Hphis HS Hs. destruct (fixed_build K inv simp l dm hdt ds a H) as [a' EB]. destruct (C86_simulation dat phis Hl Hphis) as (G & I0 & HG & S0).
  exists a', G. split; [exact EB|]. split; [exact S0|]. pose proof H as H'. destruct H'.
  apply (sim_of dimz schemes st r g es labs conds Dm ms E K qk inv simp dm hdt ds a' md_inv0 md_simp0 md_ok0 md_ordered0 EB md_below0 Hsz HQ dat phis G Hl Hphis); [|intros x _; apply I0].
  intros t x. destruct (HG t x) as (f & F1 & F2). exists f. split; [exact F1|]. now apply (C86_equal_parameters K inv simp l dm hdt ds a H HN s).
Qed.
(* A uniform state at equilibrium, given back by the conditions, does not change. *)
Theorem C86_rest dat phis e : data_ok K ds dat -> walls_ok K phis -> (forall x, cell_in g x -> initial_state K simp ds dat (at_cell x) e) ->
  (forall t m b, has ms m b -> (b_k b < n)%nat -> keeps st r g K qk (phis t) e m b) -> moving_simulates dat phis (fun _ _ => e).
Proof using E H HN Hsz HQ.
  intros Hl Hphis Hi Hb. apply moving_sim_of; try assumption. intros t x. exists e. split.
  - intros j Hj. assert (A := arrives_bc dimz schemes st r g es labs conds Dm ms E HQ K qk Cython (phis t) (fun _ => e) x j).
    destruct A as [(m & b & H1 & H2 & H3 & H4)|[H1 H2]].
    + left. exists m, b. repeat (split; [assumption|]). rewrite keeps_value by (apply Hb; [exact H1|now rewrite H2]). now rewrite H2.
    + right. split; [exact H1|reflexivity].
  - apply (C86_equilibrium K inv simp l dm hdt ds a H). intros val HV.
    assert (X : cell_in g (wrapg g [])) by (eapply wrapg_in; exact E). exact (proj2 (Hi _ X) val HV).
Qed.
End Sim.
Print Assumptions C86_determined.
Print Assumptions C86_conserved.
Print Assumptions C86_equal_parameters.
Print Assumptions C86_equilibrium.
Print Assumptions C86_simulation.
Print Assumptions C86_domain_of_dependence.
Print Assumptions C86_mass.
Print Assumptions C86_same.
Print Assumptions C86_rest.

(* ------------------------------------------------- examples *)
(* Six cells between two walls, three velocities, two processes; the dictionary d4 of BuildFrame:
   the density alone is conserved, the frame moves with rho + 1. *)
Definition v3line : grid := mkGrid [6] [1] [2; 2] [[0]; [1]; [-1]] [0%Q] 1%Q.
Definition st3 : stencil := match build_stencil 1 [[0; 1; 2]] with Some st => st | None => st0 end.
Definition D3 : dom := match domain_init v3line [] with Some D => D | None => mkDom (fun _ => false) (fun _ _ => link0) end.
Definition ms3 : list (method * list blink) := match boundary st3 v3line D3 bb (labels_of v3line []) with Some ms => ms | None => [] end.
Lemma serial3 : serial 1 [[0; 1; 2]] st3 [0; 2; 1] v3line [] [] bb D3 ms3.
Proof.
  split.
  - intros s x [<-|[]] Hx. cbn in Hx. lia.
  - reflexivity.
  - reflexivity.
  - reflexivity.
  - split; [reflexivity|]. cbn. lia.
  - split; [reflexivity|]. split.
    + intros d Hd. assert (d = 0%nat) as -> by (cbn in Hd; lia). cbn. lia.
    + intros v d Hv Hd. assert (d = 0%nat) as -> by (cbn in Hd; lia). cbn in Hv. destruct Hv as [<-|[<-|[<-|[]]]]; cbn; lia.
  - intros lb s m1 m2 [E1|[]] [E2|[]]; congruence.
  - reflexivity.
  - split; cbn; unfold valin; intuition discriminate.
  - intros e [].
  - intros es1 e es2 E. destruct es1; discriminate.
  - intros [].
  - reflexivity.
  - vm_compute. reflexivity.
Qed.
Lemma vessel3 : vessel 1 [[0; 1; 2]] st3 [0; 2; 1] v3line [] D3 bb (labels_of v3line []) ms3.
Proof.
  pose proof serial3 as M. split.
  - exact (serial_setting _ _ _ _ _ _ _ _ _ _ M).
  - repeat constructor; cbn; intuition discriminate.
  - apply M.
  - intros e [].
  - intros e c [].
  - apply M.
  - intros [|[|i]] Hi; cbn in Hi; [| |lia]; vm_compute; auto.
  - intros e x dv [].
  - intros lab Hl. vm_compute in Hl. destruct Hl as [<-|[]]. split; [discriminate|]. split; [discriminate|]. intros [|s] Hs; [now left|cbn in Hs; lia].
Qed.
Definition quiet3 : quiet st3 [0; 2; 1] v3line ms3 := vessel_quiet _ _ _ _ _ _ _ _ _ _ serial3 vessel3.
Definition Ds3 := dom_at v3line [] [2%nat].
Definition mss3 := links_at st3 v3line [] [] bb [2%nat].
Lemma parallel3 : parallel st3 v3line [] [] bb [2%nat] Ds3 mss3.
Proof.
  split.
  - repeat constructor; cbn; try lia; intros [|[|c]] Hc; cbn in Hc; try lia; vm_compute; discriminate.
  - intros c Hc. assert (E : c = [0%nat] \/ c = [1%nat]).
    { pose proof (Forall2_length _ _ _ Hc) as L. destruct c as [|c0 [|c1 c]]; try discriminate. inversion Hc as [|? ? ? ? H0 H1]. cbn in H0. destruct c0 as [|[|c0]]; [auto|auto|lia]. }
    destruct E as [-> | ->]; split; vm_compute; reflexivity.
Qed.
Definition l3 : list (term Zring) := [Bin zadd (Var 5) (Num (K := Zring) 1%Z)].
Definition b3 := build Zring (zinv cands) nosimp (Some l3) 1 1 [d4 None].
Lemma dict3 a : b3 = Some a -> moving_dict Zring (zinv cands) nosimp l3 1 1 [d4 None] a.
Proof.
  intros Ea. split; try exact Ea.
  - apply zinv_ok.
  - exact fsimp.
  - apply d4_ok.
  - apply d4_ordered.
  - intros [|[|j]] c Hc; cbn in Hc |- *; tauto.
  - intros d t [<-|[]] Ht. cbn in Ht. destruct Ht as [<-|[<-|[<-|[]]]]; intros c Hc; cbn in Hc; lia.
  - intros d x [<-|[]] [<-|[<-|[<-|[]]]]; reflexivity.
  - intros d [<-|[]]; reflexivity.
  - intros d [<-|[]]; apply d4_closed.
  - intros c b i d Hm Hd w. apply d4_moment in Hm as (-> & -> & ->). injection Hd as <-. reflexivity.
Qed.
Lemma none3 : no_source Zring [d4 None].
Proof. intros d [<-|[]]; reflexivity. Qed.
Lemma span3 : conserved_span Zring nosimp [d4 None].
Proof.
  intros c b i d u Hm Hd. apply d4_moment in Hm as (-> & -> & ->). injection Hd as <-. exists (fun j => if Nat.eqb j 1 then 1 else 0). split.
  - intros j Hj Hn. destruct (Nat.eqb_spec j 1) as [->|_]; [|reflexivity]. destruct (Hn 5%nat). apply d4_is.
  - intros x. change (1 = 0 * poly Zring (d4 None) 0 x + (1 * 1 + (0 * poly Zring (d4 None) 2 x + 0))). lia.
Qed.
Lemma data3 f : (forall x y, Forall2 Qeq x y -> f x = f y) -> data_ok Zring [d4 None] [(ISym 5, f)].
Proof. intros Hf. split; [intros p x y [<-|[]] H; now apply Hf|]. intros p [<-|[]]. exists 0%nat. split; [cbn; lia|reflexivity]. Qed.
Lemma rest3 t : at_rest (K := Zring) [0; 2; 1] (SchemeModel.total (sizes Zring [d4 None])) (wphi t).
Proof. intros lab x k Hk. reflexivity. Qed.
Lemma axes3 : Forall (fun x => forall c, (c < ax_p x)%nat -> ax_lo x c < ax_hi x c) (proc_axes v3line [2%nat]).
Proof. repeat constructor. intros [|[|c]] Hc; [vm_compute; reflexivity|vm_compute; reflexivity|cbn in Hc; lia]. Qed.
Lemma numbers3 d t : In d [d4 None] -> In t (sd_s Zring d) -> vars Zring t = [].
Proof. intros [<-|[]] [<-|[<-|[<-|[]]]]; reflexivity. Qed.
Lemma plain3 j c : nth j l3 (Num (K := Zring) 0%Z) <> Var c.
Proof. destruct j as [|[|j]]; discriminate. Qed.
Example C86_example : exists a, b3 = Some a /\ (exists G,
    (forall x, initial_state Zring nosimp [d4 None] [(ISym 5, ifun)] (point v3line (cell_of v3line x)) (G 0%nat x)) /\
    moving_history st3 [0; 2; 1] v3line ms3 Zring (fun _ => 0) nosimp l3 [d4 None] wphi G /\
    moving_simulates st3 [0; 2; 1] v3line [] [] bb Zring (fun _ => 0) (zinv cands) nosimp l3 [d4 None] a [(ISym 5, ifun)] wphi G) /\
  exists rho, (forall x, In x (fluid_cells v3line D3) -> given_value Zring [d4 None] [(ISym 5, ifun)] 0 (point v3line x) (rho x)) /\
  forall t, fluid_total v3line [2%nat] Ds3 wcs (fun f => mom Zring [d4 None] f 0 1) (fst (np_run st3 [0; 2; 1] v3line Zring (fun _ => 0) a 0 [2%nat] mss3 wphi t
    (start Zring a 0 (scheme_consm Zring (zinv cands) nosimp [d4 None]) Numpy true v3line [2%nat] (Some [(ISym 5, ifun)])))) = sumL (fluid_cells v3line D3) rho.
Proof.
  destruct (built_ex b3) as [a Ea]; [vm_compute; reflexivity|]. exists a. split; [exact Ea|]. split.
  - apply (C86_simulation 1 [[0; 1; 2]] st3 [0; 2; 1] v3line [] [] bb D3 ms3 serial3 Zring (fun _ => 0) (zinv cands) nosimp l3 1 1 [d4 None] a (dict3 a Ea) none3 eq_refl quiet3).
    + apply data3. exact ifun_regular.
    + exact wphi_ok.
  - destruct (C86_mass 1 [[0; 1; 2]] st3 [0; 2; 1] v3line [] [] bb D3 ms3 serial3 Zring (fun _ => 0) (zinv cands) nosimp l3 1 1 [d4 None] a (dict3 a Ea) none3 eq_refl quiet3
      [(ISym 5, ifun)] wphi 0%nat 5%nat 0%nat 1%nat [2%nat] Ds3 mss3 wcs 0%nat) as (rho & R1 & _ & R2); try reflexivity; try exact wphi_ok.
    + apply data3. exact ifun_regular.
    + exact span3.
    + left. exact vessel3.
    + exact rest3.
    + apply d4_is.
    + intros d j j' Hd _ _ _. injection Hd as <-. reflexivity.
    + exact parallel3.
    + exact axes3.
    + cbn. lia.
    + repeat constructor; cbn; intuition discriminate.
    + intros c. symmetry. apply wcoords.
    + exists rho. split; [exact R1|]. exact (R2 numbers3 plain3).
Qed.
(* The velocity alone is conserved and the frame moves with 3: the collision keeps q - 3 rho in the
   moving frame and lets rho relax, so that the conserved moment q of the fixed frame changes. *)
Definition d5 : sdict Zring :=
  mkSdict Zring [[0]; [1]; [-1]]%Z [Un zhalf (Bin zadd (Bin zmul X X) X); Num (K := Zring) 1%Z; X] None
    [Num (K := Zring) 2%Z; Num (K := Zring) 1%Z; Num (K := Zring) 0%Z] [Bin zmul (Var 6) (Var 6); Bin zadd (Var 6) (Var 6); Var 6] None [6%nat] [].
Definition l5 : list (term Zring) := [Num (K := Zring) 3%Z].
Definition b5 := build Zring (zinv cands) nosimp (Some l5) 1 1 [d5].
Lemma d5_moment c b i : is_moment Zring nosimp [d5] c b i -> b = 0%nat /\ c = 6%nat /\ i = 2%nat.
Proof.
  intros (d & H1 & H2 & H3 & H4 & _). destruct b as [|[|b]]; try discriminate. injection H1 as <-. split; [reflexivity|].
  destruct H2 as [<-|[]]. destruct i as [|[|[|i]]]; cbn in H4, H3; try discriminate; [now split|lia].
Qed.
Lemma d5_is : is_moment Zring nosimp [d5] 6 0 2.
Proof. exists d5. repeat split; [cbn; tauto|cbn; lia|]. intros j Hj. destruct j as [|[|[|j]]]; try discriminate; lia. Qed.
Lemma dict5 a : b5 = Some a -> moving_dict Zring (zinv cands) nosimp l5 1 1 [d5] a.
Proof.
  intros Ea. split; try exact Ea.
  - apply zinv_ok.
  - exact fsimp.
  - constructor; unfold BuildProofs.closed, conserved; cbn [map concat sd_cons d5 app].
    + constructor; [|constructor]. repeat split.
    + intros d N [<-|[]] _. reflexivity.
    + repeat constructor. intros [].
    + intros d t [<-|[]] Ht c Hc. cbn in Ht. destruct Ht as [<-|[<-|[<-|[]]]]; cbn in Hc; cbn; tauto.
    + intros d t [<-|[]] Ht c Hc. cbn in Ht. destruct Ht as [<-|[<-|[<-|[]]]]; destruct Hc.
    + intros d c g [<-|[]] [].
  - intros r c b i Hr Hm. apply d5_moment in Hm as (-> & -> & ->). unfold conserved in Hr. cbn in Hr. destruct r as [|[|r]]; try discriminate. cbn. lia.
  - intros [|[|j]] c Hc; destruct Hc.
  - intros d t [<-|[]] Ht. cbn in Ht. destruct Ht as [<-|[<-|[<-|[]]]]; intros c Hc; cbn in Hc; lia.
  - intros d x [<-|[]] [<-|[<-|[<-|[]]]]; reflexivity.
  - intros d [<-|[]]; reflexivity.
  - intros d [<-|[]]. exact (d4_closed None).
  - intros c b i d Hm Hd w. apply d5_moment in Hm as (-> & -> & ->). injection Hd as <-. reflexivity.
Qed.
(* (4, 3, 1): rho = 8, q = 2. At equilibrium rho = 4; q - 3 rho = -22 is kept in the frame and
   rho = 4, so q = -10. *)
Theorem C86_span_refuted : exists a f, moving_dict Zring (zinv cands) nosimp l5 1 1 [d5] a /\ is_moment Zring nosimp [d5] 6 0 2 /\
  let f' := pull_fun Zring (algo_of Zring a) f in moves Zring nosimp l5 [d5] f f' /\ mom Zring [d5] f 0 2 = 2 /\ mom Zring [d5] f' 0 2 = -10.
Proof.
  destruct (built_ex b5) as [a Ea]; [vm_compute; reflexivity|]. exists a, (fun k => nth k [4; 3; 1] 0). split; [now apply dict5|]. split; [exact d5_is|]. cbv zeta.
  split; [apply (pull_moves Zring (zinv cands) nosimp l5 1 1 [d5] a (dict5 a Ea)); intros d [<-|[]]; reflexivity|]. split; [reflexivity|].
  assert (X : match b5 with Some a => mom Zring [d5] (pull_fun Zring (algo_of Zring a) (fun k => nth k [4; 3; 1] 0)) 0 2 = -10 | None => False end) by (vm_compute; reflexivity).
  now rewrite Ea in X.
Qed.
Print Assumptions C86_span_refuted.

(* One parameter, 2: the simulation with the relative velocity rho + 1 and the one without hold the
   same values. *)
Definition d6 : sdict Zring :=
  mkSdict Zring [[0]; [1]; [-1]]%Z [Un zhalf (Bin zadd (Bin zmul X X) X); Num (K := Zring) 1%Z; X] None
    [Num (K := Zring) 2%Z; Num (K := Zring) 0%Z; Num (K := Zring) 2%Z] [Bin zmul (Var 5) (Var 5); Var 5; Bin zadd (Var 5) (Var 5)] None [5%nat] [].
Definition b6 := build Zring (zinv cands) nosimp (Some l3) 1 1 [d6].
Lemma d6_moment c b i : is_moment Zring nosimp [d6] c b i -> b = 0%nat /\ c = 5%nat /\ i = 1%nat.
Proof.
  intros (d & H1 & H2 & H3 & H4 & _). destruct b as [|[|b]]; try discriminate. injection H1 as <-. split; [reflexivity|].
  destruct H2 as [<-|[]]. destruct i as [|[|[|i]]]; cbn in H4, H3; try discriminate; [now split|lia].
Qed.
Lemma d6_is : is_moment Zring nosimp [d6] 5 0 1.
Proof. exists d6. repeat split; [cbn; tauto|cbn; lia|]. intros j Hj. destruct j as [|[|j]]; try discriminate; lia. Qed.
Lemma span6 : conserved_span Zring nosimp [d6].
Proof.
  intros c b i d u Hm Hd. apply d6_moment in Hm as (-> & -> & ->). injection Hd as <-. exists (fun j => if Nat.eqb j 1 then 1 else 0). split.
  - intros j Hj Hn. destruct (Nat.eqb_spec j 1) as [->|_]; [|reflexivity]. destruct (Hn 5%nat). apply d6_is.
  - intros x. change (1 = 0 * poly Zring d6 0 x + (1 * 1 + (0 * poly Zring d6 2 x + 0))). lia.
Qed.
Lemma dict6 a : b6 = Some a -> moving_dict Zring (zinv cands) nosimp l3 1 1 [d6] a.
Proof.
  intros Ea. split; try exact Ea.
  - apply zinv_ok.
  - exact fsimp.
  - constructor; unfold BuildProofs.closed, conserved; cbn [map concat sd_cons d6 app].
    + constructor; [|constructor]. repeat split.
    + intros d N [<-|[]] _. reflexivity.
    + repeat constructor. intros [].
    + intros d t [<-|[]] Ht c Hc. cbn in Ht. destruct Ht as [<-|[<-|[<-|[]]]]; cbn in Hc; cbn; tauto.
    + intros d t [<-|[]] Ht c Hc. cbn in Ht. destruct Ht as [<-|[<-|[<-|[]]]]; destruct Hc.
    + intros d c g [<-|[]] [].
  - intros r c b i Hr Hm. apply d6_moment in Hm as (-> & -> & ->). unfold conserved in Hr. cbn in Hr. destruct r as [|[|r]]; try discriminate. cbn. lia.
  - intros [|[|j]] c Hc; cbn in Hc |- *; tauto.
  - intros d t [<-|[]] Ht. cbn in Ht. destruct Ht as [<-|[<-|[<-|[]]]]; intros c Hc; cbn in Hc; lia.
  - intros d x [<-|[]] [<-|[<-|[<-|[]]]]; reflexivity.
  - intros d [<-|[]]; reflexivity.
  - intros d [<-|[]]. exact (d4_closed None).
  - intros c b i d Hm Hd w. apply d6_moment in Hm as (-> & -> & ->). injection Hd as <-. reflexivity.
Qed.
Lemma none6 : no_source Zring [d6].
Proof. intros d [<-|[]]; reflexivity. Qed.
Example C86_same_example : exists a, b6 = Some a /\ exists a' G, build Zring (zinv cands) nosimp None 1 1 [d6] = Some a' /\
  moving_simulates st3 [0; 2; 1] v3line [] [] bb Zring (fun _ => 0) (zinv cands) nosimp l3 [d6] a [(ISym 5, ifun)] wphi G /\
  simulates st3 [0; 2; 1] v3line [] [] bb Zring (fun _ => 0) (zinv cands) nosimp [d6] a' [(ISym 5, ifun)] wphi G.
Proof.
  destruct (built_ex b6) as [a Ea]; [vm_compute; reflexivity|]. exists a. split; [exact Ea|].
  apply (C86_same 1 [[0; 1; 2]] st3 [0; 2; 1] v3line [] [] bb D3 ms3 serial3 Zring (fun _ => 0) (zinv cands) nosimp l3 1 1 [d6] a (dict6 a Ea) none6 eq_refl quiet3 (fun _ => 2)).
  - exact (data3 ifun ifun_regular).
  - exact wphi_ok.
  - exact span6.
  - intros val b i d Hb Hi Hn. destruct b as [|[|b]]; try discriminate. injection Hb as <-. destruct i as [|[|[|i]]]; [reflexivity| |reflexivity|cbn in Hi; lia].
    destruct (Hn 5%nat). exact d6_is.
Qed.
(* fz is (7, 2, 4): with the parameters 2, 0, 1 the velocity matters, with 2, 0, 2 it does not *)
Example C86_same_values : pullf b3 fz 3 <> pullf (build Zring (zinv cands) nosimp None 1 1 [d4 None]) fz 3 /\
  pullf b6 fz 3 = pullf (build Zring (zinv cands) nosimp None 1 1 [d6]) fz 3.
Proof. split; [vm_compute; discriminate|vm_compute; reflexivity]. Qed.
