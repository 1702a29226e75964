(* C65: a whole simulation follows its dictionary: the generated kernels, the boundary conditions
   and the exchanges, on every process grid. *)
From Coq Require Import QArith.
From Verif Require Import PyBase VelocityModel VelocityProofs Velocity3Proofs StencilModel StencilProofs GridModel GridProofs StorageModel
  ExchangeProofs StorageProps LinAlg AlgoModel AlgoProofs RelVelProofs KernelProofs GlobalModel GlobalProofs TorusProofs AlgoProps GlobalProps
  GenModel GenProofs GenProps StepGenModel StepGenProofs StepGenProps SchemeModel SchemeProofs SchemeProps BuildModel BuildProofs BuildProps BuildFrame
  DomainModel DomainProofs DomainProps BoundaryModel BoundaryProofs BoundaryProps BoundaryUpdProps VesselProofs VesselProps ChannelProps
  ParallelModel ParallelProofs ObstacleProofs ParallelProps ObstacleProps ParallelMassProps WholeModel.
Require Import Lia.
Open Scope Z_scope.

(* ------------------------------------------------- one step, for any boundary conditions *)
Section Step.
Variables (K : arith) (a : salgo K) (pos : nat) (axes : list axis) (vel : nat -> list Z).
Notation n := (sa_n K a).
Notation al := (algo_of K a).
Hypothesis Hpos : (pos <= length axes)%nat.
Hypothesis F : GlobalProps.fits axes vel n.
Hypothesis NE : Forall (fun x => forall c, (c < ax_p x)%nat -> ax_lo x c < ax_hi x c) axes.
Hypothesis S : scheme_ok K a.
Variable B : fields K -> fields K.
Notation cyp := (cython_program K a pos axes vel).
Notation npp := (numpy_program K a pos axes vel).

Lemma whole_two_value L0 st c i : coords_ok axes c -> inner axes c i ->
  agree K n (fst (whole_two pos axes B cyp L0 st) c i) (pull_fun K al (fun j => B (fst st) c (shift_cell vel j i) j)).
Proof using Hpos F NE S.
  intros Hc Hi k Hk. destruct (scheme_algo K a S) as (He & Hs & HR).
  unfold whole_two, field_of. cbn [fst]. unfold cython_program. rewrite <- (sizes_len axes c Hc).
  refine (eq_trans (proj1 (C63_cython K a pos (map ax_h axes) (sizes_of axes c) vel _ (grid_proc K a pos axes vel Hpos F NE c Hc) S _ L0) i k (proj2 (ranges_inner axes c i Hc) Hi) Hk) _).
  apply (pull_fun_agree K al _ _ He Hs HR); [|exact Hk]. intros j Hj. unfold elt. cbn [arrays3]. now apply (read_elt K a pos axes vel Hpos F _ c).
Qed.
Lemma whole_one_value st c : numpy_ok K a -> coords_ok axes c ->
  whole_one_at pos axes B n npp st c <> None /\
  forall i, inner axes c i -> agree K n (fst (whole_one pos axes B n npp st) c i) (pull_fun K al (fun j => B (fst st) c (shift_cell vel j i) j)).
Proof using Hpos F NE S.
  intros N Hc. destruct (scheme_algo K a S) as (He & Hs & HR).
  assert (E : exists A L, numpy K (ranges_of axes c) (fun _ => ins pos (Z.of_nat n) (sizes_of axes c)) npp (arrays3 K pos (B (fst st) c) (snd st c) (zero_field K)) = Some (A, L) /\
    forall i k, inner axes c i -> (k < n)%nat -> A 0%nat (ins pos (Z.of_nat k) i) = pull_fun K al (fun j => B (fst st) c (shift_cell vel j i) j) k).
  { unfold numpy_program. rewrite <- (sizes_len axes c Hc).
    destruct (C63_numpy K a pos (map ax_h axes) (sizes_of axes c) vel _ (grid_proc K a pos axes vel Hpos F NE c Hc) S (arrays3 K pos (B (fst st) c) (snd st c) (zero_field K)) N) as (A & L & E1 & E2 & _).
    exists A, L. split; [exact E1|]. intros i k Hi Hk. refine (eq_trans (E2 i k (proj2 (ranges_inner axes c i Hc) Hi) Hk) _).
    apply (pull_fun_agree K al _ _ He Hs HR); [|exact Hk]. intros j Hj. unfold elt. cbn [arrays3]. now apply (read_elt K a pos axes vel Hpos F _ c). }
  destruct E as (A & L & E1 & E2). unfold whole_one, whole_one_at. rewrite E1. cbn [option_map fst]. split; [discriminate|].
  intros i Hi k Hk. rewrite E1. cbn [option_map fst]. unfold field_of. now apply E2.
Qed.
End Step.

(* ------------------------------------------------- runs *)
Section Run.
Variables (dimz : Z) (schemes : list (list Z)) (st : stencil) (r : list Z) (g : grid) (es : list DomainModel.elem) (labs : list Z) (conds : Z -> list (nat * method)).
Variables (D : dom) (ms : list (method * list blink)).
Hypothesis E : serial dimz schemes st r g es labs conds D ms.
Hypothesis HQ : quiet st r g ms.
Variables (K : arith) (qk : Q -> K) (a : salgo K) (pos : nat).
Hypothesis Hpos : (pos <= dim g)%nat.
Hypothesis Hna : sa_n K a = length (concat schemes).
Hypothesis S : scheme_ok K a.
Notation n := (sa_n K a).
Notation al := (algo_of K a).
Notation stepped be phi G := (ref_step st r g ms K qk al be phi G).

Section Procs.
Variables (ps : list nat) (Ds : list nat -> dom) (mss : list nat -> list (method * list blink)).
Hypothesis HP : parallel st g es labs conds ps Ds mss.
Hypothesis NE : Forall (fun x => forall c, (c < ax_p x)%nat -> ax_lo x c < ax_hi x c) (proc_axes g ps).
Notation PA := (proc_axes g ps).
Definition cy_step be (phi : Z -> list Q -> nat -> K) L0 s := whole_two pos PA (pbc qk st (velk st) (symk r) phi g ps be mss) (cython_program K a pos PA (velk st)) L0 s.
Definition np_step be (phi : Z -> list Q -> nat -> K) s := whole_one pos PA (pbc qk st (velk st) (symk r) phi g ps be mss) n (numpy_program K a pos PA (velk st)) s.
Definition np_fine be (phi : Z -> list Q -> nat -> K) s := forall c, coords_ok PA c ->
  whole_one_at pos PA (pbc qk st (velk st) (symk r) phi g ps be mss) n (numpy_program K a pos PA (velk st)) s c <> None.

Lemma whole_fits : GlobalProps.fits PA (velk st) n.
Proof using E HP Hna. rewrite Hna. exact (serial_fits _ _ _ _ _ _ _ _ _ _ E ps (proj1 HP)). Qed.
Lemma whole_pos : (pos <= length PA)%nat.
Proof using Hpos. now rewrite pa_len. Qed.
Lemma bc_value be phi F G c i : ParallelProps.regular phi -> holds K PA n F G -> coords_ok PA c -> inner PA c i ->
  agree K n (pull_fun K al (fun j => pbc qk st (velk st) (symk r) phi g ps be mss F c (shift_cell (velk st) j i) j)) (stepped be phi G (globc PA c i)).
Proof using E HQ HP Hna S.
  intros Hphi HG Hc Hi k Hk. destruct (scheme_algo K a S) as (He & Hs & HR). unfold ref_step. apply (pull_fun_agree K al); try assumption.
  intros j Hj. cbn in Hj. rewrite Hna in Hj. rewrite Hna in HG. eapply (pbc_ref dimz schemes st r g es labs conds D ms E); eassumption.
Qed.
Lemma cy_step_holds be phi L0 s G : ParallelProps.regular phi -> holds K PA n (fst s) G -> holds K PA n (fst (cy_step be phi L0 s)) (stepped be phi G).
Proof using E HQ HP Hna S NE Hpos.
  intros Hphi HG c i Hc Hi. eapply agree_trans; [apply (whole_two_value K a pos PA (velk st) whole_pos whole_fits NE S); assumption|]. now apply bc_value.
Qed.
Lemma np_step_holds be phi s G : numpy_ok K a -> ParallelProps.regular phi -> holds K PA n (fst s) G -> holds K PA n (fst (np_step be phi s)) (stepped be phi G) /\ np_fine be phi s.
Proof using E HQ HP Hna S NE Hpos.
  intros N Hphi HG. split.
  - intros c i Hc Hi. destruct (whole_one_value K a pos PA (velk st) whole_pos whole_fits NE S (pbc qk st (velk st) (symk r) phi g ps be mss) s c N Hc) as [_ H].
    eapply agree_trans; [now apply H|]. now apply bc_value.
  - intros c Hc. now apply (whole_one_value K a pos PA (velk st) whole_pos whole_fits NE S).
Qed.
End Procs.

(* What arrives at the cell x along the velocity j: the value of the condition if the cell
   x - v_j has a link (domain g, links ms of one process), else the value there, with the periodic sides. *)
Definition arrives (phi : Z -> list Q -> nat -> K) (G : list Z -> vec K) (x : list Z) (j : nat) (v : K) : Prop :=
  let y := before st g j (cell_of g x) in
  (exists m b, has ms m b /\ b_k b = j /\ b_cell b = y /\ v = bvalue K qk g (velk st) (symk r) (feq_of st phi g) m (gfield g K G) b) \/
  ((forall m b, has ms m b -> ~ (b_k b = j /\ b_cell b = y)) /\ v = G (wrapg g y) j).
Lemma arrives_bc be phi G x j :
  arrives phi G x j (boundary_condition K qk g (velk st) (symk r) (feq_of st phi g) be ms (gfield g K G) j (before st g j (cell_of g x))).
Proof using E HQ.
  set (y := before st g j (cell_of g x)). pose proof (serial_setting _ _ _ _ _ _ _ _ _ _ E) as SS. unfold arrives. cbv zeta. fold y.
  destruct (written_dec (all_links ms) (j, y)) as [Wr|Nw].
  - left. apply ParallelProofs.written_has in Wr. destruct Wr as (m & b & Hb & Ek). unfold key in Ek. injection Ek as <- <-. exists m, b. repeat split; try assumption.
    apply (pass_value K qk g (velk st) (symk r) (feq_of st phi g) be ms _ m b (links_nodup _ _ _ _ _ _ _ _ _ SS) Hb (links_one _ _ _ _ _ _ _ _ _ SS)).
    intros p Hp. exact (HQ m b p Hb Hp).
  - right. split.
    + intros m b Hb [E1 E2]. apply Nw. rewrite <- E1, <- E2. exact (has_written ms m b Hb).
    + now rewrite (pass_frame K qk g (velk st) (symk r) (feq_of st phi g) be ms _ _ _ Nw).
Qed.
Lemma arrives_unique phi G x j v v' : arrives phi G x j v -> arrives phi G x j v' -> v = v'.
Proof using E.
  pose proof (serial_setting _ _ _ _ _ _ _ _ _ _ E) as SS.
  intros [(m & b & H1 & H2 & H3 & ->)|[H1 ->]] [(m' & b' & H1' & H2' & H3' & ->)|[H1' ->]]; [| | |reflexivity].
  - destruct (links_one _ _ _ _ _ _ _ _ _ SS m b m' b' H1 H1') as [-> ->]; [|reflexivity]. unfold key. congruence.
  - destruct (H1' m b H1). now split.
  - destruct (H1 m' b' H1'). now split.
Qed.
Lemma stepped_backend be be' phi G x : agree K n (stepped be phi G x) (stepped be' phi G x).
Proof using E HQ S.
  destruct (scheme_algo K a S) as (He & Hs & HR). unfold ref_step. apply (pull_fun_agree K al _ _ He Hs HR). intros j _.
  eapply arrives_unique; apply arrives_bc.
Qed.

(* t steps; phis t gives the equilibrium at the walls during the step t *)
Fixpoint cy_run ps mss (phis : nat -> Z -> list Q -> nat -> K) L0 t s := match t with O => s | Datatypes.S t => cy_step ps mss Cython (phis t) L0 (cy_run ps mss phis L0 t s) end.
Fixpoint np_run ps mss (phis : nat -> Z -> list Q -> nat -> K) t s := match t with O => s | Datatypes.S t => np_step ps mss Numpy (phis t) (np_run ps mss phis t s) end.
Fixpoint ref_run (phis : nat -> Z -> list Q -> nat -> K) t G := match t with O => G | Datatypes.S t => stepped Cython (phis t) (ref_run phis t G) end.
Lemma runs_hold ps Ds mss phis G0 : parallel st g es labs conds ps Ds mss -> Forall (fun x => forall c, (c < ax_p x)%nat -> ax_lo x c < ax_hi x c) (proc_axes g ps) ->
  (forall t, ParallelProps.regular (phis t)) ->
  (forall L0 s, holds K (proc_axes g ps) n (fst s) G0 -> forall t, holds K (proc_axes g ps) n (fst (cy_run ps mss phis L0 t s)) (ref_run phis t G0)) /\
  (numpy_ok K a -> forall s, holds K (proc_axes g ps) n (fst s) G0 -> forall t,
     holds K (proc_axes g ps) n (fst (np_run ps mss phis t s)) (ref_run phis t G0) /\ np_fine ps mss Numpy (phis t) (np_run ps mss phis t s)).
Proof using E HQ Hpos Hna S.
  intros HP NE Hphis. split.
  - intros L0 s HG t. induction t as [|t IH]; [exact HG|]. cbn [cy_run ref_run]. eapply cy_step_holds; eauto.
  - intros N s HG t.
    assert (H : holds K (proc_axes g ps) n (fst (np_run ps mss phis t s)) (ref_run phis t G0)).
    { induction t as [|t IH]; [exact HG|]. cbn [np_run ref_run]. intros c i Hc Hi.
      eapply agree_trans; [|apply (stepped_backend Numpy Cython)]. exact (proj1 (np_step_holds ps Ds mss HP NE Numpy (phis t) _ _ N (Hphis t) IH) c i Hc Hi). }
    split; [exact H|]. exact (proj2 (np_step_holds ps Ds mss HP NE Numpy (phis t) _ _ N (Hphis t) H)).
Qed.
End Run.

(* ------------------------------------------------- the dictionary *)
Section Dict.
Variables (dimz : Z) (schemes : list (list Z)) (st : stencil) (r : list Z) (g : grid) (es : list DomainModel.elem) (labs : list Z) (conds : Z -> list (nat * method)).
Variables (Dm : dom) (ms : list (method * list blink)).
Hypothesis E : serial dimz schemes st r g es labs conds Dm ms.
Variables (K : ring) (qk : Q -> K).
Add Ring Kring : (rth K).
Variable inv : nat -> mat K -> option (mat K).
Variable simp : term K -> term K.
Variables (dm : nat) (hdt : K) (ds : list (sdict K)) (a : salgo K).
Hypothesis HI : inv_spec K inv.
Hypothesis HSi : simp_spec K simp.
Hypothesis D : dict_ok K simp ds.
Hypothesis O : ordered K simp ds.
Hypothesis EB : build K inv simp None dm hdt ds = Some a.
Hypothesis HPl : forall d t, In d ds -> In t (sd_P K d) -> below K dm t.
(* the dictionary has the velocities of the stencil: as many in each scheme *)
Hypothesis Hsz : map (nv K) ds = map (@length Z) schemes.
Notation n := (SchemeModel.total (sizes K ds)).

Lemma whole_size : sa_n K a = n.
Proof using HI D EB. exact (built_size K inv simp None dm hdt ds a HI D EB). Qed.
Lemma whole_na : sa_n K a = length (concat schemes).
Proof using HI D EB Hsz.
  rewrite whole_size. unfold sizes. rewrite Hsz. clear. induction schemes as [|l t IH]; [reflexivity|]. cbn. rewrite app_length. f_equal. exact IH.
Qed.
Lemma whole_ok : scheme_ok K a.
Proof using HI D O EB HPl. apply (built_ok K inv simp None dm hdt ds a HI D O EB); [discriminate|exact HPl]. Qed.

Theorem C65_simulation (phis : nat -> Z -> list Q -> nat -> K) (G0 : list Z -> vec K) :
  quiet st r g ms -> (forall t, ParallelProps.regular (phis t)) ->
  exists G : nat -> list Z -> vec K, G 0%nat = G0 /\
  (* each cell follows the dictionary, from what arrives *)
  (forall t x, exists f, (forall j, (j < n)%nat -> arrives st r g ms K qk (phis t) (G t) x j (f j)) /\ collided K simp hdt ds f (G (S t) x)) /\
  (* on every process grid, for every order of the storage *)
  forall ps Ds mss pos, parallel st g es labs conds ps Ds mss -> Forall (fun x => forall c, (c < ax_p x)%nat -> ax_lo x c < ax_hi x c) (proc_axes g ps) -> (pos <= dim g)%nat ->
  forall s, holds K (proc_axes g ps) n (fst s) G0 ->
  (forall L0 t, holds K (proc_axes g ps) n (fst (cy_run st r g K qk a pos ps mss phis L0 t s)) (G t)) /\
  ((forall d t, In d ds -> In t (sd_s K d) -> vars K t = []) -> forall t,
     holds K (proc_axes g ps) n (fst (np_run st r g K qk a pos ps mss phis t s)) (G t) /\
     np_fine st r g K qk a pos ps mss Numpy (phis t) (np_run st r g K qk a pos ps mss phis t s)).
Proof using E HI HSi D O EB HPl Hsz.
  intros HQ Hphis. exists (fun t => ref_run st r g ms K qk a phis t G0). split; [reflexivity|]. pose proof whole_ok as SO. destruct (scheme_algo K a SO) as (He & Hs & HR). split.
  - intros t x. cbn [ref_run]. set (Gt := ref_run st r g ms K qk a phis t G0).
    set (f := fun k => boundary_condition K qk g (velk st) (symk r) (feq_of st (phis t) g) Cython ms (gfield g K Gt) k (before st g k (cell_of g x))).
    exists f. split; [intros j _; now apply (arrives_bc dimz schemes st r g es labs conds Dm ms E HQ)|].
    apply (collided_agree K simp hdt ds f f (collide K (algo_of K a) f)); [intros k _; reflexivity| |now apply (C64_step K inv simp None dm hdt ds a)].
    intros k Hk. symmetry. apply (pull_fun_collide K (algo_of K a) f He Hs); [cbn; now rewrite (built_relvel K inv simp None dm hdt ds a HI D EB)|]. cbn. now rewrite whole_size.
  - intros ps Ds mss pos HP NE Hpos s HG. rewrite <- whole_size in *.
    destruct (runs_hold dimz schemes st r g es labs conds Dm ms E HQ K qk a pos Hpos whole_na SO ps Ds mss phis G0 HP NE Hphis) as [H1 H2]. split.
    + intros L0 t. now apply H1.
    + intros Hn t. apply H2; [now apply (built_numpy K inv simp None dm hdt ds a HI D EB)|exact HG].
Qed.

(* ---- conserved quantities ---- *)
Definition unit_at (k : nat) : vec K := fun j => if Nat.eqb j k then 1%K else 0%K.
Lemma mv_unit (m : nat) (A : mat K) k i : (k < m)%nat -> mvmul m A (unit_at k) i = A i k.
Proof using.
  intros Hk. unfold mvmul, unit_at. rewrite (sum_ext K m _ (fun j => (A i j * idm j k)%K)) by (intros j _; reflexivity). exact (mmul_idm_r K m A i k Hk).
Qed.
Lemma off_schemes b : off K ds b = length (concat (firstn b schemes)).
Proof using Hsz.
  unfold off. rewrite Hsz, firstn_map. induction (firstn b schemes) as [|l t IH]; [reflexivity|]. cbn. now rewrite app_length, IH.
Qed.
(* the opposite velocity belongs to the same scheme *)
Lemma opposite_in b d j : nth_error ds b = Some d -> (j < nv K d)%nat -> exists j', (j' < nv K d)%nat /\ symk r (off K ds b + j) = (off K ds b + j')%nat.
Proof using E Hsz.
  intros Hb Hj. destruct (C07_lemma dimz schemes st None (e_nn _ _ _ _ _ _ _ _ _ _ E) (e_build _ _ _ _ _ _ _ _ _ _ E) ltac:(intros; discriminate)) as [_ T].
  destruct (T r (e_sym _ _ _ _ _ _ _ _ _ _ E)) as (_ & T2 & _).
  pose proof (build_facts dimz schemes st (e_nn _ _ _ _ _ _ _ _ _ _ E) (e_build _ _ _ _ _ _ _ _ _ _ E)) as BF. pose proof (b_v _ _ _ BF) as EV.
  assert (LV : nth_error (map (@length _) (sv st)) b = Some (nv K d)).
  { apply (f_equal (map (@length _))) in EV. rewrite map_map in EV.
    rewrite (map_ext _ (@length _)) in EV by (intros l; apply map_length). rewrite EV, <- Hsz. now apply map_nth_error. }
  destruct (nth_error (sv st) b) as [vs|] eqn:Ev; [|apply nth_error_None in Ev; rewrite <- (map_length (@length _)) in Ev; apply nth_error_None in Ev; congruence].
  rewrite (map_nth_error (@length _) b (sv st) Ev) in LV. injection LV as LV.
  destruct (nth_error vs j) as [v|] eqn:Ej; [|apply nth_error_None in Ej; clear - LV Ej Hj; lia].
  destruct (T2 b j vs v Ev Ej) as (j' & u & Hj' & _ & Er). exists j'. split; [rewrite <- LV; apply nth_error_Some; congruence|].
  unfold symk. rewrite off_schemes, (nth_error_nth _ _ _ Er). now rewrite Nat2Z.id.
Qed.
(* The moment i of the scheme b counts opposite velocities the same: the density and the even moments. *)
Definition even_moment (b i : nat) : Prop := forall d j j', nth_error ds b = Some d -> (j < nv K d)%nat -> (j' < nv K d)%nat ->
  symk r (off K ds b + j) = (off K ds b + j')%nat -> entry K d i j' = entry K d i j.
Lemma mom_unit b i b' d' j : nth_error ds b' = Some d' -> (j < nv K d')%nat ->
  mom K ds (unit_at (off K ds b' + j)) b i = if Nat.eqb b b' then entry K d' i j else 0%K.
Proof using.
  intros Hb' Hj. unfold mom. destruct (nth_error ds b) as [d|] eqn:Hb.
  - destruct (Nat.eqb_spec b b') as [->|Nb].
    + replace d with d' in * by congruence. rewrite (sum_ext K (nv K d') _ (fun k => (entry K d' i k * unit_at j k)%K)).
      * exact (mv_unit (nv K d') (fun i k => entry K d' i k) j i Hj).
      * intros k _. unfold unit_at. f_equal. destruct (Nat.eqb_spec k j) as [->|N]; [now rewrite Nat.eqb_refl|].
        destruct (Nat.eqb_spec (off K ds b' + k) (off K ds b' + j)) as [X|X]; [|reflexivity]. exfalso. clear - N X. lia.
    + apply sum_zero. intros k Hk. unfold unit_at.
      destruct (Nat.eqb_spec (off K ds b + k) (off K ds b' + j)) as [X|X]; [destruct Nb; exact (proj1 (off_inj K ds b b' d d' k j Hb Hb' Hk Hj X))|ring].
  - destruct (Nat.eqb_spec b b') as [->|Nb]; [congruence|reflexivity].
Qed.
Lemma even_unit b i k : even_moment b i -> (k < n)%nat -> mom K ds (unit_at (symk r k)) b i = mom K ds (unit_at k) b i.
Proof using E Hsz.
  intros He Hk. destruct (off_ex K ds k Hk) as (b' & d' & j & H1 & H2 & ->). destruct (opposite_in b' d' j H1 H2) as (j' & H3 & Ej).
  rewrite Ej, (mom_unit b i b' d' j H1 H2), (mom_unit b i b' d' j' H1 H3). destruct (Nat.eqb_spec b b') as [->|_]; [|reflexivity]. exact (He d' j j' H1 H2 H3 Ej).
Qed.
(* a constant polynomial *)
Lemma const_even b i x : (forall d j, nth_error ds b = Some d -> (j < nv K d)%nat -> entry K d i j = x) -> even_moment b i.
Proof using. intros H d j j' H1 H2 H3 _. now rewrite (H d j H1 H2), (H d j' H1 H3). Qed.

Hypothesis Hsrc : forall d, In d ds -> sd_src K d = [].
Lemma whole_conserving : conserving K (algo_of K a).
Proof using HI D O EB HPl Hsrc.
  pose proof whole_ok as SO. destruct (scheme_algo K a SO) as (He & Hs & HR). destruct (build_built K simp inv hdt None dm ds a HI D EB) as (M & N & sg & B).
  split; [|split; [exact He|split; [exact HR|]]].
  - cbn. replace (sa_source K a) with (@nil (nat * term K)); [reflexivity|].
    pose proof (bu_src _ _ _ _ _ _ _ _ _ _ _ B) as Es. replace (concat (map (sd_src K) ds)) with (@nil (nat * term K)) in Es; [cbn in Es; congruence|].
    clear - Hsrc. induction ds as [|d l IH]; [reflexivity|]. cbn. rewrite (Hsrc d) by now left. apply IH. intros d' Hd. apply Hsrc. now right.
  - pose proof (built_frame K inv simp None dm hdt ds a HI D EB eq_refl) as HF. cbn. rewrite (built_relvel K inv simp None dm hdt ds a HI D EB eq_refl). exact (proj1 (proj1 HF)).
Qed.
Lemma whole_row c b i : is_moment K simp ds c b i -> exists k, (k < al_nc (algo_of K a))%nat /\ forall f, mom K ds f b i = mvmul (al_n (algo_of K a)) (al_M (algo_of K a)) f k.
Proof using HI D O EB.
  intros Hm. destruct (build_built K simp inv hdt None dm ds a HI D EB) as (M & N & sg & B). pose proof Hm as (d & H1 & H2 & H3 & _).
  assert (Hc : In c (conserved K ds)) by (apply in_concat; exists (sd_cons K d); split; [apply in_map; now apply nth_error_In in H1|exact H2]).
  destruct (In_nth_error _ _ Hc) as [k Hk]. exists k. split; [cbn; rewrite (bu_nc _ _ _ _ _ _ _ _ _ _ _ B); apply nth_error_Some; congruence|].
  intros f. cbn. rewrite (bu_n _ _ _ _ _ _ _ _ _ _ _ B), <- (bu_moments _ _ _ _ _ _ _ _ _ _ _ B f b d i H1 H3), <- (bu_front _ _ _ _ _ _ _ _ _ _ _ B O k c b i Hk Hm).
  apply sum_ext. intros j _. now rewrite (bu_M _ _ _ _ _ _ _ _ _ _ _ B).
Qed.

Section Mass.
Variables (ps : list nat) (Ds : list nat -> dom) (mss : list nat -> list (method * list blink)) (cs : list (list nat)) (pos : nat).
Hypothesis HP : parallel st g es labs conds ps Ds mss.
Hypothesis NE : Forall (fun x => forall c, (c < ax_p x)%nat -> ax_lo x c < ax_hi x c) (proc_axes g ps).
Hypothesis Hpos : (pos <= dim g)%nat.
Hypothesis Hnd : NoDup cs.
Hypothesis Hcs : forall c, In c cs <-> coords_ok (proc_axes g ps) c.
Variables (c b i : nat) (phis : nat -> Z -> list Q -> nat -> K).
Hypothesis Hm : is_moment K simp ds c b i.
Hypothesis He : even_moment b i.
Hypothesis Hphis : forall t, ParallelProps.regular (phis t) /\ at_rest r n (phis t).
Notation mass := (fluid_total g ps Ds cs (fun f => mom K ds f b i)).
(* the total does not change, in the simulation of the processes cs *)
Definition constant_mass := (forall L0 s t, mass (fst (cy_run st r g K qk a pos ps mss phis L0 t s)) = mass (fst s)) /\
  ((forall d t, In d ds -> In t (sd_s K d) -> vars K t = []) -> forall s t, mass (fst (np_run st r g K qk a pos ps mss phis t s)) = mass (fst s)).
Lemma mass_run : quiet st r g ms ->
  (forall k be, (k < al_nc (algo_of K a))%nat -> (forall l, (l < al_n (algo_of K a))%nat -> al_M (algo_of K a) k (symk r l) = al_M (algo_of K a) k l) ->
     forall phi G, at_rest r (al_n (algo_of K a)) phi -> let q := fun f : vec K => mvmul (al_n (algo_of K a)) (al_M (algo_of K a)) f k in
     sumL (fluid_cells g Dm) (fun x => q (ref_step st r g ms K qk (algo_of K a) be phi G (wrapg g x))) = sumL (fluid_cells g Dm) (fun x => q (G (wrapg g x)))) ->
  constant_mass.
Proof using E HI D O EB HPl Hsz HP NE Hpos Hnd Hcs Hm He Hphis.
  intros HQ Hstep. destruct (whole_row c b i Hm) as (k & Hk & Eq). pose proof whole_na as Ena. pose proof whole_size as Esz. pose proof whole_ok as SO.
  assert (Ean : al_n (algo_of K a) = n) by exact Esz.
  assert (Hev : forall l, (l < al_n (algo_of K a))%nat -> al_M (algo_of K a) k (symk r l) = al_M (algo_of K a) k l).
  { intros l Hl. assert (Hl' : (symk r l < n)%nat).
    { rewrite Ean in Hl. destruct (off_ex K ds l Hl) as (b' & d' & j & H1 & H2 & ->). destruct (opposite_in b' d' j H1 H2) as (j' & H3 & ->). now apply (off_total K ds b' d' j'). }
    rewrite <- (mv_unit _ (al_M (algo_of K a)) l k Hl), <- (mv_unit (al_n (algo_of K a)) (al_M (algo_of K a)) (symk r l) k) by (rewrite Ean; exact Hl').
    rewrite <- !Eq. apply even_unit; [exact He|]. now rewrite <- Ean. }
  assert (Hq : forall f f', agree K (length (concat schemes)) f f' -> mom K ds f b i = mom K ds f' b i).
  { intros f f' Hf. rewrite !Eq. apply mvmul_ext. intros j Hj. apply Hf. now rewrite <- Ena. }
  assert (T : forall G0 t, sumL (fluid_cells g Dm) (fun x => mom K ds (ref_run st r g ms K qk a phis t G0 (wrapg g x)) b i) = sumL (fluid_cells g Dm) (fun x => mom K ds (G0 (wrapg g x)) b i)).
  { intros G0 t. induction t as [|t IH]; [reflexivity|]. rewrite <- IH. cbn [ref_run].
    rewrite (sumL_ext K _ _ _ (fun y _ => Eq _)). rewrite (Hstep k Cython Hk Hev (phis t) _) by (rewrite Ean; apply Hphis). apply sumL_ext. intros y _. now rewrite Eq. }
  pose proof (fun F G H => fluid_total_ref dimz schemes st r g es labs conds Dm ms E ps Ds mss HP cs Hnd Hcs K (fun f => mom K ds f b i) F G Hq H) as FT. rewrite <- Ena in FT.
  split; [intros L0 s t|intros Hn s t];
    (destruct (holds_ex K (proc_axes g ps) (velk st) (sa_n K a) (fst s)) as [G0 HG0]; [rewrite Ena; exact (serial_fits _ _ _ _ _ _ _ _ _ _ E ps (proj1 HP))|]);
    destruct (runs_hold dimz schemes st r g es labs conds Dm ms E HQ K qk a pos Hpos Ena SO ps Ds mss phis G0 HP NE (fun t => proj1 (Hphis t))) as [R1 R2];
    rewrite (FT _ _ HG0), <- (T G0 t); apply FT.
  - now apply R1.
  - apply R2; [now apply (built_numpy K inv simp None dm hdt ds a HI D EB)|exact HG0].
Qed.
(* A closed vessel, with solid elements. *)
Theorem C65_vessel : vessel dimz schemes st r g es Dm conds (labels_of g labs) ms -> constant_mass.
Proof using E HI D O EB HPl Hsz HP NE Hpos Hnd Hcs Hm He Hphis Hsrc.
  intros V. apply mass_run; [exact (vessel_quiet _ _ _ _ _ _ _ _ _ _ E V)|]. intros k be Hk Hev phi G Hphi.
  apply (vessel_step _ _ _ _ _ _ _ _ _ _ E V K qk (algo_of K a) be k whole_na whole_conserving Hk Hev phi G Hphi).
Qed.
End Mass.
End Dict.
Print Assumptions C65_simulation.
Print Assumptions C65_vessel.
(* A channel: walls, the other sides are periodic. *)
Theorem C65_channel dimz schemes st r g labs conds Dm ms K qk inv simp dm hdt ds a ps Ds mss cs pos c b i phis :
  serial dimz schemes st r g [] labs conds Dm ms -> channel dimz schemes st r g Dm conds (labels_of g labs) ms ->
  inv_spec K inv -> dict_ok K simp ds -> ordered K simp ds -> build K inv simp None dm hdt ds = Some a ->
  (forall d t, In d ds -> In t (sd_P K d) -> below K dm t) -> map (nv K) ds = map (@length Z) schemes -> (forall d, In d ds -> sd_src K d = []) ->
  parallel st g [] labs conds ps Ds mss -> Forall (fun x => forall c, (c < ax_p x)%nat -> ax_lo x c < ax_hi x c) (proc_axes g ps) -> (pos <= dim g)%nat ->
  NoDup cs -> (forall c, In c cs <-> coords_ok (proc_axes g ps) c) ->
  is_moment K simp ds c b i -> even_moment r K ds b i ->
  (forall t, ParallelProps.regular (phis t) /\ at_rest r (SchemeModel.total (sizes K ds)) (phis t)) ->
  constant_mass st r g K qk ds a ps Ds mss cs pos b i phis.
Proof.
  intros E C HI D O EB HPl Hsz Hsrc HP NE Hpos Hnd Hcs Hm He Hphis.
  eapply mass_run; try eassumption; [exact (channel_quiet _ _ _ _ _ _ _ _ _ E C)|]. intros k be Hk Hev phi G Hphi.
  apply (channel_step _ _ _ _ _ _ _ _ _ E C K qk (algo_of K a) be k); try assumption; [eapply whole_na; eassumption|eapply whole_conserving; eassumption].
Qed.
Print Assumptions C65_channel.

(* ------------------------------------------------------------------ example *)
(* The line of ParallelMassProps: six cells, 3 and 4 solid, bounce back, two processes; the
   velocities 1, -1, the moments 1 and (X + 1)/2, the density is conserved, the equilibrium of the
   other one is 3 rho, its parameter 2. *)
Definition dw : sdict Zring :=
  mkSdict Zring [[1]; [-1]] [Num (K := Zring) 1%Z; Un zhalf (Bin zadd X (Num (K := Zring) 1%Z))] None
    [Num (K := Zring) 0%Z; Num (K := Zring) 2%Z] [Var 5; Bin zmul (Num (K := Zring) 3%Z) (Var 5)] None [5%nat] [].
Definition bw := build Zring (zinv [mat2 [[0; 1]; [1; -1]]]) nosimp None 1 1 [dw].
Definition wphi (_ : nat) (_ : Z) (_ : list Q) (_ : nat) : Z := 0.
Definition wcs : list (list nat) := [[0%nat]; [1%nat]].
Definition wmass (F : fields Zring) : Z := fluid_total (sline 6) [2%nat] mDs wcs (fun f : vec Zring => mom Zring [dw] f 0 0) F.
(* the values of the two fluid cells of each process and the total, after t steps *)
Definition look_cell (F : fields Zring) c i : list Z := map (F c i) [0; 1]%nat.
Definition look_run (F : fields Zring) : list (list Z) * Z := ([look_cell F [0%nat] [1]; look_cell F [0%nat] [2]; look_cell F [1%nat] [2]; look_cell F [1%nat] [3]], wmass F).
Lemma wcoords c : coords_ok (proc_axes (sline 6) [2%nat]) c <-> In c wcs.
Proof.
  split.
  - intros Hc. pose proof (Forall2_length _ _ _ Hc) as L. destruct c as [|c0 [|c1 c]]; try discriminate. inversion Hc as [|? ? ? ? H0 H3]. cbn in H0.
    destruct c0 as [|[|c0]]; [now left|now right; left|lia].
  - intros [<-|[<-|[]]]; repeat constructor; cbn; lia.
Qed.
Lemma dw_moment c b i : is_moment Zring nosimp [dw] c b i <-> (c = 5 /\ b = 0 /\ i = 0)%nat.
Proof.
  split.
  - intros (d & H1 & H2 & H3 & H4 & _). destruct b as [|[|b]]; try discriminate. injection H1 as <-.
    destruct i as [|[|i]]; cbn in H4, H3; try discriminate; [split; [congruence|auto]|lia].
  - intros (-> & -> & ->). exists dw. split; [reflexivity|]. split; [now left|]. split; [cbn; lia|]. split; [reflexivity|]. intros j Hj. lia.
Qed.
Lemma dw_ok : dict_ok Zring nosimp [dw] /\ ordered Zring nosimp [dw].
Proof.
  split.
  - constructor; unfold BuildProofs.closed; cbn.
    + repeat constructor.
    + intros d N [<-|[]] E. discriminate.
    + repeat constructor. intros [].
    + intros d t [<-|[]] Ht c Hc. cbn in Ht. destruct Ht as [<-|[<-|[]]]; cbn in Hc; intuition.
    + intros d t [<-|[]] Ht c Hc. cbn in Ht. destruct Ht as [<-|[<-|[]]]; destruct Hc.
    + intros d c g [<-|[]] [].
  - intros k c b i Hk Hm. apply dw_moment in Hm as (-> & -> & ->). destruct k as [|[|k]]; try discriminate. cbn. lia.
Qed.
Lemma wparallel : parallel sst (sline 6) wall34 [5] bb [2%nat] mDs mlinks.
Proof. exact (proj1 (proj2 (proj2 C54_parallel_example))). Qed.
Example C65_example : exists a, bw = Some a /\ dict_ok Zring nosimp [dw] /\ ordered Zring nosimp [dw] /\
  serial 1 [[1; 2]] sst [1; 0] (sline 6) wall34 [5] bb (sD 6 wall34) mms /\ parallel sst (sline 6) wall34 [5] bb [2%nat] mDs mlinks /\
  constant_mass sst [1; 0] (sline 6) Zring (fun _ => 0) [dw] a [2%nat] mDs mlinks wcs 0 0 0 wphi.
Proof.
  destruct (built_ex bw) as [a Ea]; [vm_compute; reflexivity|]. exists a. split; [exact Ea|]. destruct dw_ok as [H1 H2]. split; [exact H1|]. split; [exact H2|]. split; [exact mserial|].
  split; [exact wparallel|].
  apply (C65_vessel 1 [[1; 2]] sst [1; 0] (sline 6) wall34 [5] bb (sD 6 wall34) mms mserial Zring (fun _ => 0) (zinv [mat2 [[0; 1]; [1; -1]]]) nosimp 1 1 [dw] a (zinv_ok _) H1 H2 Ea)
    with (c := 5%nat); try reflexivity.
  - intros d t [<-|[]] Ht. cbn in Ht. destruct Ht as [<-|[<-|[]]]; intros x Hx; cbn in Hx; intuition lia.
  - intros d [<-|[]]. reflexivity.
  - exact wparallel.
  - repeat constructor. intros [|[|c]] Hc; [vm_compute; reflexivity|vm_compute; reflexivity|cbn in Hc; lia].
  - cbn. lia.
  - repeat constructor; cbn; intuition discriminate.
  - intros c. symmetry. apply wcoords.
  - now apply dw_moment.
  - apply (const_even _ Zring _ _ _ 1). intros d j Hd Hj. injection Hd as <-. reflexivity.
  - intros t. split; [|intros lab x k Hk; reflexivity]. intros lab x y k Hxy. reflexivity.
  - exact mvessel.
Qed.
Definition wrun (be : backend) (t : nat) : option (list (list Z) * Z) :=
  match bw with
  | None => None
  | Some a => Some (look_run (fst match be with
      | Cython => cy_run sst [1; 0] (sline 6) Zring (fun _ => 0) a 0 [2%nat] mlinks wphi (fun _ => 0) t (sF 6 2, sF 6 2)
      | _ => np_run sst [1; 0] (sline 6) Zring (fun _ => 0) a 0 [2%nat] mlinks wphi t (sF 6 2, sF 6 2) end))
  end.
(* cell 1: 1 is bounced back, 101 comes from the cell 2: rho = 102, the moment 1 becomes -1 + 6 * 102 = 611 *)
Example C65_values : wrun Cython 0 = Some ([[0; 1]; [100; 101]; [400; 401]; [500; 501]], 2004) /\
  wrun Cython 1 = Some ([[611; -509]; [600; -500]; [5011; -4109]; [5000; -4100]], 2004) /\
  wrun Numpy 2 = Some ([[-5545; 4536]; [6655; -5444]; [-45145; 36936]; [55055; -45044]], 2004).
Proof. split; [vm_compute; reflexivity|]. split; vm_compute; reflexivity. Qed.
