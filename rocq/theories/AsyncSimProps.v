(* Property C83, whole simulations: the processes run at their own pace and the cells follow the
   history of C65. *)
From Coq Require Import QArith.
From Verif Require Import PyBase VelocityModel VelocityProofs Velocity3Proofs StencilModel StencilProofs GridModel GridProofs StorageModel
  ExchangeProofs StorageProps LinAlg AlgoModel AlgoProofs RelVelProofs KernelProofs GlobalModel GlobalProofs TorusProofs AlgoProps GlobalProps
  GenModel GenProofs GenProps StepGenModel StepGenProofs StepGenProps SchemeModel SchemeProofs SchemeProps BuildModel BuildProofs BuildProps BuildFrame
  DomainModel DomainProofs DomainProps BoundaryModel BoundaryProofs BoundaryProps BoundaryUpdProps VesselProofs VesselProps ChannelProps
  ParallelModel ParallelProofs ObstacleProofs ParallelProps ObstacleProps ParallelMassProps WholeModel WholeProps AsyncModel AsyncProofs AsyncProps AsyncSimModel AsyncSimProofs.
Require Import Lia.
Open Scope Z_scope.

Section Run.
Variables (dimz : Z) (schemes : list (list Z)) (st : stencil) (r : list Z) (g : grid) (es : list DomainModel.elem) (labs : list Z) (conds : Z -> list (nat * method)).
Variables (D : dom) (ms : list (method * list blink)).
Hypothesis E : serial dimz schemes st r g es labs conds D ms.
Hypothesis HQ : quiet st r g ms.
Variables (K : ring) (qk : Q -> K) (a : salgo K) (pos : nat).
Hypothesis Hpos : (pos <= dim g)%nat.
Hypothesis Hna : sa_n K a = length (concat schemes).
Hypothesis HS : scheme_ok K a.
Notation n := (sa_n K a).
Variables (ps : list nat) (Ds : list nat -> dom) (mss : list nat -> list (method * list blink)).
Hypothesis HP : parallel st g es labs conds ps Ds mss.
Hypothesis NE : Forall (fun x => forall c, (c < ax_p x)%nat -> ax_lo x c < ax_hi x c) (proc_axes g ps).
Notation PA := (proc_axes g ps).
Notation mem2 := (memory (V := vec K) (M := list Z -> vec K)).
Variable phis : nat -> Z -> list Q -> nat -> K.
Hypothesis Hphis : forall t, ParallelProps.regular (phis t).
(* the computations of a process in the step t *)
Definition bc_t be t := bc_at qk st (velk st) (symk r) (phis t) g ps be mss.
Definition cy_local L0 t : proc -> mem2 -> mem2 := local_two pos PA (bc_t Cython t) (cython_program K a pos PA (velk st)) L0.
Definition np_local t : proc -> mem2 -> mem2 := local_one pos PA (bc_t Numpy t) n (numpy_program K a pos PA (velk st)).

Lemma bc_t_ext be t c F F' : fleq K F F' -> fleq K (bc_t be t c F) (bc_t be t c F').
Proof using. intros H i k. unfold bc_t, bc_at. apply bc_ext. intros k' x. apply H. Qed.
Lemma celleq_of F F' : fleq K F F' -> celleq K PA F F'.
Proof using. intros H i _. apply H. Qed.
Lemma cy_local_ok L0 t : item_ok PA (celleq K PA) (veq K) (Loc (cy_local L0 t)).
Proof using.
  intros c x y [H1 H2]. destruct (local_two_ext K pos PA (bc_t Cython t) (bc_t_ext Cython t) (cython_program K a pos PA (velk st)) L0 c x y H1 H2) as [G1 G2].
  split; [apply celleq_of, G1|]. intros i _. apply G2.
Qed.
Lemma np_local_ok t : item_ok PA (celleq K PA) (veq K) (Loc (np_local t)).
Proof using.
  intros c x y [H1 H2]. destruct (local_one_ext K pos PA (bc_t Numpy t) (bc_t_ext Numpy t) n (numpy_program K a pos PA (velk st)) c x y H1 H2) as [G1 G2].
  split; [apply celleq_of, G1|]. intros i _. apply G2.
Qed.
Lemma sim_items ls t : (forall t, item_ok PA (celleq K PA) (veq K) (Loc (ls t))) -> Forall (item_ok PA (celleq K PA) (veq K)) (sim_program PA ls t).
Proof using.
  intros H. induction t as [|t IH]; cbn [sim_program]; [constructor|]. rewrite Forall_app. split; [exact IH|]. unfold step_program. rewrite Forall_app. split; [|constructor; [apply H|constructor]].
  rewrite Forall_forall. intros it Hit. apply in_map_iff in Hit. destruct Hit as [d [<- Hd]]. apply in_seq in Hd. cbn. clear - Hd. lia.
Qed.
Lemma sim_length ls t : length (sim_program PA ls t : list (item (V := vec K) (M := list Z -> vec K))) = (t * S (length PA))%nat.
Proof using. induction t as [|t IH]; cbn [sim_program]; [reflexivity|]. unfold step_program. rewrite !app_length, map_length, seq_length, IH. cbn. clear. lia. Qed.
Lemma sim_prefix ls t : forall k, (k <= t)%nat -> firstn (k * S (length PA)) (sim_program PA ls t : list (item (V := vec K) (M := list Z -> vec K))) = sim_program PA ls k.
Proof using.
  induction t as [|t IH]; intros k Hk; [now replace k with 0%nat by (clear - Hk; lia)|]. destruct (Nat.eq_dec k (S t)) as [->|Hne].
  - rewrite <- (sim_length ls (S t)). apply firstn_all.
  - cbn [sim_program]. rewrite firstn_app, sim_length. replace (k * S (length PA) - t * S (length PA))%nat with 0%nat by (clear - Hk Hne; nia). cbn [firstn]. rewrite app_nil_r. apply IH. clear - Hk Hne. lia.
Qed.
Lemma inner_len c i : coords_ok PA c -> inner PA c i -> length i = length PA.
Proof using. intros Hc Hi. apply Hi. Qed.
Lemma clip_at (F : list Z -> vec K) c i : coords_ok PA c -> inner PA c i -> clip PA F i = F i.
Proof using. intros Hc Hi. unfold clip. now rewrite (inner_len c i Hc Hi), Nat.eqb_refl. Qed.
(* lock step *)
Lemma cy_lock L0 S t G : holds K PA n (fun c => snd (S c)) G -> holds K PA n (fun c => snd (sync PA (step_program PA (cy_local L0 t)) S c)) (ref_step st r g ms K qk (algo_of K a) Cython (phis t) G).
Proof using E HQ HP Hna HS NE Hpos Hphis.
  intros HG. set (s := ((fun c => clip PA (snd (S c))), (fun c => clip PA (fst (S c))))).
  assert (H1 : holds K PA n (fst s) G) by (intros c i Hc Hi; cbn [s fst]; unfold s; cbn [fst]; rewrite (clip_at _ c i Hc Hi); now apply HG).
  pose proof (cy_step_holds dimz schemes st r g es labs conds D ms E HQ K qk a pos Hpos Hna HS ps Ds mss HP NE Cython (phis t) L0 s G (Hphis t) H1) as H2.
  intros c i Hc Hi k Hk. rewrite <- (H2 c i Hc Hi k Hk). rewrite sync_step. unfold cy_step, whole_two, cy_local, local_two. cbn [fst snd]. unfold field_of.
  apply cython_ext; [|reflexivity]. apply arrays3_ext; [|apply fleq_refl|apply fleq_refl].
  intros i' k'. unfold bc_t, bc_at, pbc. apply bc_ext. intros k2 x. unfold s. cbn [fst]. now rewrite update_clip.
Qed.
Lemma np_lock S t G : numpy_ok K a -> holds K PA n (fun c => snd (S c)) G -> holds K PA n (fun c => snd (sync PA (step_program PA (np_local t)) S c)) (ref_step st r g ms K qk (algo_of K a) Numpy (phis t) G).
Proof using E HQ HP Hna HS NE Hpos Hphis.
  intros N HG. set (s := ((fun c => clip PA (snd (S c))), (fun c => clip PA (fst (S c))))).
  assert (H1 : holds K PA n (fst s) G) by (intros c i Hc Hi; unfold s; cbn [fst]; rewrite (clip_at _ c i Hc Hi); now apply HG).
  pose proof (proj1 (np_step_holds dimz schemes st r g es labs conds D ms E HQ K qk a pos Hpos Hna HS ps Ds mss HP NE Numpy (phis t) s G N (Hphis t) H1)) as H2.
  intros c i Hc Hi k Hk. rewrite <- (H2 c i Hc Hi k Hk). rewrite sync_step. unfold np_step, whole_one, whole_one_at, np_local, local_one. cbn [fst snd].
  set (A := arrays3 K pos (pbc qk st (velk st) (symk r) (phis t) g ps Numpy mss (fst s) c) (snd s c) (zero_field K)).
  set (A' := arrays3 K pos _ _ _).
  assert (HA : aeq K A' A).
  { apply arrays3_ext; [|apply fleq_refl|apply fleq_refl]. intros i' k'. unfold bc_t, bc_at, pbc. apply bc_ext. intros k2 x. unfold s. cbn [fst]. now rewrite update_clip. }
  refine (eq_trans (one_run_ext K pos PA n (numpy_program K a pos PA (velk st)) c A' A 0%nat i k HA) _). cbv zeta beta.
  assert (X : forall (o : option (arrays K * nlocals K)) (A0 : arrays K), match o with Some (A, _) => A | None => A0 end = match option_map fst o with Some A => A | None => A0 end) by (intros [[]|] A0; reflexivity).
  exact (f_equal (fun B => field_of K pos (B 0%nat) i k) (X _ A)).
Qed.
Lemma cy_lock_run L0 S G0 t : holds K PA n (fun c => snd (S c)) G0 -> holds K PA n (fun c => snd (sync PA (sim_program PA (cy_local L0) t) S c)) (ref_run st r g ms K qk a phis t G0).
Proof using E HQ HP Hna HS NE Hpos Hphis.
  intros HG. induction t as [|t IH]; [exact HG|]. cbn [sim_program ref_run]. rewrite sync_app. now apply cy_lock.
Qed.
Lemma np_lock_run S G0 t : numpy_ok K a -> holds K PA n (fun c => snd (S c)) G0 -> holds K PA n (fun c => snd (sync PA (sim_program PA np_local t) S c)) (ref_run st r g ms K qk a phis t G0).
Proof using E HQ HP Hna HS NE Hpos Hphis.
  intros N HG. induction t as [|t IH]; [exact HG|]. cbn [sim_program ref_run]. rewrite sync_app. intros c i Hc Hi.
  eapply agree_trans; [exact (np_lock _ t _ N IH c i Hc Hi)|]. eapply stepped_backend; eassumption.
Qed.
(* The processes at their own pace: a process which has finished k steps has the cells of the time k,
   wherever the others are; when nothing can happen any more, all have finished. *)
Definition at_own_time (ls : nat -> proc -> mem2 -> mem2) (G : nat -> list Z -> vec K) (S0 : proc -> mem2) (t : nat) : Prop :=
  forall evs s, of_processes PA evs -> execution PA (sim_program PA ls t) (start S0) evs = Some s ->
  (forall c k i, coords_ok PA c -> inner PA c i -> (k <= t)%nat -> pc s c = (k * S (dim g))%nat -> (forall j, got s c j = false) ->
     agree K n (snd (mem s c) i) (G k (globc PA c i))) /\
  ((forall c e, coords_ok PA c -> step PA (sim_program PA ls t) s c e = None) ->
     (forall c, coords_ok PA c -> pc s c = (t * S (dim g))%nat) /\ holds K PA n (fun c => snd (mem s c)) (G t)).
Lemma own_time ls G S0 t : program_ok PA (celleq K PA) (veq K) (sim_program PA ls t) ->
  (forall k, holds K PA n (fun c => snd (sync PA (sim_program PA ls k) S0 c)) (G k)) -> at_own_time ls G S0 t.
Proof using.
  intros Hok HG evs s He Hx. split.
  - intros c k i Hc Hi Hk Hp Hg. pose proof (C83_any_time _ _ PA _ _ _ S0 evs s Hok He Hx c Hc Hg) as [_ H]. rewrite Hp, <- (pa_len g ps), sim_prefix in H by exact Hk.
    intros j Hj. rewrite (H i (inner_len c i Hc Hi) j). now apply HG.
  - intros Hs. assert (H := fun c Hc => C83_result _ _ PA _ _ _ S0 evs s Hok He Hx Hs c Hc). split.
    + intros c Hc. destruct (H c Hc) as [H1 _]. now rewrite sim_length, pa_len in H1.
    + intros c i Hc Hi j Hj. destruct (H c Hc) as [_ [_ H2]]. rewrite (H2 i (inner_len c i Hc Hi) j). now apply HG.
Qed.
Lemma sim_ok ls t : (forall t, item_ok PA (celleq K PA) (veq K) (Loc (ls t))) -> program_ok PA (celleq K PA) (veq K) (sim_program PA ls t).
Proof using E HP Hna.
  intros H. destruct (whole_fits dimz schemes st r g es labs conds D ms E K a Hna ps Ds mss HP) as (F1 & F2 & _).
  split; [exact F1|]. split; [exact F2|]. split; [intros m i _ k; reflexivity|]. split; [intros v k; reflexivity|]. split; [intros u v w H1 H2 k; now rewrite H1|].
  now apply sim_items.
Qed.
Lemma cy_own_time L0 S G0 t : holds K PA n (fun c => snd (S c)) G0 -> at_own_time (cy_local L0) (fun t => ref_run st r g ms K qk a phis t G0) S t.
Proof using E HQ HP Hna HS NE Hpos Hphis. intros HG. apply own_time; [apply sim_ok, cy_local_ok|]. intros k. now apply cy_lock_run. Qed.
Lemma np_own_time S G0 t : numpy_ok K a -> holds K PA n (fun c => snd (S c)) G0 -> at_own_time np_local (fun t => ref_run st r g ms K qk a phis t G0) S t.
Proof using E HQ HP Hna HS NE Hpos Hphis. intros N HG. apply own_time; [apply sim_ok, np_local_ok|]. intros k. now apply np_lock_run. Qed.
End Run.

Section Dict.
Variables (dimz : Z) (schemes : list (list Z)) (st : stencil) (r : list Z) (g : grid) (es : list DomainModel.elem) (labs : list Z) (conds : Z -> list (nat * method)).
Variables (Dm : dom) (ms : list (method * list blink)).
Hypothesis E : serial dimz schemes st r g es labs conds Dm ms.
Variables (K : ring) (qk : Q -> K).
Variable inv : nat -> mat K -> option (mat K).
Variable simp : term K -> term K.
Variables (dm : nat) (hdt : K) (ds : list (sdict K)) (a : salgo K).
Hypothesis HI : inv_spec K inv.
Hypothesis HSi : simp_spec K simp.
Hypothesis D : dict_ok K simp ds.
Hypothesis O : ordered K simp ds.
Hypothesis EB : build K inv simp None dm hdt ds = Some a.
Hypothesis HPl : forall d t, In d ds -> In t (sd_P K d) -> below K dm t.
Hypothesis Hsz : map (nv K) ds = map (@length Z) schemes.
Notation n := (SchemeModel.total (sizes K ds)).
Theorem C83_simulation (phis : nat -> Z -> list Q -> nat -> K) (G0 : list Z -> vec K) :
  quiet st r g ms -> (forall t, ParallelProps.regular (phis t)) ->
  exists G : nat -> list Z -> vec K, G 0%nat = G0 /\
  (forall t x, exists f, (forall j, (j < n)%nat -> arrives st r g ms K qk (phis t) (G t) x j (f j)) /\ collided K simp hdt ds f (G (S t) x)) /\
  forall ps Ds mss pos, parallel st g es labs conds ps Ds mss -> Forall (fun x => forall c, (c < ax_p x)%nat -> ax_lo x c < ax_hi x c) (proc_axes g ps) -> (pos <= dim g)%nat ->
  forall S0, holds K (proc_axes g ps) n (fun c => snd (S0 c)) G0 ->
  (forall L0 t, at_own_time g K a ps (cy_local st r g K qk a pos ps mss phis L0) G S0 t) /\
  ((forall d t, In d ds -> In t (sd_s K d) -> vars K t = []) -> forall t, at_own_time g K a ps (np_local st r g K qk a pos ps mss phis) G S0 t).
Proof using E HI HSi D O EB HPl Hsz.
  intros HQ Hphis. exists (fun t => ref_run st r g ms K qk a phis t G0). split; [reflexivity|].
  pose proof (whole_ok K inv simp dm hdt ds a HI D O EB HPl) as SO. pose proof (whole_na schemes K inv simp dm hdt ds a HI D EB Hsz) as Na. split.
  - destruct (scheme_algo K a SO) as (He & Hs & HR). intros t x. cbn [ref_run]. set (Gt := ref_run st r g ms K qk a phis t G0).
    set (f := fun k => boundary_condition K qk g (velk st) (symk r) (feq_of st (phis t) g) Cython ms (gfield g K Gt) k (before st g k (cell_of g x))).
    exists f. split; [intros j _; now apply (arrives_bc dimz schemes st r g es labs conds Dm ms E HQ)|].
    apply (collided_agree K simp hdt ds f f (collide K (algo_of K a) f)); [intros k _; reflexivity| |now apply (C64_step K inv simp None dm hdt ds a)].
    intros k Hk. symmetry. apply (pull_fun_collide K (algo_of K a) f He Hs); [cbn; now rewrite (built_relvel K inv simp None dm hdt ds a HI D EB)|]. cbn. now rewrite (whole_size K inv simp dm hdt ds a HI D EB).
  - intros ps Ds mss pos HP NE Hpos S0 HG. rewrite <- (whole_size K inv simp dm hdt ds a HI D EB) in HG. split.
    + intros L0 t. eapply cy_own_time; eassumption.
    + intros Hn t. eapply np_own_time; try eassumption. now apply (built_numpy K inv simp None dm hdt ds a HI D EB).
Qed.
End Dict.
Print Assumptions C83_simulation.

(* ---- example ---- the line of C65, two processes, two steps in the order of the events of C83_example:
   the first process has finished its first step and sent its cells for the second one before the
   other one has received anything *)
Definition arun (be : backend) (t : nat) (evs : list (proc * event)) : option (list nat * (list (list Z) * Z)) :=
  match bw with
  | None => None
  | Some a =>
    let PA := proc_axes (sline 6) [2%nat] in
    let ls := match be with
      | Cython => cy_local sst [1; 0] (sline 6) Zring (fun _ => 0) a 0 [2%nat] mlinks wphi (fun _ => 0)
      | _ => np_local sst [1; 0] (sline 6) Zring (fun _ => 0) a 0 [2%nat] mlinks wphi end in
    option_map (fun s => (map (pc s) wcs, look_run (fun c => snd (mem s c)))) (execution PA (sim_program PA ls t) (start (fun c => (sF 6 2 c, sF 6 2 c))) evs)
  end.
Example C83_sim_example :
  arun Cython 1 [] = Some ([0; 0]%nat, ([[0; 1]; [100; 101]; [400; 401]; [500; 501]], 2004)) /\
  (* the first process has finished its first step, the other one has received nothing *)
  arun Cython 2 (firstn 10 es2) = Some ([2; 0]%nat, ([[611; -509]; [600; -500]; [400; 401]; [500; 501]], 2004)) /\
  arun Cython 2 es2 = Some ([4; 4]%nat, ([[-5545; 4536]; [6655; -5444]; [-45145; 36936]; [55055; -45044]], 2004)) /\
  arun Numpy 2 es2 = arun Cython 2 es2.
Proof. split; [vm_compute; reflexivity|]. split; [vm_compute; reflexivity|]. split; vm_compute; reflexivity. Qed.
Example C83_sim_applies : exists a, bw = Some a /\ forall G0, exists G, G 0%nat = G0 /\
  (forall t x, exists f, (forall j, (j < 2)%nat -> arrives sst [1; 0] (sline 6) mms Zring (fun _ => 0) (wphi t) (G t) x j (f j)) /\ collided Zring nosimp 1 [dw] f (G (S t) x)) /\
  forall S0, holds Zring (proc_axes (sline 6) [2%nat]) 2 (fun c => snd (S0 c)) G0 ->
    forall L0 t, at_own_time (sline 6) Zring a [2%nat] (cy_local sst [1; 0] (sline 6) Zring (fun _ => 0) a 0 [2%nat] mlinks wphi L0) G S0 t.
Proof.
  destruct (built_ex bw) as [a Ea]; [vm_compute; reflexivity|]. exists a. split; [exact Ea|]. destruct dw_ok as [H1 H2]. intros G0.
  destruct (C83_simulation 1 [[1; 2]] sst [1; 0] (sline 6) wall34 [5] bb (sD 6 wall34) mms mserial Zring (fun _ => 0) (zinv [mat2 [[0; 1]; [1; -1]]]) nosimp 1 1 [dw] a (zinv_ok _)) with (phis := wphi) (G0 := G0) as (G & E0 & E1 & E2); try assumption; try reflexivity.
  - intros t E. reflexivity.
  - intros d t [<-|[]] Ht. cbn in Ht. destruct Ht as [<-|[<-|[]]]; intros x Hx; cbn in Hx; intuition lia.
  - exact (vessel_quiet _ _ _ _ _ _ _ _ _ _ mserial mvessel).
  - intros t lab x y k Hxy. reflexivity.
  - exists G. split; [exact E0|]. split; [exact E1|]. intros S0 HS L0 t.
    refine (proj1 (E2 [2%nat] mDs mlinks 0%nat wparallel _ _ S0 HS) L0 t); [|cbn; lia].
    repeat constructor. intros [|[|c]] Hc; [vm_compute; reflexivity|vm_compute; reflexivity|cbn in Hc; lia].
Qed.
