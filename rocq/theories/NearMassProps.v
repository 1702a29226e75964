(* C96, continued: how far the mass computed in binary64 can go. *)
From Coq Require Import Reals Lra QArith Qreals.
From Coq.Floats Require Import SpecFloat.
From Flocq Require Import Core BinarySingleNaN.
From Verif Require Import PyBase VelocityModel VelocityProofs Velocity3Proofs StencilModel StencilProofs GridModel GridProofs StorageModel
  ExchangeProofs StorageProps LinAlg AlgoModel AlgoProofs RelVelProofs KernelProofs GlobalModel GlobalProofs TorusProofs AlgoProps GlobalProps
  GenModel GenProofs GenProps StepGenModel StepGenProofs StepGenProps
  DomainModel DomainProofs DomainProps BoundaryModel BoundaryProofs BoundaryProps BoundaryUpdProps
  VesselProofs VesselProps ChannelProps ParallelModel ParallelProofs ObstacleProofs ParallelProps ObstacleProps ParallelMassProps DuctProps WholeModel WholeProps
  RoundModel RoundProofs RoundProps Round64Proofs Round64Props NearProofs NearProps.
Require Import Lia.
Open Scope Z_scope.

Definition RR : ring := ringOf RA RTheory.
(* the real number of a finite binary64 number *)
Definition val64 (x : f64) : R := SF2R radix2 x.
Lemma val64_is x r : is64 x r -> val64 x = r.
Proof. intros (b & <- & _ & <-). apply SF2R_B2SF. Qed.

Lemma run_same (K : arith) sp p : Forall2 (stmt_rel K) sp p -> forall v, run (map (sem K) sp) v = run p v.
Proof.
  induction 1 as [|s q sp p [E1 E2] H IH]; intros v; [reflexivity|]. unfold run in *. cbn [map fold_left]. rewrite IH. f_equal.
  unfold exec, sem. cbn [fst snd]. rewrite E1, E2. reflexivity.
Qed.
Lemma step_pull (K : ring) (a : salgo K) f : step_of K (spull K a) f = pull_fun K (algo_of K a) f.
Proof. unfold step_of, pull_fun. now rewrite (run_same K _ _ (rel_pull K a)). Qed.

Lemma sum_close {A} (l : list A) (f h d : A -> R) : (forall x, In x l -> Rabs (f x - h x) <= d x)%R ->
  (Rabs (sumL (K := RA) l f - sumL (K := RA) l h) <= sumL (K := RA) l d)%R.
Proof.
  intros H. induction l as [|x l IH]; cbn in *; [rewrite Rminus_0_r, Rabs_R0; apply Rle_refl|].
  pose proof (H x (or_introl eq_refl)) as H1. pose proof (IH (fun y Hy => H y (or_intror Hy))) as H2.
  unfold sumL in *. cbn in *. set (u := fold_right _ _ _) in *. set (v := fold_right (fun x acc => h x + acc)%R 0%R l) in *.
  replace (f x + u - (h x + v))%R with ((f x - h x) + (u - v))%R by ring. eapply Rle_trans; [apply Rabs_triang|]. lra.
Qed.

Section Mass.
Variables (dimz : Z) (schemes : list (list Z)) (st : stencil) (r : list Z) (g : grid) (es : list DomainModel.elem) (labs : list Z) (conds : Z -> list (nat * method)).
Variables (D : dom) (ms : list (method * list blink)).
Hypothesis E : serial dimz schemes st r g es labs conds D ms.
(* bounce back on the walls of a vessel or of a duct with periodic ends, with solid elements *)
Hypothesis HV : vessel dimz schemes st r g es D conds (labels_of g labs) ms \/ duct dimz schemes st r g es D conds (labels_of g labs) ms.
Notation n := (length (concat schemes)).
Lemma closed_quiet : quiet st r g ms.
Proof using E HV. destruct HV as [V|V]; [exact (vessel_quiet _ _ _ _ _ _ _ _ _ _ E V)|exact (duct_quiet _ _ _ _ _ _ _ _ _ _ E V)]. Qed.

Lemma exact_mass (a : salgo RA) qk phis G0 i : sa_n RA a = n -> conserving RR (algo_of RA a) -> (i < sa_nc RA a)%nat ->
  (forall k, (k < n)%nat -> sa_M RA a i (symk r k) = sa_M RA a i k) -> (forall t, at_rest (K := RR) r n (phis t)) -> forall t,
  let q := fun f : vec RA => mvmul (K := RA) n (sa_M RA a) f i in
  sumL (K := RA) (fluid_cells g D) (fun x => q (whole_run st r g ms RA qk (spull RA a) phis G0 t (wrapg g x))) = sumL (K := RA) (fluid_cells g D) (fun x => q (G0 (wrapg g x))).
Proof using E HV.
  intros Hn HC Hi Hev Hphi t q. induction t as [|t IH]; [reflexivity|]. rewrite <- IH. cbn [whole_run].
  set (G := whole_run st r g ms RA qk (spull RA a) phis G0 t).
  assert (S : forall y, any_ref st r g ms RA qk (spull RA a) Cython (phis t) G y = ref_step st r g ms RR qk (algo_of RA a) Cython (phis t) G y).
  { intros y. unfold any_ref, ref_step. exact (step_pull RR a _). }
  assert (X : sumL (K := RR) (fluid_cells g D) (fun x => q (ref_step st r g ms RR qk (algo_of RA a) Cython (phis t) G (wrapg g x))) = sumL (K := RR) (fluid_cells g D) (fun x => q (G (wrapg g x)))).
  { unfold q. rewrite <- Hn in Hev |- *. specialize (Hphi t). rewrite <- Hn in Hphi. destruct HV as [V|V].
    - exact (vessel_step _ _ _ _ _ _ _ _ _ _ E V RR qk (algo_of RA a) Cython i Hn HC Hi Hev (phis t) G Hphi).
    - exact (duct_step _ _ _ _ _ _ _ _ _ _ E V RR qk (algo_of RA a) Cython i Hn HC Hi Hev (phis t) G Hphi). }
  refine (eq_trans _ X). apply (sumL_ext RR). intros y _. now rewrite S.
Qed.

(* The mass of a run in binary64: the exact sum of the numbers of the array, over all the
   processes.  It stays within the sum of the bounds of the errors of the exact mass of the start. *)
Theorem C96_mass (a1 : salgo B64) (a2 : salgo RA) (a3 : salgo BD) (q1 : Q -> B64) (q2 : Q -> RA) (q3 : Q -> BD)
  (phis1 : nat -> Z -> list Q -> nat -> B64) (phis2 : nat -> Z -> list Q -> nat -> RA) (phis3 : nat -> Z -> list Q -> nat -> BD) (G1 : list Z -> vec B64) (G2 : list Z -> vec RA) (G3 : list Z -> vec BD)
  ps Ds mss pos cs L0 s i (e : list Z -> nat -> Z) t :
  scheme_ok B64 a1 -> sa_n B64 a1 = n -> sa_n RA a2 = n -> arel B64 RA BD near a1 a2 a3 -> (forall q, near (q1 q) (q2 q) (q3 q)) ->
  (forall t lab x k, near (phis1 t lab x k) (phis2 t lab x k) (phis3 t lab x k)) -> (forall x k, near (G1 x k) (G2 x k) (G3 x k)) ->
  conserving RR (algo_of RA a2) -> (i < sa_nc RA a2)%nat -> (forall k, (k < n)%nat -> sa_M RA a2 i (symk r k) = sa_M RA a2 i k) ->
  (forall t, ParallelProps.regular (phis1 t)) -> (forall t, at_rest (K := RR) r n (phis2 t)) ->
  parallel st g es labs conds ps Ds mss -> Forall (fun x => forall c, (c < ax_p x)%nat -> ax_lo x c < ax_hi x c) (proc_axes g ps) -> (pos <= dim g)%nat ->
  NoDup cs -> (forall c, In c cs <-> coords_ok (proc_axes g ps) c) -> holds B64 (proc_axes g ps) n (fst s) G1 ->
  (forall x k, In x (fluid_cells g D) -> (k < n)%nat -> exists b, whole_run st r g ms BD q3 (spull BD a3) phis3 G3 t (wrapg g x) k = Some (b, e x k)) ->
  let mass (F : fields B64) : R := fluid_total (K := RR) g ps Ds cs (fun f => mvmul (K := RA) n (sa_M RA a2) f i) (fun c j k => val64 (F c j k)) in
  let mass0 : R := sumL (K := RA) (fluid_cells g D) (fun x => mvmul (K := RA) n (sa_M RA a2) (G2 (wrapg g x)) i) in
  let error : R := sumL (K := RA) (fluid_cells g D) (fun x => sum (K := RA) n (fun k => Rabs (sa_M RA a2 i k) * (IZR (e x k) * bpow radix2 (-200)))%R) in
  (Rabs (mass (fst (cy_all schemes st r g B64 q1 (spull B64 a1) pos ps mss phis1 L0 t s)) - mass0) <= error)%R /\
  (numpy_ok B64 a1 -> Rabs (mass (fst (np_all schemes st r g B64 q1 (spull B64 a1) pos ps mss phis1 t s)) - mass0) <= error)%R.
Proof using E HV.
  intros SO Hn1 Hn2 HA Hq Hphi HG HC Hi Hev R1 HR HP NE Hpos Hnd Hcs Hs Hb mass mass0 error.
  pose proof (C92_pull B64 a1 SO) as KO. rewrite Hn1 in KO.
  assert (X : forall F, holds B64 (proc_axes g ps) n F (whole_run st r g ms B64 q1 (spull B64 a1) phis1 G1 t) -> (Rabs (mass F - mass0) <= error)%R).
  { intros F HF. unfold mass.
    rewrite (fluid_total_ref dimz schemes st r g es labs conds D ms E ps Ds mss HP cs Hnd Hcs RR (fun f : vec RR => mvmul (K := RA) n (sa_M RA a2) f i) (fun c j k => val64 (F c j k))
      (fun x k => val64 (whole_run st r g ms B64 q1 (spull B64 a1) phis1 G1 t x k))).
    - unfold mass0. rewrite <- (exact_mass a2 q2 phis2 G2 i Hn2 HC Hi Hev HR t). unfold error. apply sum_close. intros x Hx. unfold mvmul, sum. apply sum_close. intros k Hk. apply in_seq in Hk.
      destruct (Hb x k Hx ltac:(lia)) as (b & Eb).
      pose proof (run_near st r g ms q1 q2 q3 _ _ _ phis1 phis2 phis3 G1 G2 G3 (proj1 (C96_schemes _ _ _ HA)) Hq Hphi HG t (wrapg g x) k) as N.
      rewrite Eb in N. destruct N as (_ & _ & v & V1 & _ & V2). rewrite (val64_is _ _ V1). cbn [rmul RA].
      rewrite <- Rmult_minus_distr_l, Rabs_mult. apply Rmult_le_compat_l; [apply Rabs_pos|exact V2].
    - intros f f' Hf. apply (mvmul_ext RR). exact Hf.
    - intros c j Hc Hj k Hk. now rewrite (HF c j Hc Hj k Hk). }
  split.
  - apply X. now apply (cy_whole dimz schemes st r g es labs conds D ms E closed_quiet B64 q1 (spull B64 a1) KO phis1 G1 R1 pos ps Ds mss Hpos HP NE).
  - intros N. apply X. apply (np_whole dimz schemes st r g es labs conds D ms E closed_quiet B64 q1 (spull B64 a1) KO phis1 G1 R1 pos ps Ds mss Hpos HP NE); [|exact Hs].
    exact (proj1 (C92_numpy B64 a1 SO N)).
Qed.
End Mass.
Print Assumptions C96_mass.

(* ------------------------------------------------- the example of NearProps: six cells, two of them solid *)
Lemma sum_below {A} (l : list A) (f : A -> R) d : (forall x, In x l -> f x <= d)%R -> (sumL (K := RA) l f <= INR (length l) * d)%R.
Proof.
  intros H. induction l as [|x l IH]; [cbn; lra|]. pose proof (H x (or_introl eq_refl)). pose proof (IH (fun y Hy => H y (or_intror Hy))).
  change (sumL (K := RA) (x :: l) f) with (f x + sumL (K := RA) l f)%R. cbn [length]. rewrite S_INR. lra.
Qed.
Definition error64 t (x : list Z) (k : nat) : Z := match bound64 t (wrapg (sline 6) x) k with Some (_, e) => e | None => -1 end.
Definition bounded64 t : bool := forallb (fun x => forallb (fun k => match bound64 t (wrapg (sline 6) x) k with Some (_, e) => e <=? 2 ^ 155 | None => false end) [0; 1]%nat) (fluid_cells (sline 6) (sD 6 wall34)).
Lemma bounded64_1 : bounded64 1 = true. Proof. vm_compute. reflexivity. Qed.
Lemma bound64_is t : bound64 t = whole_run sst [1; 0] (sline 6) mms BD (fun _ => Some (scale, 0)) (spull BD (gsch BD halfBD tenthBD tenthBD)) (fun _ _ _ _ => Some (0, 0)) gBD t.
Proof. reflexivity. Qed.
Lemma cy64_is p t : cy64 p t = fst (cy_all [[1; 2]] sst [1; 0] (sline 6) B64 (fun _ => one64) (spull B64 (sch64 tenth64 tenth64)) 0 [p] (links_at sst (sline 6) wall34 [5] bb [p]) phi64 (fun _ _ => S754_nan) t (F64 p, F64 p)).
Proof. reflexivity. Qed.
Lemma np64_is p t : np64 p t = fst (np_all [[1; 2]] sst [1; 0] (sline 6) B64 (fun _ => one64) (spull B64 (sch64 tenth64 tenth64)) 0 [p] (links_at sst (sline 6) wall34 [5] bb [p]) phi64 t (F64 p, F64 p)).
Proof. reflexivity. Qed.
Lemma fluid4 : length (fluid_cells (sline 6) (sD 6 wall34)) = 4%nat. Proof. vm_compute. reflexivity. Qed.
Example C96_mass_example :
  let mass (F : fields B64) : R := fluid_total (K := RR) (sline 6) [2%nat] (dom_at (sline 6) wall34 [2%nat]) [[0]; [1]]%nat (fun f => f 0%nat + f 1%nat)%R (fun c j k => val64 (F c j k)) in
  let mass0 : R := sumL (K := RA) (fluid_cells (sline 6) (sD 6 wall34)) (fun x => gR (wrapg (sline 6) x) 0%nat + gR (wrapg (sline 6) x) 1%nat)%R in
  (Rabs (mass (cy64 2 1) - mass0) <= 8 * bpow radix2 (-45))%R /\ (Rabs (mass (np64 2 1) - mass0) <= 8 * bpow radix2 (-45))%R.
Proof.
  intros mass mass0.
  assert (SO : scheme_ok B64 (sch64 tenth64 tenth64)) by apply sch64_ok.
  assert (EB : forall x k, In x (fluid_cells (sline 6) (sD 6 wall34)) -> (k < 2)%nat -> exists b, bound64 1 (wrapg (sline 6) x) k = Some (b, error64 1 x k) /\ error64 1 x k <= 2 ^ 155).
  { intros x k Hx Hk. pose proof bounded64_1 as B. unfold bounded64 in B. rewrite forallb_forall in B. specialize (B x Hx). rewrite forallb_forall in B.
    assert (Hk' : In k [0; 1]%nat) by (cbn; lia). specialize (B k Hk'). unfold error64. destruct (bound64 1 (wrapg (sline 6) x) k) as [[b e]|]; [|discriminate B]. exists b. split; [reflexivity|now apply Z.leb_le]. }
  destruct (C96_mass 1 [[1; 2]] sst [1; 0] (sline 6) wall34 [5] bb (sD 6 wall34) mms mserial (or_introl mvessel)
    (sch64 tenth64 tenth64) (gsch RA (/ 2)%R (/ 10)%R (/ 10)%R) (gsch BD halfBD tenthBD tenthBD) (fun _ => one64) (fun _ => 1%R) (fun _ => Some (scale, 0))
    phi64 (fun _ _ _ _ => 0%R) (fun _ _ _ _ => Some (0, 0)) g64 gR gBD [2%nat] (dom_at (sline 6) wall34 [2%nat]) (links_at sst (sline 6) wall34 [5] bb [2%nat]) 0%nat [[0]; [1]]%nat
    (fun _ _ => S754_nan) (F64 2, F64 2) 0%nat (error64 1) 1%nat) as [H1 H2]; try reflexivity.
  - exact SO.
  - exact gsch_rel.
  - intros _. exact near_one.
  - intros. exact near_zero.
  - intros x k. apply (near_mul _ _ _ _ _ _ near_tenth (near_num _)).
  - split; [reflexivity|]. split.
    { split; [cbn; lia|]. split; [|split].
      - intros m m' Hm k Hk. cbn in Hk. cbn. destruct k as [|k]; cbn; now rewrite (Hm 0%nat ltac:(cbn; lia)).
      - intros m m' Hm k Hk. reflexivity.
      - intros m k Hk. cbn in Hk. destruct k; [reflexivity|lia]. }
    split; [split; [intros rel m m' X; discriminate X|intros u u' i j _ _ _; reflexivity]|].
    intros i j Hi Hj. cbn in Hi, Hj. destruct i as [|[|i]], j as [|[|j]]; try lia; cbn; lra.
  - cbn. lia.
  - intros k Hk. cbn in Hk. destruct k as [|[|k]]; [reflexivity..|lia].
  - intros t lab x k Hk. reflexivity.
  - intros t lab x k Hk. reflexivity.
  - apply parallel64. cbn. auto.
  - apply one_line. cbn. auto.
  - cbn. lia.
  - repeat constructor; cbn; intuition discriminate.
  - intros c. split.
    + intros [<-|[<-|[]]]; repeat constructor.
    + intros Hc. pose proof (Forall2_length _ _ _ Hc) as L. destruct c as [|c0 [|c1 c]]; try discriminate. inversion Hc as [|? ? ? ? H0 H3]. cbn in H0. destruct c0 as [|[|c0]]; cbn; [auto..|lia].
  - intros c j Hc Hj k Hk. reflexivity.
  - intros x k Hx Hk. destruct (EB x k Hx Hk) as (b & Eb & _). exists b. rewrite bound64_is in Eb. exact Eb.
  - assert (Er : (sumL (K := RA) (fluid_cells (sline 6) (sD 6 wall34)) (fun x => sum (K := RA) 2 (fun k => Rabs (sa_M RA (gsch RA (/ 2) (/ 10) (/ 10)) 0%nat k) * (IZR (error64 1 x k) * bpow radix2 (-200)))) <= 8 * bpow radix2 (-45))%R).
    { eapply Rle_trans; [apply (sum_below _ _ (2 * bpow radix2 (-45)))%R|].
      - intros x Hx. assert (U : forall k, (k < 2)%nat -> (IZR (error64 1 x k) * bpow radix2 (-200) <= bpow radix2 (-45))%R).
        { intros k Hk. destruct (EB x k Hx Hk) as (_ & _ & He). apply Rle_trans with (IZR (2 ^ 155) * bpow radix2 (-200))%R; [apply Rmult_le_compat_r; [apply bpow_ge_0|now apply IZR_le]|].
          change (2 ^ 155) with (Zpower radix2 155). rewrite IZR_Zpower by lia. rewrite <- bpow_plus. apply Rle_refl. }
        pose proof (U 0%nat ltac:(lia)). pose proof (U 1%nat ltac:(lia)). unfold sum, sumL. cbn [seq fold_right]. cbn [radd RA r0 gsch sa_M nth r1]. rewrite Rabs_R1. lra.
      - rewrite fluid4. simpl (INR 4). pose proof (bpow_gt_0 radix2 (-45)). lra. }
    assert (Q1 : forall f : vec RA, mvmul (K := RA) 2 (sa_M RA (gsch RA (/ 2)%R (/ 10)%R (/ 10)%R)) f 0%nat = (f 0%nat + f 1%nat)%R) by (intros f; unfold mvmul, sum, sumL; cbn; ring).
    assert (Q2 : mass0 = sumL (K := RA) (fluid_cells (sline 6) (sD 6 wall34)) (fun x => mvmul (K := RA) 2 (sa_M RA (gsch RA (/ 2)%R (/ 10)%R (/ 10)%R)) (gR (wrapg (sline 6) x)) 0%nat)).
    { apply (sumL_ext RR). intros x _. now rewrite Q1. }
    assert (Q3 : forall F, mass F = fluid_total (K := RR) (sline 6) [2%nat] (dom_at (sline 6) wall34 [2%nat]) [[0]; [1]]%nat (fun f => mvmul (K := RA) 2 (sa_M RA (gsch RA (/ 2)%R (/ 10)%R (/ 10)%R)) f 0%nat) (fun c j k => val64 (F c j k))).
    { intros F. unfold mass, fluid_total. apply (sumL_ext RR). intros c _. apply (sumL_ext RR). intros j _. symmetry. apply Q1. }
    rewrite cy64_is, np64_is, Q2, !Q3. split; (eapply Rle_trans; [|exact Er]); [exact H1|]. apply H2. apply sch64_ok.
Qed.
