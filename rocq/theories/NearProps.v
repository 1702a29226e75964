(* C96: the distance between the values computed in binary64 and the exact ones. *)
From Coq Require Import Reals Lra QArith Qreals.
From Coq.Floats Require Import SpecFloat.
From Flocq Require Import Core BinarySingleNaN.
From Verif Require Import PyBase VelocityModel VelocityProofs Velocity3Proofs StencilModel StencilProofs GridModel GridProofs StorageModel
  ExchangeProofs StorageProps LinAlg AlgoModel AlgoProofs RelVelProofs KernelProofs GlobalModel GlobalProofs TorusProofs AlgoProps GlobalProps
  GenModel GenProofs GenProps StepGenModel StepGenProofs StepGenProps
  DomainModel DomainProofs DomainProps BoundaryModel BoundaryProofs BoundaryProps BoundaryUpdProps
  VesselProofs VesselProps ChannelProps ParallelModel ParallelProofs ObstacleProofs ParallelProps ObstacleProps ParallelMassProps WholeModel WholeProps
  RoundModel RoundProofs RoundProps Round64Proofs Round64Props NearProofs.
Require Import Lia.
Open Scope Z_scope.

(* The operations of RoundModel.v on binary64 numbers give the exact result rounded to the
   nearest number, as long as it is at most 2^1000; one rounding changes r by at most
   2^-53 |r| + 2^-1075. *)
Theorem C96_operations x y r s : is64 x r -> is64 y s ->
  (Rabs (r + s) <= big64 -> is64 (add64 x y) (rnd64 (r + s)))%R /\
  (Rabs (r - s) <= big64 -> is64 (sub64 x y) (rnd64 (r - s)))%R /\
  (Rabs (r * s) <= big64 -> is64 (mul64 x y) (rnd64 (r * s)))%R /\
  (s <> 0 -> Rabs (r / s) <= big64 -> is64 (div64 x y) (rnd64 (r / s)))%R /\
  is64 (SFopp x) (- r) /\
  (forall q, Rabs (rnd64 q - q) <= bpow radix2 (-53) * Rabs q + bpow radix2 (-1075))%R.
Proof.
  intros Hx Hy. repeat split; intros.
  - now apply add_is64.
  - now apply sub_is64.
  - now apply mul_is64.
  - now apply div_is64.
  - now apply opp_is64.
  - apply rnd_error.
Qed.
Print Assumptions C96_operations.

Section Run.
Variables (dimz : Z) (schemes : list (list Z)) (st : stencil) (r : list Z) (g : grid) (es : list DomainModel.elem) (labs : list Z) (conds : Z -> list (nat * method)).
Variables (D : dom) (ms : list (method * list blink)).
Hypothesis E : serial dimz schemes st r g es labs conds D ms.
Hypothesis HQ : quiet st r g ms.
Notation n := (length (concat schemes)).

(* t steps in one arithmetic, all the cells at once: what C92_rounded finds on every process grid *)
Fixpoint whole_run (K : arith) (qk : Q -> K) (sp : list (sstmt K)) (phis : nat -> Z -> list Q -> nat -> K) (G0 : list Z -> vec K) (t : nat) : list Z -> vec K :=
  match t with O => G0 | S t => any_ref st r g ms K qk sp Cython (phis t) (whole_run K qk sp phis G0 t) end.

Section Any.
Variables (K : arith) (qk : Q -> K) (sp : list (sstmt K)).
Hypothesis KO : kernel_ok K n sp.
Variables (phis : nat -> Z -> list Q -> nat -> K) (G0 : list Z -> vec K).
Hypothesis Hphis : forall t, ParallelProps.regular (phis t).
Variables (pos : nat) (ps : list nat) (Ds : list nat -> dom) (mss : list nat -> list (method * list blink)).
Hypothesis Hpos : (pos <= dim g)%nat.
Hypothesis HP : parallel st g es labs conds ps Ds mss.
Hypothesis NE : Forall (fun x => forall c, (c < ax_p x)%nat -> ax_lo x c < ax_hi x c) (proc_axes g ps).
Lemma cy_whole L0 s t : holds K (proc_axes g ps) n (fst s) G0 ->
  holds K (proc_axes g ps) n (fst (cy_all schemes st r g K qk sp pos ps mss phis L0 t s)) (whole_run K qk sp phis G0 t).
Proof using E HQ KO Hphis Hpos HP NE.
  intros H. induction t as [|t IH]; [exact H|]. cbn [cy_all whole_run].
  apply (cy_one_holds dimz schemes st r g es labs conds D ms E HQ K qk sp KO pos ps Ds mss Hpos HP NE); auto.
Qed.
Lemma np_whole s t : kernel_numpy K sp -> holds K (proc_axes g ps) n (fst s) G0 ->
  holds K (proc_axes g ps) n (fst (np_all schemes st r g K qk sp pos ps mss phis t s)) (whole_run K qk sp phis G0 t).
Proof using E HQ KO Hphis Hpos HP NE.
  intros N H. induction t as [|t IH]; [exact H|]. cbn [np_all whole_run].
  apply (np_one_holds dimz schemes st r g es labs conds D ms E HQ K qk sp KO pos ps Ds mss Hpos HP NE); auto.
Qed.
End Any.

Variables (q1 : Q -> B64) (q2 : Q -> RA) (q3 : Q -> BD).
Variables (sp1 : list (sstmt B64)) (sp2 : list (sstmt RA)) (sp3 : list (sstmt BD)).
Variables (phis1 : nat -> Z -> list Q -> nat -> B64) (phis2 : nat -> Z -> list Q -> nat -> RA) (phis3 : nat -> Z -> list Q -> nat -> BD).
Variables (G1 : list Z -> vec B64) (G2 : list Z -> vec RA) (G3 : list Z -> vec BD).
(* the same kernel, with numbers, exact numbers and bounds *)
Hypothesis Hsp : prel B64 RA BD near sp1 sp2 sp3.
Hypothesis Hq : forall q, near (q1 q) (q2 q) (q3 q).
Hypothesis Hphi : forall t lab x k, near (phis1 t lab x k) (phis2 t lab x k) (phis3 t lab x k).
Hypothesis HG : forall x k, near (G1 x k) (G2 x k) (G3 x k).
Lemma run_near t : forall x k, near (whole_run B64 q1 sp1 phis1 G1 t x k) (whole_run RA q2 sp2 phis2 G2 t x k) (whole_run BD q3 sp3 phis3 G3 t x k).
Proof using Hsp Hq Hphi HG.
  induction t as [|t IH]; [exact HG|]. cbn [whole_run]. intros x. unfold any_ref.
  apply (step_rel B64 RA BD near near_zero _ _ _ _ _ _ Hsp). intros k.
  apply (bc_rel B64 RA BD near near_one near_add near_mul near_sub near_opp).
  - exact Hq.
  - intros b j. unfold feq_of. apply Hphi.
  - intros j y. unfold gfield. apply IH.
Qed.

(* A simulation in binary64 and one with exact numbers, each one on any process grid, with any
   back end and order of the storage: the values of a cell differ by at most the bound. *)
Theorem C96_simulation ps Ds mss pos ps' Ds' mss' pos' s s' L0 L0' :
  kernel_ok B64 n sp1 -> kernel_ok RA n sp2 ->
  (forall t, ParallelProps.regular (phis1 t)) -> (forall t, ParallelProps.regular (phis2 t)) ->
  parallel st g es labs conds ps Ds mss -> parallel st g es labs conds ps' Ds' mss' ->
  Forall (fun x => forall c, (c < ax_p x)%nat -> ax_lo x c < ax_hi x c) (proc_axes g ps) -> Forall (fun x => forall c, (c < ax_p x)%nat -> ax_lo x c < ax_hi x c) (proc_axes g ps') ->
  (pos <= dim g)%nat -> (pos' <= dim g)%nat ->
  holds B64 (proc_axes g ps) n (fst s) G1 -> holds RA (proc_axes g ps') n (fst s') G2 ->
  forall t c i c' i' k b e, coords_ok (proc_axes g ps) c -> inner (proc_axes g ps) c i -> coords_ok (proc_axes g ps') c' -> inner (proc_axes g ps') c' i' ->
  globc (proc_axes g ps) c i = globc (proc_axes g ps') c' i' -> (k < n)%nat ->
  whole_run BD q3 sp3 phis3 G3 t (globc (proc_axes g ps) c i) k = Some (b, e) ->
  (forall x y, (x = fst (cy_all schemes st r g B64 q1 sp1 pos ps mss phis1 L0 t s) c i k \/
                (kernel_numpy B64 sp1 /\ x = fst (np_all schemes st r g B64 q1 sp1 pos ps mss phis1 t s) c i k)) ->
               (y = fst (cy_all schemes st r g RA q2 sp2 pos' ps' mss' phis2 L0' t s') c' i' k \/
                (kernel_numpy RA sp2 /\ y = fst (np_all schemes st r g RA q2 sp2 pos' ps' mss' phis2 t s') c' i' k)) ->
   exists v, is64 x v /\ (Rabs y <= IZR b * bpow radix2 (-200))%R /\ (Rabs (v - y) <= IZR e * bpow radix2 (-200))%R).
Proof using E HQ Hsp Hq Hphi HG.
  intros K1 K2 R1 R2 HP HP' NE NE' Hp Hp' H1 H2 t c i c' i' k b e Hc Hi Hc' Hi' Eg Hk Eb x y Hx Hy.
  assert (X : x = whole_run B64 q1 sp1 phis1 G1 t (globc (proc_axes g ps) c i) k).
  { destruct Hx as [->|[N ->]].
    - apply (cy_whole B64 q1 sp1 K1 phis1 G1 R1 pos ps Ds mss Hp HP NE L0 s t H1 c i Hc Hi k Hk).
    - apply (np_whole B64 q1 sp1 K1 phis1 G1 R1 pos ps Ds mss Hp HP NE s t N H1 c i Hc Hi k Hk). }
  assert (Y : y = whole_run RA q2 sp2 phis2 G2 t (globc (proc_axes g ps) c i) k).
  { rewrite Eg. destruct Hy as [->|[N ->]].
    - apply (cy_whole RA q2 sp2 K2 phis2 G2 R2 pos' ps' Ds' mss' Hp' HP' NE' L0' s' t H2 c' i' Hc' Hi' k Hk).
    - apply (np_whole RA q2 sp2 K2 phis2 G2 R2 pos' ps' Ds' mss' Hp' HP' NE' s' t N H2 c' i' Hc' Hi' k Hk). }
  pose proof (run_near t (globc (proc_axes g ps) c i) k) as N. rewrite Eb, <- X, <- Y in N. destruct N as (_ & _ & v & V). now exists v.
Qed.
End Run.
Print Assumptions C96_simulation.

(* The kernels of one scheme, with the entries, parameters and equilibria related, are such. *)
Theorem C96_schemes a1 a2 a3 : arel B64 RA BD near a1 a2 a3 ->
  prel B64 RA BD near (spull B64 a1) (spull RA a2) (spull BD a3) /\ prel B64 RA BD near (sbase B64 a1) (sbase RA a2) (sbase BD a3).
Proof.
  intros A. split.
  - apply (pull_rel B64 RA BD near near_zero near_one near_add near_mul near_sub near_opp); exact A.
  - apply (base_rel B64 RA BD near near_zero near_one near_add near_mul near_sub near_opp); exact A.
Qed.
Print Assumptions C96_schemes.

(* ------------------------------------------------- the example of C92, with 1/10 as the exact parameter *)
Definition gsch (K : arith) (half s eq : K) : salgo K :=
  mkSalgo K 2 1 1 (fun i j => nth j (nth i [[r1; r1]; [r1; ropp r1]] []) r0) (fun i j => nth j (nth i [[half; half]; [half; ropp half]] []) r0)
    (fun i j => Num (K := K) (if Nat.eqb i j then r1 else r0))
    (fun k => match k with O => Var 0 | _ => Bin (K := K) rmul (Num (K := K) eq) (Var 0) end)
    (fun k => Num (K := K) (match k with O => r0 | _ => s end)) None [] half.
Example gsch_is : sch64 tenth64 tenth64 = gsch B64 half64 tenth64 tenth64. Proof. reflexivity. Qed.
Definition halfBD : BD := Some (2 ^ 199, 0).
(* 2^200 / 10 and the error of the number nearest to 1/10 *)
Definition tenthBD : BD := Some (2 ^ 200 / 10 + 1, 7205759403792794 * 2 ^ 144 - 2 ^ 200 / 10 + 1).
Definition numBD (z : Z) : BD := if Z.abs z <? 2 ^ 53 then Some (Z.abs z * scale, 0) else None.
Lemma near_num z : near (of_Z64 z) (IZR z) (numBD z).
Proof.
  unfold numBD. destruct (Z.ltb_spec (Z.abs z) (2 ^ 53)) as [H|H]; [|exact I]. split; [unfold scale; nia|]. split; [lia|].
  exists (F2R (Float radix2 z 0)). split; [apply (dyadic_exact z 0); lia|].
  replace (F2R (Float radix2 z 0)) with (IZR z) by (unfold F2R; cbn; ring).
  rewrite mult_IZR, Rmult_assoc, scale_unit, abs_IZR, Rmult_1_r, Rminus_eq_0, Rabs_R0, Rmult_0_l. split; apply Rle_refl.
Qed.
Lemma near_half : near half64 (/ 2)%R halfBD.
Proof.
  split; [vm_compute; discriminate|]. split; [lia|]. exists (F2R (Float radix2 1 (-1))). split; [apply dyadic_exact; lia|].
  replace (F2R (Float radix2 1 (-1))) with (/ 2)%R by (unfold F2R; cbn; lra).
  rewrite Rminus_eq_0, Rabs_R0, Rmult_0_l. split; [|apply Rle_refl]. rewrite Rabs_pos_eq by lra.
  pose proof scale_unit as U. unfold scale in U. change (2 ^ 200) with (2 ^ 199 * 2) in U. rewrite mult_IZR in U. lra.
Qed.
Lemma near_tenth : near tenth64 (/ 10)%R tenthBD.
Proof.
  assert (P := unit_pos).
  assert (U := scale_unit).
  assert (V : (F2R (Float radix2 7205759403792794 (-56)) = IZR (7205759403792794 * 2 ^ 144) * unit200)%R).
  { unfold F2R. cbn [Fnum Fexp]. rewrite mult_IZR, Rmult_assoc. f_equal. change (2 ^ 144) with (Zpower radix2 144). rewrite IZR_Zpower by lia. unfold unit200. rewrite <- bpow_plus. reflexivity. }
  assert (A : (IZR (2 ^ 200 / 10) * 10 <= IZR scale)%R) by (rewrite <- mult_IZR; apply IZR_le; vm_compute; discriminate).
  assert (B : (IZR scale <= IZR (2 ^ 200 / 10 + 1) * 10)%R) by (rewrite <- mult_IZR; apply IZR_le; vm_compute; discriminate).
  assert (C : (IZR scale <= IZR (7205759403792794 * 2 ^ 144) * 10)%R) by (rewrite <- mult_IZR; apply IZR_le; vm_compute; discriminate).
  assert (D : (/ 10 = IZR scale * unit200 / 10)%R) by lra.
  split; [vm_compute; discriminate|]. split; [vm_compute; discriminate|].
  exists (F2R (Float radix2 7205759403792794 (-56))). split; [apply dyadic_exact; lia|]. rewrite V.
  assert (E1 : IZR (2 ^ 200 / 10 + 1) = (IZR (2 ^ 200 / 10) + 1)%R) by now rewrite plus_IZR.
  assert (E2 : IZR (7205759403792794 * 2 ^ 144 - 2 ^ 200 / 10 + 1) = (IZR (7205759403792794 * 2 ^ 144) - IZR (2 ^ 200 / 10) + 1)%R) by now rewrite plus_IZR, minus_IZR.
  rewrite E1 in *. rewrite E2. clear E1 E2. set (a := IZR (2 ^ 200 / 10)) in *. set (v := IZR (7205759403792794 * 2 ^ 144)) in *. set (s := IZR scale) in *. set (u := unit200) in *.
  clearbody a v s u. clear V. split.
  - rewrite Rabs_pos_eq by lra. rewrite D. nra.
  - rewrite Rabs_pos_eq; rewrite D; nra.
Qed.
Lemma gsch_rel : arel B64 RA BD near (gsch B64 half64 tenth64 tenth64) (gsch RA (/ 2)%R (/ 10)%R (/ 10)%R) (gsch BD halfBD tenthBD tenthBD).
Proof.
  pose proof near_zero. pose proof near_one. pose proof near_half. pose proof near_tenth.
  pose proof (near_opp _ _ _ near_one). pose proof (near_opp _ _ _ near_half).
  constructor; cbn [gsch sa_n sa_nc sa_dim sa_M sa_invM sa_Tu sa_eq sa_s sa_relvel sa_source sa_hdt]; auto.
  - intros [|[|i]] [|[|[|j]]]; cbn; try assumption; destruct i; assumption.
  - intros [|[|i]] [|[|[|j]]]; cbn; try assumption; destruct i; assumption.
  - intros i j. constructor. destruct (Nat.eqb i j); assumption.
  - intros [|k]; [constructor|]. apply t_bin; [exact near_mul|constructor; assumption|constructor].
  - intros [|k]; constructor; assumption.
  - split; [reflexivity|]. split; [reflexivity|]. intros [|i] p1 p2 p3 X; discriminate X.
Qed.

(* The values of the cell x at the beginning are 0.1 * (10 x + k), rounded; the exact run starts from
   the exact ones. *)
Definition g64 : list Z -> vec B64 := fun x k => mul64 tenth64 (of_Z64 (10 * x@0 + Z.of_nat k)).
Definition gR : list Z -> vec RA := fun x k => (/ 10 * IZR (10 * x@0 + Z.of_nat k))%R.
Definition gBD : list Z -> vec BD := fun x k => bd_mul tenthBD (numBD (10 * x@0 + Z.of_nat k)).
Definition FR : fields RA := fun c i k => gR (globc (proc_axes (sline 6) [1%nat]) c i) k.
Definition spR : list (sstmt RA) := spull RA (gsch RA (/ 2)%R (/ 10)%R (/ 10)%R).
Definition spBD : list (sstmt BD) := spull BD (gsch BD halfBD tenthBD tenthBD).
Definition cyR t : fields RA := fst (cy_all [[1; 2]] sst [1; 0] (sline 6) RA (fun _ => 1%R) spR 0 [1%nat] (links_at sst (sline 6) wall34 [5] bb [1%nat]) (fun _ _ _ _ => 0%R) (fun _ _ => 0%R) t (FR, FR)).
Definition bound64 t : list Z -> vec BD := whole_run sst [1; 0] (sline 6) mms BD (fun _ => Some (scale, 0)) spBD (fun _ _ _ _ => Some (0, 0)) gBD t.
Lemma bound64_value : exists b e, bound64 1 [4] 0%nat = Some (b, e) /\ (0 <? e) = true /\ e <= 2 ^ 154.
Proof. eexists. eexists. split; [vm_compute; reflexivity|]. split; [vm_compute; reflexivity|vm_compute; discriminate]. Qed.
Lemma gsch_ok : scheme_ok RA (gsch RA (/ 2)%R (/ 10)%R (/ 10)%R).
Proof.
  constructor; cbn; try discriminate.
  - lia.
  - intros k Hk i Hi. destruct k as [|k]; cbn in Hi; lia.
  - intros k Hk. destruct k; [reflexivity|lia].
  - intros k Hk i [].
  - intros i j _ _ k [].
  - intros k g [].
Qed.
Lemma one_line p : In p [1; 2]%nat -> Forall (fun x => forall c, (c < ax_p x)%nat -> ax_lo x c < ax_hi x c) (proc_axes (sline 6) [p]).
Proof. intros [<-|[<-|[]]]; repeat constructor; cbn; intros [|[|c]] Hc; try lia; vm_compute; reflexivity. Qed.
Lemma inner_two : inner (proc_axes (sline 6) [2%nat]) [1%nat] [2].
Proof. split; [reflexivity|]. intros [|d] Hd; [vm_compute; split; (discriminate || reflexivity)|cbn in Hd; lia]. Qed.
Lemma inner_one : inner (proc_axes (sline 6) [1%nat]) [0%nat] [5].
Proof. split; [reflexivity|]. intros [|d] Hd; [vm_compute; split; (discriminate || reflexivity)|cbn in Hd; lia]. Qed.
(* the cell 4 after one step: the binary64 value on the second of two processes and the exact value on one *)
Example C96_example : exists v, is64 (cy64 2 1 [1%nat] [2] 0%nat) v /\ (Rabs (v - cyR 1 [0%nat] [5%Z] 0%nat) <= bpow radix2 (-46))%R.
Proof.
  destruct bound64_value as (b & e & Eb & _ & He).
  assert (S : scheme_ok B64 (sch64 tenth64 tenth64)) by apply sch64_ok.
  destruct (C96_simulation 1 [[1; 2]] sst [1; 0] (sline 6) wall34 [5] bb (sD 6 wall34) mms mserial) with
    (q1 := fun _ : Q => one64) (q2 := fun _ : Q => 1%R) (q3 := fun _ : Q => Some (scale, 0)) (sp1 := sp64) (sp2 := spR) (sp3 := spBD)
    (phis1 := phi64) (phis2 := fun (_ : nat) (_ : Z) (_ : list Q) (_ : nat) => 0%R) (phis3 := fun (_ : nat) (_ : Z) (_ : list Q) (_ : nat) => Some (0, 0))
    (G1 := g64) (G2 := gR) (G3 := gBD) (ps := [2%nat]) (ps' := [1%nat]) (Ds := dom_at (sline 6) wall34 [2%nat]) (Ds' := dom_at (sline 6) wall34 [1%nat])
    (mss := links_at sst (sline 6) wall34 [5] bb [2%nat]) (mss' := links_at sst (sline 6) wall34 [5] bb [1%nat]) (pos := 0%nat) (pos' := 0%nat)
    (s := (F64 2, F64 2)) (s' := (FR, FR)) (L0 := fun (_ _ : nat) => S754_nan) (L0' := fun (_ _ : nat) => 0%R)
    (t := 1%nat) (c := [1%nat]) (i := [2]) (c' := [0%nat]) (i' := [5]) (k := 0%nat) (b := b) (e := e)
    (x := cy64 2 1 [1%nat] [2] 0%nat) (y := cyR 1 [0%nat] [5] 0%nat) as (v & V & _ & W).
  - eapply C57_quiet; [exact mserial|]. intros m bl (L & HL & _). apply (in_map fst) in HL. vm_compute in HL. unfold simple. intuition.
  - exact (proj1 (C96_schemes _ _ _ gsch_rel)).
  - intros _. exact near_one.
  - intros. exact near_zero.
  - intros x k. unfold g64, gR, gBD. apply (near_mul _ _ _ _ _ _ near_tenth (near_num _)).
  - exact (C92_pull B64 (sch64 tenth64 tenth64) S).
  - exact (C92_pull RA (gsch RA (/ 2)%R (/ 10)%R (/ 10)%R) gsch_ok).
  - intros t l x y k Hxy. reflexivity.
  - intros t l x y k Hxy. reflexivity.
  - apply parallel64. cbn. auto.
  - apply parallel64. cbn. auto.
  - apply one_line. cbn. auto.
  - apply one_line. cbn. auto.
  - cbn. lia.
  - cbn. lia.
  - intros c i Hc Hi k Hk. reflexivity.
  - intros c i Hc Hi k Hk. reflexivity.
  - repeat constructor.
  - exact inner_two.
  - repeat constructor.
  - exact inner_one.
  - reflexivity.
  - cbn. lia.
  - exact Eb.
  - left. reflexivity.
  - left. reflexivity.
  - exists v. split; [exact V|]. eapply Rle_trans; [exact W|]. apply Rle_trans with (IZR (2 ^ 154) * bpow radix2 (-200))%R.
    + apply Rmult_le_compat_r; [apply bpow_ge_0|apply IZR_le, He].
    + change (2 ^ 154) with (Zpower radix2 154). rewrite IZR_Zpower by lia. rewrite <- bpow_plus. apply Rle_refl.
Qed.
