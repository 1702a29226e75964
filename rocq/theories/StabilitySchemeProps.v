(* Property C44, first part: the matrix examined by Stability is the one of the linearised
   time step on plane waves.  The scheme runs with dual numbers (StabilitySchemeProofs.v), on
   all the processes of a periodic domain; wave ws g is the plane wave exp(i xi . g) with
   ws = exp(i xi_d) and its inverse in each direction. *)
From Coq Require Import QArith Qcanon.
From Verif Require Import PyBase VelocityModel GridModel StorageModel ExchangeProofs LinAlg AlgoModel AlgoProofs RelVelProofs KernelProofs GlobalModel GlobalProofs TorusProofs GlobalProps StabilitySchemeModel StabilitySchemeProofs StabilityWaveProofs.
Open Scope Z_scope.

Lemma run_wave (K : ring) (a : algo (dual K)) axes vel R ws f0 fh m0 u0 st1 st2 :
  fits axes vel (al_n a) -> Forall (fun x => 0 < ax_n x) axes -> wave_ok K axes ws -> algo_ok (dual K) a ->
  (forall f, (forall k, (k < al_n a)%nat -> re K (f k) = f0 k) -> forall k, (k < al_n a)%nat ->
     re K (pull_fun (dual K) a f k) = f0 k /\ im K (pull_fun (dual K) a f k) = mvmul (al_n a) R (fun j => im K (f j)) k) ->
  (forall c i k, coords_ok axes c -> inner axes c i -> (k < al_n a)%nat ->
     let w := (f0 k, (wave K ws (globc axes c i) * fh k)%K) in fst st1 c i k = w /\ fst st2 c i k = w) ->
  forall t c i k, coords_ok axes c -> inner axes c i -> (k < al_n a)%nat ->
    let A := amplification (fun j => wave K ws (map Z.opp (vel j))) R in
    let w := (f0 k, (wave K ws (globc axes c i) * iter t (mvmul (al_n a) A) fh k)%K) in
    fst (iter t (two_step axes vel (pull_local a) m0 u0) st1) c i k = w /\
    fst (iter t (one_step axes vel (pull_local a)) st2) c i k = w.
Proof.
  intros Hf Hp Hw HA HL H t c i k Hc Hi Hk. cbv zeta. pose proof Hf as (Hd & Hok & Hv). pose proof HA as (He & Hs & HR).
  assert (Lg : length (globc axes c i) = length axes) by (apply globc_gcell; assumption).
  pose proof (grun_wave K axes vel (al_n a) (pull_fun (dual K) a) R ws f0 fh Hw Hp (fits_len _ _ _ Hf)
    (fun f f' => pull_fun_agree (dual K) a f f' He Hs HR) HL t (globc axes c i) Lg k Hk) as E.
  assert (I1 : holds (dual K) axes (al_n a) (fst st1) (disturbed K ws f0 fh)) by (intros c' i' Hc' Hi' k' Hk'; apply (H c' i' k' Hc' Hi' Hk')).
  assert (I2 : holds (dual K) axes (al_n a) (fst st2) (disturbed K ws f0 fh)) by (intros c' i' Hc' Hi' k' Hk'; apply (H c' i' k' Hc' Hi' Hk')).
  split.
  - rewrite (two_holds (dual K) a axes vel m0 u0 st1 _ Hf HA I1 t c i Hc Hi k Hk). exact E.
  - rewrite (one_holds (dual K) a axes vel st2 _ Hf HA I2 t c i Hc Hi k Hk). exact E.
Qed.

(* Without relative velocity: a disturbance fh exp(i xi . x) of an equilibrium state becomes
   A^t fh exp(i xi . x) after t steps, where A is the matrix of the code for the opposite
   wave vector. *)
Theorem C44_run : forall (K : ring) (a : algo (dual K)) axes vel M invM s J ws f0 fh m0 u0 st1 st2,
  fits axes vel (al_n a) -> Forall (fun x => 0 < ax_n x) axes -> wave_ok K axes ws ->
  al_relvel a = None -> al_source a = [] -> eq_ok (dual K) a -> rel_ok (dual K) a -> linearised K a M invM s J f0 ->
  (forall c i k, coords_ok axes c -> inner axes c i -> (k < al_n a)%nat ->
     let w := (f0 k, (wave K ws (globc axes c i) * fh k)%K) in fst st1 c i k = w /\ fst st2 c i k = w) ->
  forall t c i k, coords_ok axes c -> inner axes c i -> (k < al_n a)%nat ->
    let R := relax_mat_f (al_n a) M invM (relax_mat (al_n a) (al_nc a) s J None) in
    let A := amplification (fun j => wave K ws (map Z.opp (vel j))) R in
    let w := (f0 k, (wave K ws (globc axes c i) * iter t (mvmul (al_n a) A) fh k)%K) in
    fst (iter t (two_step axes vel (pull_local a) m0 u0) st1) c i k = w /\
    fst (iter t (one_step axes vel (pull_local a)) st2) c i k = w.
Proof.
  intros K a axes vel M invM s J ws f0 fh m0 u0 st1 st2 Hf Hp Hw R HS He HR HL H.
  apply run_wave; try assumption; [split; [exact He|split; [apply source_ok_nil; exact HS|exact HR]]|].
  intros f Hre. apply linearised_fixed; assumption.
Qed.
Print Assumptions C44_run.

(* With a relative velocity, when T(u) leaves the conserved moments alone (for instance when
   only the mass is conserved). *)
Theorem C44_run_relative_partial : forall (K : ring) (a : algo (dual K)) axes vel M invM s J Tu Tmu ws f0 fh m0 u0 st1 st2,
  fits axes vel (al_n a) -> Forall (fun x => 0 < ax_n x) axes -> wave_ok K axes ws ->
  al_source a = [] -> eq_ok (dual K) a -> rel_ok (dual K) a -> frame_ok (dual K) a ->
  (forall m i, (i < al_nc a)%nat -> al_s a m i = 0%K) ->
  linearised K a M invM s J f0 -> linearised_frame K a M Tu Tmu f0 -> inverse (al_n a) Tu Tmu ->
  (forall i j, (i < al_nc a)%nat -> (j < al_n a)%nat -> Tu i j = idm i j) ->
  (forall c i k, coords_ok axes c -> inner axes c i -> (k < al_n a)%nat ->
     let w := (f0 k, (wave K ws (globc axes c i) * fh k)%K) in fst st1 c i k = w /\ fst st2 c i k = w) ->
  forall t c i k, coords_ok axes c -> inner axes c i -> (k < al_n a)%nat ->
    let R := relax_mat_f (al_n a) M invM (relax_mat (al_n a) (al_nc a) s J (Some (Tu, Tmu))) in
    let A := amplification (fun j => wave K ws (map Z.opp (vel j))) R in
    let w := (f0 k, (wave K ws (globc axes c i) * iter t (mvmul (al_n a) A) fh k)%K) in
    fst (iter t (two_step axes vel (pull_local a) m0 u0) st1) c i k = w /\
    fst (iter t (one_step axes vel (pull_local a)) st2) c i k = w.
Proof.
  intros K a axes vel M invM s J Tu Tmu ws f0 fh m0 u0 st1 st2 Hf Hp Hw HS He HR HF H0 HL HT HI HU H.
  apply run_wave; try assumption; [split; [exact He|split; [apply source_ok_nil; exact HS|exact HR]]|].
  intros f Hre k Hk. destruct (linearised_moving K a M invM s J Tu Tmu f0 f HS He HF H0 HL HT Hre k Hk) as [E1 E2].
  split; [exact E1|]. rewrite E2. rewrite moving_matrix by (exact HI || exact Hk || apply He).
  apply mvmul_ext. intros i Hi. f_equal. apply mvmul_ext. intros j Hj. f_equal. apply mvmul_ext. intros l Hl. f_equal.
  apply sum_ext. intros h Hh. f_equal. unfold mvmul at 2. destruct He as (Hn & _).
  rewrite (sum_ext K _ _ (fun q => idm h q * mvmul (al_n a) M (fun j => im K (f j)) q)%K) by (intros q Hq; rewrite HU by lia; reflexivity).
  symmetry. apply (mvmul_id K (al_n a) idm); [intros ? ? ? ?; reflexivity|lia].
Qed.
Print Assumptions C44_run_relative_partial.

(* Otherwise it is not: with the conserved moments rho and q on three velocities 0, 1, -1, the
   equilibrium q of the second order moment and the constant relative velocity 1, the matrix
   R of the linearised kernel and the one of the code give amplification matrices with
   different traces for the wave vector pi. *)
Definition QK : ring := mkRing Qc 0%Qc 1%Qc Qcplus Qcmult Qcminus Qcopp Qcrt.
Definition q_half : QK := Q2Qc (1 # 2).
Definition q_M : mat QK := fun i j => match i, j with
  | 0, _ => 1 | 1, 1 => 1 | 1, 2 => - (1) | 2, 1 => 1 | 2, 2 => 1 | _, _ => 0 end%K%nat.
Definition q_invM : mat QK := fun i j => match i, j with
  | 0, 0 => 1 | 0, 2 => - (1) | 1, 1 => q_half | 1, 2 => q_half | 2, 1 => - q_half | 2, 2 => q_half | _, _ => 0 end%K%nat.
Definition q_T {K : ring} (u : K) : mat K := fun i j => match i, j with
  | 0, 0 => 1 | 1, 0 => - u | 1, 1 => 1 | 2, 0 => u * u | 2, 1 => - (u + u) | 2, 2 => 1 | _, _ => 0 end%K%nat.
Definition q_J : mat QK := fun i j => match i, j with 0, 0 => 1 | 1, 1 => 1 | 2, 1 => 1 | _, _ => 0 end%K%nat.
Definition q_s : vec QK := fun i => match i with 2 => 1 | _ => 0 end%K%nat.
Definition q_algo : algo (dual QK) := mkAlgo 3 2 1
  (fun i j => real QK (q_M i j)) (fun i j => real QK (q_invM i j)) (fun u => q_T (u 0%nat))
  (fun m i => match i with 0 => m 0 | 1 => m 1 | _ => m 1 end%nat) (fun _ i => real QK (q_s i))
  (Some (fun _ _ => real QK 1%K)) [] 0%K.
Definition trace {K : ring} n (A : mat K) : K := sum n (fun i => A i i).
Add Ring QK_ring : (rth QK).
Add Ring dual_QK_ring : (rth (dual QK)).

Lemma lt3 i : (i < 3)%nat -> i = 0%nat \/ i = 1%nat \/ i = 2%nat. Proof. lia. Qed.
Lemma q_inv : inverse 3 q_M q_invM.
Proof. split; intros i j Hi Hj; destruct (lt3 i Hi) as [->|[->| ->]], (lt3 j Hj) as [->|[->| ->]]; vm_compute; apply Qc_is_canon; reflexivity. Qed.
Lemma q_Tinv (u : vec (dual QK)) : inverse 3 (al_Tu q_algo u) (al_Tu q_algo (vopp u)).
Proof.
  split; intros i j Hi Hj; destruct (lt3 i Hi) as [->|[->| ->]], (lt3 j Hj) as [->|[->| ->]];
    unfold mmul, sum, sumL, idm, vopp; cbn [seq fold_right al_Tu q_algo q_T Nat.eqb]; ring.
Qed.
Theorem C44_relative_refuted : exists (a : algo (dual QK)) M invM s J Tu Tmu f0 (R : mat QK) e,
  al_source a = [] /\ eq_ok (dual QK) a /\ rel_ok (dual QK) a /\ frame_ok (dual QK) a /\
  (forall m i, (i < al_nc a)%nat -> al_s a m i = 0%K) /\
  linearised QK a M invM s J f0 /\ linearised_frame QK a M Tu Tmu f0 /\ inverse (al_n a) Tu Tmu /\
  (forall f, (forall k, (k < al_n a)%nat -> re QK (f k) = f0 k) -> forall k, (k < al_n a)%nat ->
     im QK (pull_fun (dual QK) a f k) = mvmul (al_n a) R (fun j => im QK (f j)) k) /\
  (forall k, (k < al_n a)%nat -> (e k * e k = 1)%K) /\
  trace (al_n a) (amplification e R) <>
  trace (al_n a) (amplification e (relax_mat_f (al_n a) M invM (relax_mat (al_n a) (al_nc a) s J (Some (Tu, Tmu))))).
Proof.
  assert (HE : eq_ok (dual QK) q_algo).
  { split; [cbn; lia|]. split; [|split].
    - intros m m' H i Hi. destruct (lt3 i Hi) as [->|[->| ->]]; cbn [al_eq q_algo]; apply H; cbn; lia.
    - intros m m' H i Hi. reflexivity.
    - intros m i Hi. cbn in Hi. destruct i as [|[|i]]; [reflexivity|reflexivity|lia]. }
  assert (HF : frame_ok (dual QK) q_algo).
  { split; [|split; [exact q_Tinv|]].
    - split; intros i j Hi Hj; destruct (lt3 i Hi) as [->|[->| ->]], (lt3 j Hj) as [->|[->| ->]];
        vm_compute; f_equal; apply Qc_is_canon; reflexivity.
    - intros u i j H1 H2. cbn in H1, H2. assert (E : j = 2%nat) by lia. subst j.
      destruct i as [|[|i]]; [reflexivity|reflexivity|lia]. }
  assert (HS : forall m i, (i < al_nc q_algo)%nat -> al_s q_algo m i = 0%K).
  { intros m i Hi. cbn in Hi. destruct i as [|[|i]]; [reflexivity|reflexivity|lia]. }
  assert (HL : linearised QK q_algo q_M q_invM q_s q_J (fun _ => 0%K)).
  { split; [exact q_inv|]. split; [intros; split; reflexivity|]. intros m Hm i Hi.
    assert (Z0 : forall i, mvmul 3 q_M (fun _ => 0%K) i = 0%K).
    { intros k. apply sum_zero. intros j _. ring. }
    cbn [al_nc al_n q_algo] in *. rewrite !Z0 in *. split; [reflexivity|].
    split; [destruct (lt3 i Hi) as [->|[->| ->]]; cbn [al_eq q_algo]; rewrite Hm by lia; apply Z0|].
    destruct (lt3 i Hi) as [->|[->| ->]]; cbn [al_eq q_algo]; unfold sum, sumL, q_J; cbn [seq fold_right]; ring. }
  assert (HT : linearised_frame QK q_algo q_M (q_T 1%K) (q_T (- (1))%K) (fun _ => 0%K)).
  { intros m u Hm Hu i j Hi Hj. assert (U := Hu 0%nat ltac:(cbn; lia)). cbn [al_Tu q_algo]. unfold vopp. rewrite U.
    destruct (lt3 i Hi) as [->|[->| ->]], (lt3 j Hj) as [->|[->| ->]]; split; vm_compute; reflexivity || (apply Qc_is_canon; reflexivity). }
  exists q_algo, q_M, q_invM, q_s, q_J, (q_T 1%K), (q_T (- (1))%K), (fun _ => 0%K),
    (relax_mat_f 3 q_M q_invM (relax_mat 3 2 q_s q_J None)),
    (fun k => match k with O => 1%K | _ => (- (1))%K end).
  split; [reflexivity|]. split; [exact HE|]. split.
  { split; [intros rel m m' E; injection E as <-; intros _ i Hi; reflexivity|].
    intros u u' i j H Hi Hj. cbn [al_Tu q_algo]. rewrite (H 0%nat) by (cbn; lia). reflexivity. }
  split; [exact HF|]. split; [exact HS|]. split; [exact HL|]. split; [exact HT|]. split.
  { split; intros i j Hi Hj; destruct (lt3 i Hi) as [->|[->| ->]], (lt3 j Hj) as [->|[->| ->]];
      vm_compute; apply Qc_is_canon; reflexivity. }
  split; [|split].
  - intros f Hf k Hk. rewrite (proj2 (linearised_moving QK q_algo _ _ _ _ _ _ _ f eq_refl HE HF HS HL HT Hf k Hk)).
    unfold relax_mat_f. rewrite <- !mvmul_assoc. cbn [al_n al_nc q_algo]. apply mvmul_ext. intros i Hi.
    cbn [relax_mat]. rewrite relax_mat_m_apply by (lia || exact Hi).
    set (dm := mvmul 3 q_M (fun j => im QK (f j))).
    destruct (lt3 i Hi) as [->|[->| ->]]; unfold mvmul, sum, sumL; cbn [seq fold_right q_T q_J q_s]; ring.
  - intros k Hk. destruct (lt3 k Hk) as [->|[->| ->]]; ring.
  - vm_compute. intros E. discriminate (f_equal (fun x : Qc => this x) E).
Qed.
Print Assumptions C44_relative_refuted.

(* Example: the velocities 0 and 1, the moments 1 and X, the equilibrium rho^2 of the second
   one, linearised around rho = 1, with the relaxation parameter s; two cells and the wave
   (-1)^x. *)
Section Example.
Variable K : ring.
Add Ring Kring_ex : (rth K).
Add Ring dual_ring_ex : (rth (dual K)).
Variable s : K.
Definition b_M : mat K := fun i j => match i, j with 0, 0 => 1 | 0, 1 => 1 | 1, 1 => 1 | _, _ => 0 end%K%nat.
Definition b_invM : mat K := fun i j => match i, j with 0, 0 => 1 | 0, 1 => - (1) | 1, 1 => 1 | _, _ => 0 end%K%nat.
Definition b_s : vec K := fun i => match i with 1 => s | _ => 0%K end%nat.
Definition b_J : mat K := fun i j => match i, j with 0, 0 => 1 | 1, 0 => 1 + 1 | _, _ => 0 end%K%nat.
Definition b_f0 : vec K := fun i => match i with 1 => 1%K | _ => 0%K end%nat.
Definition b_algo : algo (dual K) := mkAlgo 2 1 1
  (fun i j => real K (b_M i j)) (fun i j => real K (b_invM i j)) (fun _ => idm)
  (fun m i => match i with O => m O | _ => (m O * m O)%K end) (fun _ i => real K (b_s i)) None [] 0%K.
Definition b_axes : list axis := [mkAxis 2 1 1].
Definition b_vel (k : nat) : list Z := [Z.of_nat k].
Lemma lt2 i : (i < 2)%nat -> i = 0%nat \/ i = 1%nat. Proof. lia. Qed.
Lemma b_fits : fits b_axes b_vel 2 /\ Forall (fun x => 0 < ax_n x) b_axes.
Proof.
  split; [|repeat constructor]. split; [cbn; lia|]. split.
  - constructor; [|constructor]. unfold ax_ok. cbn. repeat split; try lia. intros c Hc. assert (c = 0%nat) by lia. subst c. vm_compute. discriminate.
  - intros k Hk. split; [reflexivity|]. intros d Hd. cbn in Hd. assert (d = 0%nat) by lia. subst d. destruct (lt2 k Hk) as [->| ->]; cbn; lia.
Qed.
Lemma b_wave : wave_ok K b_axes [((- (1))%K, (- (1))%K)].
Proof. constructor; [|constructor]. cbn [fst snd b_axes ax_n]. change (zpow K (- (1))%K (- (1))%K 2) with ((- (1)) * ((- (1)) * 1) : K)%K. split; ring. Qed.
Lemma b_eq_ok : eq_ok (dual K) b_algo /\ rel_ok (dual K) b_algo.
Proof.
  split; [split; [cbn; lia|split; [|split]]|split].
  - intros m m' H i Hi. assert (E := H 0%nat ltac:(cbn; lia)). destruct (lt2 i Hi) as [->| ->]; cbn [al_eq b_algo]; rewrite E; reflexivity.
  - intros m m' H i Hi. reflexivity.
  - intros m i Hi. cbn in Hi. assert (i = 0%nat) by lia. subst i. reflexivity.
  - discriminate.
  - intros. reflexivity.
Qed.
Lemma b_linearised : linearised K b_algo b_M b_invM b_s b_J b_f0.
Proof.
  split.
  { split; intros i j Hi Hj; destruct (lt2 i Hi) as [->| ->], (lt2 j Hj) as [->| ->]; unfold mmul, sum, sumL, idm; cbn; ring. }
  split; [intros; split; reflexivity|]. cbn [al_n al_nc b_algo]. intros m Hm i Hi.
  assert (E := Hm 0%nat ltac:(lia)). unfold mvmul, sum, sumL in E. cbn in E.
  split; [reflexivity|]. destruct (lt2 i Hi) as [->| ->]; cbn [al_eq b_algo].
  - split; [rewrite E; unfold mvmul, sum, sumL; cbn; ring|unfold sum, sumL; cbn; ring].
  - rewrite re_mul, im_mul, E. split; unfold mvmul, sum, sumL; cbn; ring.
Qed.
End Example.
(* the matrix of the code for this example, s = 3 *)
Example C44_example : map (fun i => map (fun j => amplification (fun j => wave Zring [(-1, -1)] (map Z.opp (b_vel j)))
    (relax_mat_f 2 (b_M Zring) (b_invM Zring) (relax_mat 2 1 (b_s Zring 3) (b_J Zring) None)) i j) [0; 1]%nat) [0; 1]%nat = [[-5; 3]; [6; -4]].
Proof. reflexivity. Qed.
