(* Binary64 operations (Coq.Floats.SpecFloat) and the real numbers: the results of RoundModel.v
   are the roundings of the exact results.  The link between SpecFloat and the theorems of
   Flocq follows Flocq's file IEEE754/PrimFloat.v, without the primitive floats. *)
From Coq Require Import Reals Lra QArith Qreals.
From Coq.Floats Require Import SpecFloat.
From Flocq Require Import Core Relative BinarySingleNaN.
From Verif Require Import PyBase LinAlg RoundModel.
Open Scope R_scope.

Local Instance Hprec : FLX.Prec_gt_0 prec64 := eq_refl _.
Local Instance Hmax : Prec_lt_emax prec64 emax64 := eq_refl _.
Notation bin64 := (binary_float prec64 emax64).
Notation fexp64 := (SpecFloat.fexp prec64 emax64).
Notation rnd64 := (round radix2 fexp64 ZnearestE).

Lemma round_nearest_even_eq s m l : round_nearest_even m l = choice_mode mode_NE s m l.
Proof. case l; [reflexivity|intro c]. case c; [|reflexivity..]. now simpl; unfold Round.cond_incr; case Z.even. Qed.
Lemma round_aux_eq sx mx ex lx :
  SpecFloat.binary_round_aux prec64 emax64 sx mx ex lx = BinarySingleNaN.binary_round_aux prec64 emax64 mode_NE sx mx ex lx.
Proof.
  unfold SpecFloat.binary_round_aux, BinarySingleNaN.binary_round_aux.
  set (mrse' := shr_fexp _ _ _ _ _). case mrse'; intros mrs' e'; simpl. now rewrite (round_nearest_even_eq sx).
Qed.
Lemma round_eq s m e : SpecFloat.binary_round prec64 emax64 s m e = BinarySingleNaN.binary_round prec64 emax64 mode_NE s m e.
Proof.
  unfold SpecFloat.binary_round, BinarySingleNaN.binary_round, shl_align_fexp.
  set (mez := shl_align _ _ _); case mez as [mz ez]. apply round_aux_eq.
Qed.
Lemma normalize_eq m e z : SpecFloat.binary_normalize prec64 emax64 m e z
  = B2SF (BinarySingleNaN.binary_normalize prec64 emax64 Hprec Hmax mode_NE m e z).
Proof. case m as [|p|p]; [now simpl|simpl; rewrite B2SF_SF2B; apply round_eq..]. Qed.

Lemma add_eq (x y : bin64) : add64 (B2SF x) (B2SF y) = B2SF (Bplus mode_NE x y).
Proof.
  unfold add64. case x as [sx|sx| |sx mx ex Bx]; case y as [sy|sy| |sy my ey By];
  [now (trivial || simpl; case Bool.eqb).. | ]. apply normalize_eq.
Qed.
Lemma sub_eq (x y : bin64) : sub64 (B2SF x) (B2SF y) = B2SF (Bminus mode_NE x y).
Proof.
  unfold sub64. case x as [sx|sx| |sx mx ex Bx]; case y as [sy|sy| |sy my ey By];
  [now (trivial || simpl; case Bool.eqb).. | ]. simpl. unfold Zminus. rewrite <- cond_Zopp_negb. apply normalize_eq.
Qed.
Lemma mul_eq (x y : bin64) : mul64 (B2SF x) (B2SF y) = B2SF (Bmult mode_NE x y).
Proof.
  unfold mul64. case x as [sx|sx| |sx mx ex Bx]; case y as [sy|sy| |sy my ey By]; [now trivial.. | ].
  simpl. rewrite B2SF_SF2B. apply round_aux_eq.
Qed.
Lemma div_eq (x y : bin64) : div64 (B2SF x) (B2SF y) = B2SF (Bdiv mode_NE x y).
Proof.
  unfold div64. case x as [sx|sx| |sx mx ex Bx]; case y as [sy|sy| |sy my ey By];
  [now (trivial || simpl; case Bool.eqb).. | ]. simpl. rewrite B2SF_SF2B.
  set (melz := SFdiv_core_binary _ _ _ _ _ _). case melz as [[mz ez] lz]. apply round_aux_eq.
Qed.
Lemma opp_eq (x : bin64) : SFopp (B2SF x) = B2SF (Bopp x).
Proof. now case x as [sx|sx| |sx mx ex Bx]. Qed.

(* x is a binary64 number with the real value r *)
Definition is64 (x : f64) (r : R) : Prop := exists b : bin64, B2SF b = x /\ is_finite b = true /\ B2R b = r.
Definition ulp64 : R := bpow radix2 (-53).
Definition eta64 : R := bpow radix2 (-1075).
Definition big64 : R := bpow radix2 1000.


Lemma rnd_error r : Rabs (rnd64 r - r) <= ulp64 * Rabs r + eta64.
Proof.
  destruct (error_N_FLT radix2 (3 - 1024 - 53)%Z 53%Z eq_refl (fun z => negb (Z.even z)) r) as (eps & eta & He & Het & _ & E).
  change (round radix2 fexp64 ZnearestE r) with (round radix2 (FLT_exp (3 - 1024 - 53) 53) (Znearest (fun z => negb (Z.even z))) r).
  rewrite E. replace (r * (1 + eps) + eta - r) with (eps * r + eta) by ring.
  eapply Rle_trans; [apply Rabs_triang|]. rewrite Rabs_mult. apply Rplus_le_compat.
  - apply Rmult_le_compat_r; [apply Rabs_pos|]. eapply Rle_trans; [exact He|]. unfold ulp64.
    change (/ 2) with (bpow radix2 (-1)). rewrite <- bpow_plus. apply Rle_refl.
  - eapply Rle_trans; [exact Het|]. unfold eta64. change (/ 2) with (bpow radix2 (-1)). rewrite <- bpow_plus. apply Rle_refl.
Qed.
Lemma small_no_overflow r : Rabs r <= big64 -> Rlt_bool (Rabs (rnd64 r)) (bpow radix2 emax64) = true.
Proof.
  intros H. apply Rlt_bool_true. apply Rle_lt_trans with (bpow radix2 1000).
  - apply abs_round_le_generic; [apply fexp_correct; exact Hprec|apply valid_rnd_N| |exact H].
    apply generic_format_bpow. unfold SpecFloat.fexp, SpecFloat.emin. cbn. lia.
  - apply bpow_lt. reflexivity.
Qed.

Lemma add_is64 x y r s : is64 x r -> is64 y s -> Rabs (r + s) <= big64 -> is64 (add64 x y) (rnd64 (r + s)).
Proof.
  intros (bx & <- & Fx & <-) (by_ & <- & Fy & <-) H. rewrite add_eq. eexists; split; [reflexivity|].
  generalize (Bplus_correct prec64 emax64 _ _ mode_NE bx by_ Fx Fy). cbn [round_mode]. rewrite small_no_overflow by exact H.
  intros (E & F & _). now split.
Qed.
Lemma sub_is64 x y r s : is64 x r -> is64 y s -> Rabs (r - s) <= big64 -> is64 (sub64 x y) (rnd64 (r - s)).
Proof.
  intros (bx & <- & Fx & <-) (by_ & <- & Fy & <-) H. rewrite sub_eq. eexists; split; [reflexivity|].
  generalize (Bminus_correct prec64 emax64 _ _ mode_NE bx by_ Fx Fy). cbn [round_mode]. rewrite small_no_overflow by exact H.
  intros (E & F & _). now split.
Qed.
Lemma mul_is64 x y r s : is64 x r -> is64 y s -> Rabs (r * s) <= big64 -> is64 (mul64 x y) (rnd64 (r * s)).
Proof.
  intros (bx & <- & Fx & <-) (by_ & <- & Fy & <-) H. rewrite mul_eq. eexists; split; [reflexivity|].
  generalize (Bmult_correct prec64 emax64 _ _ mode_NE bx by_). cbn [round_mode]. rewrite small_no_overflow by exact H.
  intros (E & F & _). rewrite F, Fx, Fy. now split.
Qed.
Lemma div_is64 x y r s : is64 x r -> is64 y s -> s <> 0 -> Rabs (r / s) <= big64 -> is64 (div64 x y) (rnd64 (r / s)).
Proof.
  intros (bx & <- & Fx & <-) (by_ & <- & Fy & <-) Hs H. rewrite div_eq. eexists; split; [reflexivity|].
  generalize (Bdiv_correct prec64 emax64 _ _ mode_NE bx by_ Hs). cbn [round_mode]. rewrite small_no_overflow by exact H.
  intros (E & F & _). rewrite F. now split.
Qed.
Lemma opp_is64 x r : is64 x r -> is64 (SFopp x) (- r).
Proof.
  intros (bx & <- & Fx & <-). rewrite opp_eq. eexists; split; [reflexivity|]. rewrite is_finite_Bopp, B2R_Bopp. now split.
Qed.
Lemma dyadic_is64 m e : Rabs (F2R (Float radix2 m e)) <= big64 -> is64 (dyadic64 m e) (rnd64 (F2R (Float radix2 m e))).
Proof.
  intros H. unfold dyadic64. rewrite normalize_eq. eexists; split; [reflexivity|].
  generalize (binary_normalize_correct prec64 emax64 Hprec Hmax mode_NE m e false). cbv zeta. cbn [round_mode].
  rewrite small_no_overflow by exact H. intros (E & F & _). now split.
Qed.
Lemma is64_unique x r s : is64 x r -> is64 x s -> r = s.
Proof. intros (b & <- & F & <-) (b' & E & F' & <-). apply B2SF_inj in E. now subst. Qed.
