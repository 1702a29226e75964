(* C96, lemmas: a relation between three arithmetics which the operations keep is kept by the
   statements of a kernel and by the boundary conditions; binary64 numbers, real numbers and
   bounds are such arithmetics. *)
From Coq Require Import Reals Lra QArith Qreals.
From Coq.Floats Require Import SpecFloat.
From Flocq Require Import Core BinarySingleNaN.
From Verif Require Import PyBase VelocityModel GridModel DomainModel StorageModel LinAlg AlgoModel AlgoProofs GlobalModel GenModel StepGenModel StepGenProofs
  BoundaryModel RoundModel RoundProofs Round64Proofs.
Require Import Lia.

(* ------------------------------------------------- three arithmetics *)
Section Three.
Variables K1 K2 K3 : arith.
Variable rel : K1 -> K2 -> K3 -> Prop.
Hypothesis rel0 : rel r0 r0 r0.
Hypothesis rel1 : rel r1 r1 r1.
Hypothesis rel_add : forall x y z x' y' z', rel x y z -> rel x' y' z' -> rel (radd x x') (radd y y') (radd z z').
Hypothesis rel_mul : forall x y z x' y' z', rel x y z -> rel x' y' z' -> rel (rmul x x') (rmul y y') (rmul z z').
Hypothesis rel_sub : forall x y z x' y' z', rel x y z -> rel x' y' z' -> rel (rsub x x') (rsub y y') (rsub z z').
Hypothesis rel_opp : forall x y z, rel x y z -> rel (ropp x) (ropp y) (ropp z).

(* Expressions of the same shape, with related numbers and operations. *)
Definition rel_un (o1 : K1 -> K1) (o2 : K2 -> K2) (o3 : K3 -> K3) := forall x y z, rel x y z -> rel (o1 x) (o2 y) (o3 z).
Definition rel_bin (o1 : K1 -> K1 -> K1) (o2 : K2 -> K2 -> K2) (o3 : K3 -> K3 -> K3) :=
  forall x y z x' y' z', rel x y z -> rel x' y' z' -> rel (o1 x x') (o2 y y') (o3 z z').
Inductive trel : term K1 -> term K2 -> term K3 -> Prop :=
| t_num c1 c2 c3 : rel c1 c2 c3 -> trel (Num c1) (Num c2) (Num c3)
| t_var i : trel (Var i) (Var i) (Var i)
| t_un o1 o2 o3 t1 t2 t3 : rel_un o1 o2 o3 -> trel t1 t2 t3 -> trel (Un o1 t1) (Un o2 t2) (Un o3 t3)
| t_bin o1 o2 o3 t1 t2 t3 t1' t2' t3' : rel_bin o1 o2 o3 -> trel t1 t2 t3 -> trel t1' t2' t3' ->
    trel (Bin o1 t1 t1') (Bin o2 t2 t2') (Bin o3 t3 t3').
Inductive srel : sym K1 -> sym K2 -> sym K3 -> Prop :=
| y_num c1 c2 c3 : rel c1 c2 c3 -> srel (YNum c1) (YNum c2) (YNum c3)
| y_old k : srel (YOld k) (YOld k) (YOld k)
| y_new k : srel (YNew k) (YNew k) (YNew k)
| y_mom k : srel (YMom k) (YMom k) (YMom k)
| y_mv k : srel (YMv k) (YMv k) (YMv k)
| y_vel j : srel (YVel j) (YVel j) (YVel j)
| y_un o1 o2 o3 t1 t2 t3 : rel_un o1 o2 o3 -> srel t1 t2 t3 -> srel (YUn o1 t1) (YUn o2 t2) (YUn o3 t3)
| y_bin o1 o2 o3 t1 t2 t3 t1' t2' t3' : rel_bin o1 o2 o3 -> srel t1 t2 t3 -> srel t1' t2' t3' ->
    srel (YBin o1 t1 t1') (YBin o2 t2 t2') (YBin o3 t3 t3').
Inductive prel : list (sstmt K1) -> list (sstmt K2) -> list (sstmt K3) -> Prop :=
| p_nil : prel [] [] []
| p_cons t e1 e2 e3 p1 p2 p3 : srel e1 e2 e3 -> prel p1 p2 p3 -> prel ((t, e1) :: p1) ((t, e2) :: p2) ((t, e3) :: p3).

Definition vrel (f1 : vec K1) (f2 : vec K2) (f3 : vec K3) : Prop := forall k, rel (f1 k) (f2 k) (f3 k).
Definition wrel (v1 : view K1) (v2 : view K2) (v3 : view K3) : Prop :=
  vrel (vf v1) (vf v2) (vf v3) /\ vrel (vfn v1) (vfn v2) (vfn v3) /\ vrel (vm v1) (vm v2) (vm v3) /\ vrel (vu v1) (vu v2) (vu v3).
Lemma seval_rel v1 v2 v3 e1 e2 e3 : wrel v1 v2 v3 -> srel e1 e2 e3 -> rel (seval K1 v1 e1) (seval K2 v2 e2) (seval K3 v3 e3).
Proof. intros (A & B & C & D). induction 1; cbn; auto. Qed.
Lemma updf_rel f1 f2 f3 k x1 x2 x3 : vrel f1 f2 f3 -> rel x1 x2 x3 -> vrel (updf f1 k x1) (updf f2 k x2) (updf f3 k x3).
Proof. intros H X j. unfold updf. destruct (Nat.eqb j k); auto. Qed.
Lemma run_rel p1 p2 p3 : prel p1 p2 p3 -> forall v1 v2 v3, wrel v1 v2 v3 ->
  wrel (run (map (sem K1) p1) v1) (run (map (sem K2) p2) v2) (run (map (sem K3) p3) v3).
Proof.
  induction 1 as [|t e1 e2 e3 p1 p2 p3 E P IH]; intros v1 v2 v3 W; [exact W|].
  cbn [map]. unfold run. cbn [fold_left]. apply IH.
  pose proof (seval_rel _ _ _ _ _ _ W E) as X. destruct W as (A & B & C & D).
  unfold exec, sem. cbn [fst snd].
  destruct t as [k|k|j]; (split; [|split; [|split]]); cbn [vf vfn vm vu]; auto using updf_rel.
Qed.
Lemma step_rel p1 p2 p3 f1 f2 f3 : prel p1 p2 p3 -> vrel f1 f2 f3 -> vrel (step_of K1 p1 f1) (step_of K2 p2 f2) (step_of K3 p3 f3).
Proof.
  intros P F. unfold step_of. apply (run_rel p1 p2 p3 P). split; [exact F|]. split; [|split]; intros k; exact rel0.
Qed.

(* the statements of the schemes *)
Lemma prel_app p1 p2 p3 q1 q2 q3 : prel p1 p2 p3 -> prel q1 q2 q3 -> prel (p1 ++ q1) (p2 ++ q2) (p3 ++ q3).
Proof. induction 1; cbn; [auto|]. intros H'. constructor; auto. Qed.
Lemma prel_assign t lo hi e1 e2 e3 : (forall k, srel (e1 k) (e2 k) (e3 k)) -> prel (sassign K1 t lo hi e1) (sassign K2 t lo hi e2) (sassign K3 t lo hi e3).
Proof. intros H. unfold sassign. induction (seq lo (hi - lo)); cbn; constructor; auto. Qed.
Lemma srel_sub s1 s2 s3 t1 t2 t3 : (forall i, srel (s1 i) (s2 i) (s3 i)) -> trel t1 t2 t3 -> srel (tsub K1 s1 t1) (tsub K2 s2 t2) (tsub K3 s3 t3).
Proof. intros H. induction 1; cbn; try constructor; auto. Qed.
Lemma srel_add a1 a2 a3 b1 b2 b3 : srel a1 a2 a3 -> srel b1 b2 b3 -> srel (yadd K1 a1 b1) (yadd K2 a2 b2) (yadd K3 a3 b3).
Proof. intros. now constructor. Qed.
Lemma srel_mul a1 a2 a3 b1 b2 b3 : srel a1 a2 a3 -> srel b1 b2 b3 -> srel (ymul K1 a1 b1) (ymul K2 a2 b2) (ymul K3 a3 b3).
Proof. intros. now constructor. Qed.
Lemma srel_minus a1 a2 a3 b1 b2 b3 : srel a1 a2 a3 -> srel b1 b2 b3 -> srel (ysub K1 a1 b1) (ysub K2 a2 b2) (ysub K3 a3 b3).
Proof. intros. now constructor. Qed.
Lemma srel_sum n g1 g2 g3 : (forall j, srel (g1 j) (g2 j) (g3 j)) -> srel (ysum K1 n g1) (ysum K2 n g2) (ysum K3 n g3).
Proof. intros H. unfold ysum. induction (seq 0 n); cbn; [constructor; exact rel0|]. apply srel_add; auto. Qed.
Lemma srel_mv n M1 M2 M3 f1 f2 f3 : (forall i j, srel (M1 i j) (M2 i j) (M3 i j)) -> (forall j, srel (f1 j) (f2 j) (f3 j)) ->
  forall i, srel (ymv K1 n M1 f1 i) (ymv K2 n M2 f2 i) (ymv K3 n M3 f3 i).
Proof. intros HM Hf i. apply srel_sum. intros j. apply srel_mul; auto. Qed.
Lemma srel_mm n M1 M2 M3 N1 N2 N3 : (forall i j, srel (M1 i j) (M2 i j) (M3 i j)) -> (forall i j, srel (N1 i j) (N2 i j) (N3 i j)) ->
  forall i k, srel (ymm K1 n M1 N1 i k) (ymm K2 n M2 N2 i k) (ymm K3 n M3 N3 i k).
Proof. intros HM HN i k. apply srel_sum. intros j. apply srel_mul; auto. Qed.

Record arel (a1 : salgo K1) (a2 : salgo K2) (a3 : salgo K3) : Prop := {
  ar_n : sa_n K1 a1 = sa_n K3 a3 /\ sa_n K2 a2 = sa_n K3 a3;
  ar_nc : sa_nc K1 a1 = sa_nc K3 a3 /\ sa_nc K2 a2 = sa_nc K3 a3;
  ar_dim : sa_dim K1 a1 = sa_dim K3 a3 /\ sa_dim K2 a2 = sa_dim K3 a3;
  ar_M : forall i j, rel (sa_M K1 a1 i j) (sa_M K2 a2 i j) (sa_M K3 a3 i j);
  ar_invM : forall i j, rel (sa_invM K1 a1 i j) (sa_invM K2 a2 i j) (sa_invM K3 a3 i j);
  ar_Tu : forall i j, trel (sa_Tu K1 a1 i j) (sa_Tu K2 a2 i j) (sa_Tu K3 a3 i j);
  ar_eq : forall k, trel (sa_eq K1 a1 k) (sa_eq K2 a2 k) (sa_eq K3 a3 k);
  ar_s : forall k, trel (sa_s K1 a1 k) (sa_s K2 a2 k) (sa_s K3 a3 k);
  ar_rel : match sa_relvel K1 a1, sa_relvel K2 a2, sa_relvel K3 a3 with
           | None, None, None => True
           | Some u1, Some u2, Some u3 => forall j, trel (u1 j) (u2 j) (u3 j)
           | _, _, _ => False
           end;
  ar_source : map fst (sa_source K1 a1) = map fst (sa_source K3 a3) /\ map fst (sa_source K2 a2) = map fst (sa_source K3 a3) /\
    forall i p1 p2 p3, nth_error (sa_source K1 a1) i = Some p1 -> nth_error (sa_source K2 a2) i = Some p2 ->
      nth_error (sa_source K3 a3) i = Some p3 -> trel (snd p1) (snd p2) (snd p3);
  ar_hdt : rel (sa_hdt K1 a1) (sa_hdt K2 a2) (sa_hdt K3 a3) }.
Definition orel {A B C} (R : A -> B -> C -> Prop) (x : option A) (y : option B) (z : option C) : Prop :=
  match x, y, z with None, None, None => True | Some x, Some y, Some z => R x y z | _, _, _ => False end.
Lemma find_three (k : nat) : forall (l1 : list (nat * term K1)) (l2 : list (nat * term K2)) (l3 : list (nat * term K3)),
  map fst l1 = map fst l3 -> map fst l2 = map fst l3 ->
  (forall i p1 p2 p3, nth_error l1 i = Some p1 -> nth_error l2 i = Some p2 -> nth_error l3 i = Some p3 -> trel (snd p1) (snd p2) (snd p3)) ->
  orel (fun p1 p2 p3 => trel (snd p1) (snd p2) (snd p3)) (find (fun p => Nat.eqb (fst p) k) l1) (find (fun p => Nat.eqb (fst p) k) l2) (find (fun p => Nat.eqb (fst p) k) l3).
Proof.
  induction l1 as [|p1 l1 IH]; intros [|p2 l2] [|p3 l3] E1 E2 H; try discriminate; [exact I|].
  cbn in E1, E2. injection E1 as E1 E1'. injection E2 as E2 E2'. cbn. rewrite E1, E2.
  destruct (Nat.eqb (fst p3) k); [exact (H 0%nat _ _ _ eq_refl eq_refl eq_refl)|].
  apply IH; [exact E1'|exact E2'|]. intros i. exact (H (S i)).
Qed.
Lemma nth_rev {A} (l : list A) i x : nth_error (rev l) i = Some x -> nth_error l (length l - S i) = Some x.
Proof.
  intros H. assert (L : (i < length l)%nat).
  { rewrite <- rev_length. apply nth_error_Some. congruence. }
  rewrite (nth_error_nth' (rev l) x) in H by (rewrite rev_length; exact L). injection H as H.
  rewrite rev_nth in H by exact L. rewrite (nth_error_nth' l x) by lia. now f_equal.
Qed.
Section Schemes.
Variables (a1 : salgo K1) (a2 : salgo K2) (a3 : salgo K3).
Hypothesis A : arel a1 a2 a3.
Lemma ssource_of_rel k : orel trel (ssource_of K1 a1 k) (ssource_of K2 a2 k) (ssource_of K3 a3 k).
Proof.
  destruct A as [_ _ _ _ _ _ _ _ _ (S1 & S2 & S3) _]. unfold ssource_of.
  assert (L1 : length (sa_source K1 a1) = length (sa_source K3 a3)) by (rewrite <- (map_length fst), S1, map_length; reflexivity).
  assert (L2 : length (sa_source K2 a2) = length (sa_source K3 a3)) by (rewrite <- (map_length fst), S2, map_length; reflexivity).
  pose proof (find_three k (rev (sa_source K1 a1)) (rev (sa_source K2 a2)) (rev (sa_source K3 a3))) as F.
  rewrite !map_rev, S1, S2 in F. specialize (F eq_refl eq_refl).
  assert (H : forall i p1 p2 p3, nth_error (rev (sa_source K1 a1)) i = Some p1 -> nth_error (rev (sa_source K2 a2)) i = Some p2 -> nth_error (rev (sa_source K3 a3)) i = Some p3 -> trel (snd p1) (snd p2) (snd p3)).
  { intros i p1 p2 p3 H1 H2 H3. apply nth_rev in H1, H2, H3. rewrite L1 in H1. rewrite L2 in H2. exact (S3 _ _ _ _ H1 H2 H3). }
  specialize (F H). destruct (find _ (rev (sa_source K1 a1))), (find _ (rev (sa_source K2 a2))), (find _ (rev (sa_source K3 a3))); cbn in *; auto.
Qed.
Lemma neg_rel : rel_un (fun x : K1 => ropp x) (fun x : K2 => ropp x) (fun x : K3 => ropp x).
Proof. intros x y z H. now apply rel_opp. Qed.
Lemma source_rel : prel (swith_source K1 a1) (swith_source K2 a2) (swith_source K3 a3).
Proof.
  pose proof ssource_of_rel as SR. destruct A as [[N1 N2] _ _ _ _ _ _ _ _ (S1 & S2 & _) HD].
  assert (P : prel (ssource K1 a1) (ssource K2 a2) (ssource K3 a3)).
  { unfold ssource. rewrite N1, N2. apply prel_assign. intros k. specialize (SR k).
    destruct (ssource_of K1 a1 k), (ssource_of K2 a2 k), (ssource_of K3 a3 k); try contradiction; [|constructor].
    apply srel_add; [constructor|]. apply srel_mul; [now constructor|]. apply srel_sub; [constructor|exact SR]. }
  unfold swith_source. destruct (sa_source K1 a1), (sa_source K2 a2), (sa_source K3 a3); try discriminate; [constructor|exact P].
Qed.
Lemma Tu_rel i j : srel (yTu K1 a1 i j) (yTu K2 a2 i j) (yTu K3 a3 i j).
Proof. apply srel_sub; [constructor|apply (ar_Tu _ _ _ A)]. Qed.
Lemma Tmu_rel i j : srel (yTmu K1 a1 i j) (yTmu K2 a2 i j) (yTmu K3 a3 i j).
Proof. apply srel_sub; [intros; constructor; [exact neg_rel|constructor]|apply (ar_Tu _ _ _ A)]. Qed.
Lemma Mu_rel i j : srel (yMu K1 a1 i j) (yMu K2 a2 i j) (yMu K3 a3 i j).
Proof.
  destruct A as [[N1 N2] _ _ HM _ _ _ _ _ _ _]. unfold yMu. rewrite N1, N2. apply srel_mm; [exact Tu_rel|]. intros. constructor. apply HM.
Qed.
Lemma invMu_rel i j : srel (yinvMu K1 a1 i j) (yinvMu K2 a2 i j) (yinvMu K3 a3 i j).
Proof.
  destruct A as [[N1 N2] _ _ _ HM _ _ _ _ _ _]. unfold yinvMu. rewrite N1, N2. apply srel_mm; [|exact Tmu_rel]. intros. constructor. apply HM.
Qed.
Lemma f2m_rel s1 s2 s3 : (forall k, srel (s1 k) (s2 k) (s3 k)) -> prel (sf2m K1 a1 s1) (sf2m K2 a2 s2) (sf2m K3 a3 s3).
Proof.
  intros H. pose proof Mu_rel as MU. destruct A as [[N1 N2] [C1 C2] [D1 D2] HM _ _ _ _ HR _ _]. unfold sf2m. rewrite N1, N2, C1, C2, D1, D2.
  assert (PM : forall i, srel (ymv K1 (sa_n K3 a3) (yM K1 a1) s1 i) (ymv K2 (sa_n K3 a3) (yM K2 a2) s2 i) (ymv K3 (sa_n K3 a3) (yM K3 a3) s3 i)).
  { intros i. apply srel_mv; [|exact H]. intros. constructor. apply HM. }
  destruct (sa_relvel K1 a1), (sa_relvel K2 a2), (sa_relvel K3 a3); try contradiction; [|now apply prel_assign].
  apply prel_app; [now apply prel_assign|]. apply prel_app; apply prel_assign.
  - intros j. apply srel_sub; [constructor|apply HR].
  - intros i. now apply srel_mv.
Qed.
Lemma m2f_rel : prel (sm2f K1 a1) (sm2f K2 a2) (sm2f K3 a3).
Proof.
  pose proof invMu_rel as MU. destruct A as [[N1 N2] _ _ _ HM _ _ _ HR _ _]. unfold sm2f. rewrite N1, N2.
  destruct (sa_relvel K1 a1), (sa_relvel K2 a2), (sa_relvel K3 a3); try contradiction; apply prel_assign; intros i; apply srel_mv; auto; intros; constructor; auto.
Qed.
Lemma relaxation_rel : prel (srelaxation K1 a1) (srelaxation K2 a2) (srelaxation K3 a3).
Proof.
  pose proof Tu_rel as TU. destruct A as [[N1 N2] _ _ _ _ _ HE HS HR _ _]. unfold srelaxation. rewrite N1, N2. apply prel_assign. intros k.
  assert (SR : srel (ys K1 a1 k) (ys K2 a2 k) (ys K3 a3 k)) by (apply srel_sub; [constructor|apply HS]).
  assert (ER : forall k, srel (yeq K1 a1 k) (yeq K2 a2 k) (yeq K3 a3 k)) by (intros; apply srel_sub; [constructor|apply HE]).
  apply srel_add; apply srel_mul; auto; [|constructor|].
  - apply srel_minus; [constructor; exact rel1|exact SR].
  - destruct (sa_relvel K1 a1), (sa_relvel K2 a2), (sa_relvel K3 a3); try contradiction; auto. now apply srel_mv.
Qed.
Lemma restore_rel : prel (srestore K1 a1) (srestore K2 a2) (srestore K3 a3).
Proof.
  pose proof Mu_rel as MU. destruct A as [[N1 N2] [C1 C2] _ _ _ _ _ _ _ _ _]. unfold srestore. rewrite N1, N2, C1, C2.
  apply prel_assign. intros i. apply srel_mv; auto. constructor.
Qed.
Lemma pull_rel : prel (spull K1 a1) (spull K2 a2) (spull K3 a3).
Proof.
  pose proof restore_rel as RR. pose proof (ar_rel _ _ _ A) as HR. unfold spull.
  apply prel_app; [apply f2m_rel; constructor|]. apply prel_app; [exact source_rel|]. apply prel_app; [exact relaxation_rel|].
  apply prel_app; [|apply prel_app; [exact source_rel|exact m2f_rel]].
  destruct (sa_relvel K1 a1), (sa_relvel K2 a2), (sa_relvel K3 a3); try contradiction; [exact RR|constructor].
Qed.
Lemma base_rel : prel (sbase K1 a1) (sbase K2 a2) (sbase K3 a3).
Proof.
  unfold sbase. apply prel_app.
  { destruct A as [[N1 N2] _ _ _ _ _ _ _ _ _ _]. unfold stransport. rewrite N1, N2. apply prel_assign. constructor. }
  apply prel_app; [apply f2m_rel; constructor|]. apply prel_app; [exact source_rel|]. apply prel_app; [exact relaxation_rel|].
  apply prel_app; [exact source_rel|exact m2f_rel].
Qed.
End Schemes.

(* the boundary conditions *)
Section Boundary.
Variables (q1 : Q -> K1) (q2 : Q -> K2) (q3 : Q -> K3).
Variables (g : grid) (vel : nat -> list Z) (smm : nat -> nat).
Variables (e1 : blink -> nat -> K1) (e2 : blink -> nat -> K2) (e3 : blink -> nat -> K3).
Hypothesis Hq : forall q, rel (q1 q) (q2 q) (q3 q).
Hypothesis He : forall b k, rel (e1 b k) (e2 b k) (e3 b k).
Definition drel (F1 : dfield K1) (F2 : dfield K2) (F3 : dfield K3) : Prop := forall k x, rel (F1 k x) (F2 k x) (F3 k x).
Lemma bvalue_rel m b F1 F2 F3 : drel F1 F2 F3 ->
  rel (bvalue K1 q1 g vel smm e1 m F1 b) (bvalue K2 q2 g vel smm e2 m F2 b) (bvalue K3 q3 g vel smm e3 m F3 b).
Proof.
  intros H. destruct m; cbn; unfold at_; auto 10.
Qed.
Lemma bc_rel be ms : forall F1 F2 F3, drel F1 F2 F3 ->
  drel (boundary_condition K1 q1 g vel smm e1 be ms F1) (boundary_condition K2 q2 g vel smm e2 be ms F2) (boundary_condition K3 q3 g vel smm e3 be ms F3).
Proof.
  unfold boundary_condition. induction ms as [|[m l] ms IH]; intros F1 F2 F3 H; [exact H|]. cbn [fold_left fst snd]. apply IH.
  unfold bupdate.
  assert (X : forall l G1 G2 G3, drel G1 G2 G3 ->
    drel (fold_left (fun F b => dupd K1 F (b_k b) (b_cell b) (bvalue K1 q1 g vel smm e1 m (if reads_copy be m then F1 else F) b)) l G1)
         (fold_left (fun F b => dupd K2 F (b_k b) (b_cell b) (bvalue K2 q2 g vel smm e2 m (if reads_copy be m then F2 else F) b)) l G2)
         (fold_left (fun F b => dupd K3 F (b_k b) (b_cell b) (bvalue K3 q3 g vel smm e3 m (if reads_copy be m then F3 else F) b)) l G3)).
  { clear IH l. induction l as [|b l IH]; intros G1 G2 G3 HG; [exact HG|]. cbn [fold_left]. apply IH.
    intros k x. unfold dupd. destruct (Nat.eqb k (b_k b) && list_eqb x (b_cell b)); [|apply HG].
    apply bvalue_rel. destruct (reads_copy be m); assumption. }
  apply X. exact H.
Qed.
End Boundary.
End Three.

(* ------------------------------------------------- bounds *)
(* A bound of the absolute value of the exact result and a bound of the error of the computed
   one, in units of 2^-200; None: no bound (larger than 2^1000).  u = 2^-53. *)
Definition bounds := option (Z * Z).
Definition scale : Z := (2 ^ 200)%Z.
Definition limit : Z := (2 ^ 1200)%Z.
(* an operation whose exact result on the computed operands is at most b + e: one rounding *)
Definition rounded (b e : Z) : bounds :=
  let e' := (e + (b + e) / 2 ^ 53 + 2)%Z in if (b + e' <=? limit)%Z then Some (b, e') else None.
Definition bd_add (x y : bounds) : bounds := match x, y with
  | Some (b, e), Some (b', e') => rounded (b + b') (e + e')
  | _, _ => None
  end.
Definition bd_mul (x y : bounds) : bounds := match x, y with
  | Some (b, e), Some (b', e') => rounded (b * b' / scale + 1) ((b * e' + b' * e + e * e') / scale + 1)
  | _, _ => None
  end.
Definition bd_opp (x : bounds) : bounds := x.
Definition BD : arith := mkArith bounds (Some (0, 0)%Z) (Some (scale, 0%Z)) bd_add bd_mul bd_add bd_opp.
(* the real numbers *)
Definition RA : arith := mkArith R 0%R 1%R Rplus Rmult Rminus Ropp.

Open Scope R_scope.
Definition unit200 : R := bpow radix2 (-200).
(* x: computed in binary64, r: exact *)
Definition near (x : f64) (r : R) (z : bounds) : Prop := match z with
  | None => True
  | Some (b, e) => (0 <= b)%Z /\ (0 <= e)%Z /\ exists v, is64 x v /\ Rabs r <= IZR b * unit200 /\ Rabs (v - r) <= IZR e * unit200
  end.

Lemma unit_pos : 0 < unit200. Proof. apply bpow_gt_0. Qed.
Lemma scale_unit : IZR scale * unit200 = 1.
Proof. unfold scale, unit200. change (2 ^ 200)%Z with (Zpower radix2 200). rewrite IZR_Zpower by lia. rewrite <- bpow_plus. reflexivity. Qed.
Lemma limit_unit : IZR limit * unit200 = big64.
Proof. unfold limit, unit200, big64. change (2 ^ 1200)%Z with (Zpower radix2 1200). rewrite IZR_Zpower by lia. rewrite <- bpow_plus. reflexivity. Qed.
Lemma div_up a c : (0 < c)%Z -> IZR a <= (IZR (a / c) + 1) * IZR c.
Proof.
  intros Hc. rewrite <- plus_IZR, <- mult_IZR. apply IZR_le. pose proof (Z.div_mod a c ltac:(lia)). pose proof (Z.mod_pos_bound a c Hc). nia.
Qed.
Lemma eta_unit : eta64 <= unit200. Proof. apply bpow_le. lia. Qed.

Lemma near_round (x : f64) v r b e b' e' : (0 <= b)%Z -> (0 <= e)%Z -> Rabs r <= IZR b * unit200 -> Rabs (v - r) <= IZR e * unit200 ->
  (Rabs v <= big64 -> is64 x (rnd64 v)) -> rounded b e = Some (b', e') -> near x r (Some (b', e')).
Proof.
  intros Hb He Hr Hv Hx E. unfold rounded in E. set (d := ((b + e) / 2 ^ 53)%Z) in E.
  destruct (Z.leb_spec (b + (e + d + 2)) limit) as [L|L]; [|discriminate]. injection E as <- <-.
  assert (Hd : (0 <= d)%Z) by (apply Z.div_pos; lia).
  assert (Av : Rabs v <= IZR (b + e) * unit200).
  { replace v with (r + (v - r)) by ring. eapply Rle_trans; [apply Rabs_triang|]. rewrite plus_IZR. lra. }
  assert (Big : Rabs v <= big64).
  { eapply Rle_trans; [exact Av|]. rewrite <- limit_unit. apply Rmult_le_compat_r; [apply Rlt_le, unit_pos|]. apply IZR_le. lia. }
  split; [exact Hb|]. split; [lia|]. exists (rnd64 v). split; [now apply Hx|]. split; [exact Hr|].
  replace (rnd64 v - r) with ((rnd64 v - v) + (v - r)) by ring. eapply Rle_trans; [apply Rabs_triang|].
  pose proof (rnd_error v) as RE. pose proof eta_unit as EU.
  assert (D : ulp64 * Rabs v <= (IZR d + 1) * unit200).
  { unfold ulp64. apply Rle_trans with (bpow radix2 (-53) * (IZR (b + e) * unit200)).
    - apply Rmult_le_compat_l; [apply bpow_ge_0|exact Av].
    - rewrite <- Rmult_assoc. apply Rmult_le_compat_r; [apply Rlt_le, unit_pos|].
      pose proof (div_up (b + e) (2 ^ 53) ltac:(lia)) as U. fold d in U.
      apply Rmult_le_reg_r with (IZR (2 ^ 53)); [apply IZR_lt; lia|].
      replace (bpow radix2 (-53) * IZR (b + e) * IZR (2 ^ 53)) with (IZR (b + e)); [exact U|].
      change (2 ^ 53)%Z with (Zpower radix2 53). rewrite IZR_Zpower by lia.
      rewrite (Rmult_comm (bpow radix2 (-53))), Rmult_assoc, <- bpow_plus. simpl (bpow _ (-53 + 53)). ring. }
  rewrite !plus_IZR. simpl (IZR 2). pose proof unit_pos. nra.
Qed.

Lemma near_zero : near (r0 : B64) (r0 : RA) (r0 : BD).
Proof.
  cbn. split; [lia|]. split; [lia|]. exists 0. split.
  - exists (B754_zero false). repeat split; reflexivity.
  - rewrite Rminus_0_r, Rabs_R0, Rmult_0_l. split; apply Rle_refl.
Qed.
Lemma dyadic_exact m e : (Z.abs m < 2 ^ 53)%Z -> (-1074 <= e <= 900)%Z -> is64 (dyadic64 m e) (F2R (Float radix2 m e)).
Proof.
  intros Hm He. assert (G : generic_format radix2 fexp64 (F2R (Float radix2 m e))).
  { apply (generic_format_FLT radix2 (3 - 1024 - 53) 53). exists (Float radix2 m e); [reflexivity|exact Hm|cbn; lia]. }
  assert (B : Rabs (F2R (Float radix2 m e)) <= big64).
  { rewrite <- F2R_Zabs. apply Rle_trans with (F2R (Float radix2 (2 ^ 53) e)); [apply F2R_le; lia|].
    unfold F2R, big64. cbn [Fnum Fexp]. change (2 ^ 53)%Z with (Zpower radix2 53). rewrite IZR_Zpower by lia. rewrite <- bpow_plus. apply bpow_le. lia. }
  pose proof (dyadic_is64 m e B) as H. rewrite round_generic in H; [exact H|apply valid_rnd_N|exact G].
Qed.
Lemma near_one : near (r1 : B64) (r1 : RA) (r1 : BD).
Proof.
  cbn [r1 B64 RA BD]. split; [unfold scale; lia|]. split; [lia|]. exists 1. split.
  - change (of_Z64 1) with (dyadic64 1 0). replace 1 with (F2R (Float radix2 1 0)); [apply dyadic_exact; lia|]. unfold F2R. cbn. ring.
  - rewrite scale_unit, Rminus_eq_0, Rabs_R0, Rmult_0_l, Rabs_R1. split; apply Rle_refl.
Qed.
Lemma near_add (x : B64) (r : RA) (z : BD) x' r' z' : near x r z -> near x' r' z' -> near (radd (a := B64) x x') (radd (a := RA) r r') (radd (a := BD) z z').
Proof.
  destruct z as [[b e]|]; [|intros; exact I]. destruct z' as [[b' e']|]; [|intros; exact I]. cbn [radd B64 RA BD bd_add].
  intros (Hb & He & v & V1 & V2 & V3) (Hb' & He' & v' & V1' & V2' & V3').
  destruct (rounded (b + b') (e + e')) as [[b2 e2]|] eqn:E; [|exact I].
  refine (near_round _ (v + v') _ _ _ _ _ _ _ _ _ _ E); try lia.
  - rewrite plus_IZR. eapply Rle_trans; [apply Rabs_triang|]. lra.
  - rewrite plus_IZR. replace (v + v' - (r + r')) with ((v - r) + (v' - r')) by ring. eapply Rle_trans; [apply Rabs_triang|]. lra.
  - intros HB. now apply add_is64.
Qed.
Lemma near_sub (x : B64) (r : RA) (z : BD) x' r' z' : near x r z -> near x' r' z' -> near (rsub (a := B64) x x') (rsub (a := RA) r r') (rsub (a := BD) z z').
Proof.
  destruct z as [[b e]|]; [|intros; exact I]. destruct z' as [[b' e']|]; [|intros; exact I]. cbn [rsub B64 RA BD bd_add].
  intros (Hb & He & v & V1 & V2 & V3) (Hb' & He' & v' & V1' & V2' & V3').
  destruct (rounded (b + b') (e + e')) as [[b2 e2]|] eqn:E; [|exact I].
  refine (near_round _ (v - v') _ _ _ _ _ _ _ _ _ _ E); try lia.
  - rewrite plus_IZR. unfold Rminus. eapply Rle_trans; [apply Rabs_triang|]. rewrite Rabs_Ropp. lra.
  - rewrite plus_IZR. replace (v - v' - (r - r')) with ((v - r) + - (v' - r')) by ring. eapply Rle_trans; [apply Rabs_triang|]. rewrite Rabs_Ropp. lra.
  - intros HB. now apply sub_is64.
Qed.
Lemma near_mul (x : B64) (r : RA) (z : BD) x' r' z' : near x r z -> near x' r' z' -> near (rmul (a := B64) x x') (rmul (a := RA) r r') (rmul (a := BD) z z').
Proof.
  destruct z as [[b e]|]; [|intros; exact I]. destruct z' as [[b' e']|]; [|intros; exact I]. cbn [rmul B64 RA BD bd_mul].
  intros (Hb & He & v & V1 & V2 & V3) (Hb' & He' & v' & V1' & V2' & V3').
  destruct (rounded _ _) as [[b2 e2]|] eqn:E; [|exact I].
  assert (S0 : (0 < scale)%Z) by (unfold scale; lia). pose proof unit_pos as UP.
  assert (X : forall a, (0 <= a)%Z -> IZR a * unit200 * unit200 <= IZR (a / scale + 1) * unit200).
  { intros a Ha. apply Rmult_le_compat_r; [lra|]. pose proof (div_up a scale S0) as U. rewrite plus_IZR.
    replace (IZR (a / scale) + IZR 1) with ((IZR (a / scale) + 1) * IZR scale * unit200) by (rewrite Rmult_assoc, scale_unit; simpl; ring).
    apply Rmult_le_compat_r; [lra|exact U]. }
  assert (P1 : 0 <= IZR b) by (apply IZR_le; lia). assert (P2 : 0 <= IZR b') by (apply IZR_le; lia).
  assert (P3 : 0 <= IZR e) by (apply IZR_le; lia). assert (P4 : 0 <= IZR e') by (apply IZR_le; lia).
  refine (near_round _ (v * v') _ _ _ _ _ _ _ _ _ _ E).
  - pose proof (Z.div_pos (b * b') scale). nia.
  - pose proof (Z.div_pos (b * e' + b' * e + e * e') scale). nia.
  - rewrite Rabs_mult. eapply Rle_trans; [|apply X; nia]. rewrite mult_IZR.
    replace (IZR b * IZR b' * unit200 * unit200) with ((IZR b * unit200) * (IZR b' * unit200)) by ring.
    apply Rmult_le_compat; try apply Rabs_pos; assumption.
  - eapply Rle_trans; [|apply X; nia]. rewrite !plus_IZR, !mult_IZR.
    replace (v * v' - r * r') with (r * (v' - r') + (r' * (v - r) + (v - r) * (v' - r'))) by ring.
    eapply Rle_trans; [apply Rabs_triang|]. eapply Rle_trans; [apply Rplus_le_compat_l, Rabs_triang|]. rewrite !Rabs_mult.
    replace ((IZR b * IZR e' + IZR b' * IZR e + IZR e * IZR e') * unit200 * unit200)
      with ((IZR b * unit200) * (IZR e' * unit200) + ((IZR b' * unit200) * (IZR e * unit200) + (IZR e * unit200) * (IZR e' * unit200))) by ring.
    repeat apply Rplus_le_compat; apply Rmult_le_compat; try apply Rabs_pos; assumption.
  - intros HB. now apply mul_is64.
Qed.
Lemma near_opp (x : B64) (r : RA) (z : BD) : near x r z -> near (ropp (a := B64) x) (ropp (a := RA) r) (ropp (a := BD) z).
Proof.
  destruct z as [[b e]|]; [|intros; exact I]. cbn [ropp B64 RA BD bd_opp near].
  intros (Hb & He & v & V1 & V2 & V3). split; [exact Hb|]. split; [exact He|]. exists (- v). split; [now apply opp_is64|].
  rewrite Rabs_Ropp. split; [exact V2|]. replace (- v - - r) with (- (v - r)) by ring. now rewrite Rabs_Ropp.
Qed.
