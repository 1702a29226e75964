(* Derivations, congruences modulo powers of the time step, and the expansion of a
   time step. *)
From Verif Require Import PyBase LinAlg EquivModel EquivProps Equiv2Model.
From Coq Require Import Ring Setoid Morphisms.

Section Derivations.
Variable K : ring.
Add Ring Kring_eq2 : (rth K).
Open Scope ring_scope'.

Record derivation (dl : K -> K) : Prop := {
  d_add : forall a b, dl (a + b) = dl a + dl b;
  d_mul : forall a b, dl (a * b) = dl a * b + a * dl b
}.
Section One.
Variable dl : K -> K.
Hypothesis H : derivation dl.
Lemma d_0 : dl 0 = 0.
Proof.
  pose proof (d_add _ H 0 0) as E. replace (0 + 0 : K) with (0 : K) in E by ring.
  replace (dl 0) with (dl 0 + dl 0 - dl 0) by ring. rewrite <- E. ring.
Qed.
Lemma d_1 : dl 1 = 0.
Proof.
  pose proof (d_mul _ H 1 1) as E. replace (1 * 1 : K) with (1 : K) in E by ring.
  assert (E2 : dl 1 = dl 1 + dl 1) by (rewrite E at 1; ring).
  replace (dl 1) with (dl 1 + dl 1 - dl 1) by ring. rewrite <- E2. ring.
Qed.
Lemma d_opp a : dl (- a) = - dl a.
Proof.
  assert (E : dl a + dl (- a) = 0) by (rewrite <- (d_add _ H); replace (a + - a) with (0 : K) by ring; apply d_0).
  replace (dl (- a)) with (dl a + dl (- a) - dl a) by ring. rewrite E. ring.
Qed.
Lemma d_sub a b : dl (a - b) = dl a - dl b.
Proof. replace (a - b) with (a + - b) by ring. rewrite (d_add _ H), d_opp. ring. Qed.
Lemma d_const c a : dl c = 0 -> dl (c * a) = c * dl a.
Proof. intros E. rewrite (d_mul _ H), E. ring. Qed.
Lemma d_sumL {A} (l : list A) (g : A -> K) : dl (sumL l g) = sumL l (fun x => dl (g x)).
Proof. induction l as [|a l IH]; unfold sumL in *; cbn; [apply d_0|]. now rewrite (d_add _ H), IH. Qed.
Lemma d_sum n (g : nat -> K) : dl (sum n g) = sum n (fun x => dl (g x)).
Proof. apply d_sumL. Qed.
Lemma d_half h : h + h = 1 -> dl h = 0.
Proof.
  intros E. assert (E2 : dl h + dl h = 0) by (rewrite <- (d_add _ H), E; apply d_1).
  replace (dl h) with ((h + h) * dl h) by (rewrite E; ring). replace ((h + h) * dl h) with (h * (dl h + dl h)) by ring.
  rewrite E2. ring.
Qed.
End One.

(* sums *)
Lemma sum_add n (g h : nat -> K) : sum n (fun i => g i + h i) = sum n g + sum n h.
Proof. apply sumL_add. Qed.
Lemma sum_mul_l n c (g : nat -> K) : sum n (fun i => c * g i) = c * sum n g.
Proof. apply sumL_mul_l. Qed.
Lemma sum_opp n (g : nat -> K) : sum n (fun i => - g i) = - sum n g.
Proof. rewrite (sum_ext K _ _ (fun i => - (1) * g i)) by (intros; ring). rewrite sum_mul_l. ring. Qed.
Lemma sum_sub n (g h : nat -> K) : sum n (fun i => g i - h i) = sum n g - sum n h.
Proof. rewrite (sum_ext K _ _ (fun i => g i + - h i)) by (intros; ring). rewrite sum_add, sum_opp. ring. Qed.
Lemma sum_swap n m (g : nat -> nat -> K) : sum n (fun i => sum m (fun j => g i j)) = sum m (fun j => sum n (fun i => g i j)).
Proof. apply sumL_swap. Qed.

(* congruence modulo t^p *)
Variable t : K.
Fixpoint pw (p : nat) : K := match p with O => 1 | S p => t * pw p end.
Definition cong (p : nat) (a b : K) : Prop := exists c, a = b + pw p * c.
Global Instance cong_equiv p : Equivalence (cong p).
Proof.
  split.
  - intros a. exists 0. ring.
  - intros a b [c ->]. exists (- c). ring.
  - intros a b c [x ->] [y ->]. exists (x + y). ring.
Qed.
Global Instance cong_add p : Proper (cong p ==> cong p ==> cong p) radd.
Proof. intros a a' [x ->] b b' [y ->]. exists (x + y). ring. Qed.
Global Instance cong_sub p : Proper (cong p ==> cong p ==> cong p) rsub.
Proof. intros a a' [x ->] b b' [y ->]. exists (x - y). ring. Qed.
Global Instance cong_opp p : Proper (cong p ==> cong p) ropp.
Proof. intros a a' [x ->]. exists (- x). ring. Qed.
Global Instance cong_mul p : Proper (cong p ==> cong p ==> cong p) rmul.
Proof. intros a a' [x ->] b b' [y ->]. exists (a' * y + x * b' + pw p * x * y). ring. Qed.
Lemma cong_sum p n (g h : nat -> K) : (forall i, (i < n)%nat -> cong p (g i) (h i)) -> cong p (sum n g) (sum n h).
Proof.
  induction n as [|n IH]; intros H; [reflexivity|]. rewrite !sum_S. rewrite IH by (intros; apply H; lia).
  rewrite (H n) by lia. reflexivity.
Qed.
Lemma cong_t p a b : cong p a b -> cong (S p) (t * a) (t * b).
Proof. intros [c ->]. exists c. cbn [pw]. ring. Qed.
Lemma cong_weak p a b : cong (S p) a b -> cong p a b.
Proof. intros [c ->]. exists (t * c). cbn [pw]. ring. Qed.
Lemma cong_cancel p a b : (forall x, t * x = 0 -> x = 0) -> cong (S p) (t * a) (t * b) -> cong p a b.
Proof.
  intros R [c E]. exists c. assert (Z : t * (a - (b + pw p * c)) = 0).
  { replace (t * (a - (b + pw p * c))) with (t * a - (t * b + t * pw p * c)) by ring. cbn [pw] in E. rewrite E. ring. }
  apply R in Z. replace a with (b + pw p * c + (a - (b + pw p * c))) by ring. rewrite Z. ring.
Qed.
Lemma d_pw dl p : derivation dl -> dl t = 0 -> dl (pw p) = 0.
Proof.
  intros H Ht. induction p as [|p IH]; cbn [pw]; [now apply d_1|]. rewrite (d_mul _ H), Ht, IH. ring.
Qed.
Lemma d_cong dl p a b : derivation dl -> dl t = 0 -> cong p a b -> cong p (dl a) (dl b).
Proof.
  intros H Ht [c ->]. exists (dl c). rewrite (d_add _ H), (d_mul _ H), d_pw by assumption. ring.
Qed.

(* ------------------------------------------------------------- the scheme -- *)
Variable s : escheme K.
Variables (inv_s S_ : vec K) (half : K) (jac : mat K).
Variable dm : nat.
Variable dx : nat -> K -> K.
Variable dt : K -> K.
Variable W : vec K.
Notation n := (es_n s).
Notation nc := (es_nc s).
Notation nn := (es_n s - es_nc s)%nat.
Notation G := (fun j => es_EQ s W (nc + j)%nat).

(* d is a constant for all the derivations *)
Definition constant (c : K) : Prop := (forall d, dx d c = 0) /\ dt c = 0.
Record frame : Prop := {
  f_dx : forall d, derivation (dx d);
  f_dt : derivation dt;
  f_xx : forall d e a, dx d (dx e a) = dx e (dx d a);
  f_tx : forall d a, dt (dx d a) = dx d (dt a);
  f_t : constant t;
  f_M : forall i j, (i < n)%nat -> (j < n)%nat -> constant (es_M s i j) /\ constant (es_invM s i j);
  f_la : constant (es_la s);
  f_vel : forall k d, constant (es_vel s k d);
  f_nc : (nc <= n)%nat;
  f_inv : inverse n (es_M s) (es_invM s);
  f_half : half + half = 1;
  f_S : forall j, (j < nn)%nat -> S_ j * inv_s j = 1;
  (* the Jacobian is the one of the equilibrium *)
  f_jac : forall j, (j < nn)%nat -> (forall d, dx d (G j) = sum nc (fun i => jac j i * dx d (W i))) /\
                                    dt (G j) = sum nc (fun i => jac j i * dt (W i))
}.
Hypothesis F : frame.
Let Fdx := f_dx F.
Let Fdt := f_dt F.

Lemma const_sum m (g : nat -> K) : (forall i, (i < m)%nat -> constant (g i)) -> constant (sum m g).
Proof.
  intros Hg. split; [intros d; rewrite (d_sum _ (Fdx d))|rewrite (d_sum _ Fdt)]; apply sum_zero; intros i Hi; now apply Hg.
Qed.
Lemma const_mul a b : constant a -> constant b -> constant (a * b).
Proof.
  intros [A1 A2] [B1 B2]. split; [intros d; rewrite (d_mul _ (Fdx d)), A1, B1; ring|rewrite (d_mul _ Fdt), A2, B2; ring].
Qed.
Lemma const_Lambda d i j : (i < n)%nat -> (j < n)%nat -> constant (Lambda s d i j).
Proof.
  intros Hi Hj. unfold Lambda, mmul. apply const_sum. intros k Hk. apply const_mul; [|now apply (f_M F)].
  apply const_sum. intros l Hl. apply const_mul; [now apply (f_M F)|]. unfold vd. destruct (Nat.eqb l k).
  - apply const_mul; [apply (f_la F)|apply (f_vel F)].
  - split; [intros e; now apply d_0|now apply d_0].
Qed.

(* Sum over the axes of Lambda_d times the derivative along axis d *)
Definition Lop (m : vec K) : vec K := fun i => sum dm (fun d => sum n (fun j => Lambda s d i j * dx d (m j))).
Lemma Lop_cong p m m' i : (forall j, (j < n)%nat -> cong p (m j) (m' j)) -> cong p (Lop m i) (Lop m' i).
Proof.
  intros H. apply cong_sum. intros d _. apply cong_sum. intros j Hj. apply cong_mul; [reflexivity|].
  apply d_cong; [apply Fdx|apply (f_t F)|now apply H].
Qed.
Lemma Lop_ext m m' i : (forall j, (j < n)%nat -> m j = m' j) -> Lop m i = Lop m' i.
Proof. intros H. apply sum_ext. intros d _. apply sum_ext. intros j Hj. now rewrite H. Qed.
Lemma Lop_add m m' i : Lop (fun j => m j + m' j) i = Lop m i + Lop m' i.
Proof.
  unfold Lop. rewrite <- sum_add. apply sum_ext. intros d _. rewrite <- sum_add. apply sum_ext. intros j Hj.
  rewrite (d_add _ (Fdx d)). ring.
Qed.
Lemma Lop_t m i : Lop (fun j => t * m j) i = t * Lop m i.
Proof.
  unfold Lop. rewrite <- sum_mul_l. apply sum_ext. intros d _. rewrite <- sum_mul_l. apply sum_ext. intros j Hj.
  rewrite (d_const _ (Fdx d)) by apply (f_t F). ring.
Qed.
Lemma Lop_opp m i : Lop (fun j => - m j) i = - Lop m i.
Proof.
  unfold Lop. rewrite <- sum_opp. apply sum_ext. intros d _. rewrite <- sum_opp. apply sum_ext. intros j Hj.
  rewrite (d_opp _ (Fdx d)). ring.
Qed.
Lemma Lop_dt m i : (i < n)%nat -> dt (Lop m i) = Lop (fun j => dt (m j)) i.
Proof.
  intros Hi. unfold Lop. rewrite (d_sum _ Fdt). apply sum_ext. intros d _. rewrite (d_sum _ Fdt). apply sum_ext. intros j Hj.
  rewrite (d_const _ Fdt) by (now apply const_Lambda). now rewrite (f_tx F).
Qed.

(* the derivative along the velocities *)
Definition along (g : vec K) : vec K := fun k => sum dm (fun d => es_la s * es_vel s k d * dx d (g k)).
Lemma along_moments g i : (i < n)%nat -> mvmul n (es_M s) (along g) i = Lop (mvmul n (es_M s) g) i.
Proof.
  intros Hi. unfold Lop.
  rewrite (sum_ext K dm (fun d => sum n (fun j => Lambda s d i j * dx d (mvmul n (es_M s) g j)))
                        (fun d => sum n (fun k => es_M s i k * (es_la s * es_vel s k d) * dx d (g k)))).
  2:{ intros d _. change (sum n (fun j => Lambda s d i j * dx d (mvmul n (es_M s) g j))) with
        (mvmul n (Lambda s d) (fun j => dx d (mvmul n (es_M s) g j)) i).
      rewrite Lambda_apply. apply sum_ext. intros k Hk. f_equal.
      rewrite (mvmul_ext K n _ _ (mvmul n (es_M s) (fun j => dx d (g j)))).
      - apply mvmul_inverse; [apply (f_inv F)|exact Hk].
      - intros j Hj. unfold mvmul. rewrite (d_sum _ (Fdx d)). apply sum_ext. intros l Hl.
        apply (d_const _ (Fdx d)). now apply (f_M F). }
  rewrite sum_swap. unfold mvmul. apply sum_ext. intros k Hk. unfold along. rewrite <- sum_mul_l. apply sum_ext. intros d _. ring.
Qed.

(* Taylor expansion of g at the distance - delta_t * la * v *)
Definition taylor (g g' : vec K) : Prop := forall k, (k < n)%nat ->
  cong 3 (g' k) (g k - t * along g k + half * (t * (t * along (along g) k))).
Lemma taylor_moments g g' i : taylor g g' -> (i < n)%nat ->
  let m := mvmul n (es_M s) g in
  cong 3 (mvmul n (es_M s) g' i) (m i - t * Lop m i + half * (t * (t * Lop (Lop m) i))).
Proof.
  intros H Hi m. unfold mvmul at 1.
  rewrite (cong_sum 3 n _ (fun k => es_M s i k * (g k - t * along g k + half * (t * (t * along (along g) k))))).
  2:{ intros k Hk. apply cong_mul; [reflexivity|now apply H]. }
  rewrite (sum_ext K n _ (fun k => es_M s i k * g k - t * (es_M s i k * along g k) + half * (t * (t * (es_M s i k * along (along g) k))))).
  2:{ intros k Hk. ring. }
  rewrite sum_add, sum_sub, !sum_mul_l. fold (mvmul n (es_M s) g i). fold (mvmul n (es_M s) (along g) i).
  fold (mvmul n (es_M s) (along (along g)) i). rewrite !along_moments by exact Hi. fold m.
  rewrite (Lop_ext (mvmul n (es_M s) (along g)) (Lop m)); [reflexivity|]. intros j Hj. now apply along_moments.
Qed.
End Derivations.
