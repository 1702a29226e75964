(* Finite sums, vectors and matrices over an arbitrary commutative ring.  The
   floating point numbers of the code are replaced by the elements of such a ring. *)
From Verif Require Import PyBase.
From Coq Require Import Ring Ring_theory Setoid Sorting.Permutation Lia.

(* The operations alone, without any law: the floating point numbers are such a structure. *)
Record arith := mkArith {
  rcar :> Type;
  r0 : rcar; r1 : rcar;
  radd : rcar -> rcar -> rcar;
  rmul : rcar -> rcar -> rcar;
  rsub : rcar -> rcar -> rcar;
  ropp : rcar -> rcar
}.
Arguments r0 {a}. Arguments r1 {a}.
Arguments radd {a}. Arguments rmul {a}. Arguments rsub {a}. Arguments ropp {a}.
Record ring := ringOf {
  rar :> arith;
  rth : ring_theory (@r0 rar) (@r1 rar) (@radd rar) (@rmul rar) (@rsub rar) (@ropp rar) (@eq rar)
}.
Notation mkRing car zero one add mul sub opp th := (ringOf (mkArith car zero one add mul sub opp) th) (only parsing).
Declare Scope ring_scope'.
Delimit Scope ring_scope' with K.
Notation "a + b" := (radd a b) : ring_scope'.
Notation "a * b" := (rmul a b) : ring_scope'.
Notation "a - b" := (rsub a b) : ring_scope'.
Notation "- a" := (ropp a) : ring_scope'.
Notation "0" := r0 : ring_scope'.
Notation "1" := r1 : ring_scope'.

Definition Zring : ring := mkRing Z 0%Z 1%Z Z.add Z.mul Z.sub Z.opp Zth.

(* Vectors and matrices are functions; only the entries below the size matter. *)
Definition vec (K : arith) := nat -> K.
Definition mat (K : arith) := nat -> nat -> K.

Section Defs.
Variable K : arith.
Open Scope ring_scope'.

Definition sumL {A : Type} (l : list A) (g : A -> K) : K :=
  fold_right (fun x acc => (g x + acc)%K) 0%K l.
Definition sum (n : nat) (g : nat -> K) : K := sumL (seq 0 n) g.

Lemma sumL_ext {A} (l : list A) g h : (forall x, In x l -> g x = h x) -> sumL l g = sumL l h.
Proof.
  induction l as [|a l IH]; intros H; [reflexivity|]. unfold sumL in *. cbn.
  rewrite (H a) by (now left). rewrite IH by (intros; apply H; now right). reflexivity.
Qed.
Lemma sum_ext n g h : (forall i, (i < n)%nat -> g i = h i) -> sum n g = sum n h.
Proof. intros H. apply sumL_ext. intros i Hi. apply in_seq in Hi. apply H. lia. Qed.
Lemma sumL_map {A B} (f : A -> B) (l : list A) g : sumL (map f l) g = sumL l (fun x => g (f x)).
Proof. induction l as [|a l IH]; unfold sumL in *; cbn; [reflexivity|]. now rewrite IH. Qed.
(* matrix products, identity *)
Definition mvmul (n : nat) (M : mat K) (f : vec K) : vec K := fun i => sum n (fun j => M i j * f j)%K.
Definition mmul (n : nat) (M N : mat K) : mat K := fun i k => sum n (fun j => M i j * N j k)%K.
Definition idm : mat K := fun i j => if Nat.eqb i j then 1%K else 0%K.
Definition is_id (n : nat) (M : mat K) : Prop := forall i j, (i < n)%nat -> (j < n)%nat -> M i j = idm i j.
Definition inverse (n : nat) (M N : mat K) : Prop := is_id n (mmul n M N) /\ is_id n (mmul n N M).

Lemma mvmul_ext n M f g : (forall i, (i < n)%nat -> f i = g i) -> forall i, mvmul n M f i = mvmul n M g i.
Proof. intros H i. apply sum_ext. intros j Hj. now rewrite (H j Hj). Qed.
Lemma mmul_ext n M M' N N' i k : (forall j, (j < n)%nat -> M i j = M' i j) ->
  (forall j, (j < n)%nat -> N j k = N' j k) -> mmul n M N i k = mmul n M' N' i k.
Proof. intros H1 H2. apply sum_ext. intros j Hj. now rewrite H1, H2. Qed.
End Defs.
Arguments sumL {K A}. Arguments sum {K}. Arguments mvmul {K}. Arguments mmul {K}. Arguments idm {K}.
Arguments is_id {K}. Arguments inverse {K}.

Section Sums.
Variable K : ring.
Add Ring Kring : (rth K).
Open Scope ring_scope'.

Lemma sumL_zero {A} (l : list A) : sumL l (fun _ => 0%K : K) = 0%K.
Proof. induction l as [|a l IH]; [reflexivity|]. unfold sumL in *. cbn. rewrite IH. ring. Qed.
Lemma sumL_add {A} (l : list A) (g h : A -> K) : sumL l (fun x => g x + h x)%K = (sumL l g + sumL l h)%K.
Proof. induction l as [|a l IH]; unfold sumL in *; cbn; [ring|]. rewrite IH. ring. Qed.
Lemma sumL_mul_l {A} (l : list A) (c : K) (g : A -> K) : sumL l (fun x => c * g x)%K = (c * sumL l g)%K.
Proof. induction l as [|a l IH]; unfold sumL in *; cbn; [ring|]. rewrite IH. ring. Qed.
Lemma sumL_mul_r {A} (l : list A) (c : K) (g : A -> K) : sumL l (fun x => g x * c)%K = (sumL l g * c)%K.
Proof. induction l as [|a l IH]; unfold sumL in *; cbn; [ring|]. rewrite IH. ring. Qed.
Lemma sumL_swap {A B} (l : list A) (m : list B) (g : A -> B -> K) :
  sumL l (fun x => sumL m (fun y => g x y)) = sumL m (fun y => sumL l (fun x => g x y)).
Proof.
  induction l as [|a l IH].
  - unfold sumL at 1. cbn. symmetry. apply sumL_zero.
  - change (sumL (a :: l) (fun x => sumL m (fun y => g x y)))
      with (sumL m (fun y => g a y) + sumL l (fun x => sumL m (fun y => g x y)))%K.
    rewrite IH, <- sumL_add. apply sumL_ext. intros. reflexivity.
Qed.
Lemma sumL_app {A} (l m : list A) (g : A -> K) : sumL (l ++ m) g = (sumL l g + sumL m g)%K.
Proof. induction l as [|a l IH]; unfold sumL in *; cbn; [ring|]. rewrite IH. ring. Qed.
Lemma sumL_perm {A} (l m : list A) (g : A -> K) : Permutation l m -> sumL l g = sumL m g.
Proof.
  induction 1 as [|a l m H IH|a b l|l m p H IH H' IH']; unfold sumL in *; cbn;
    [reflexivity|now rewrite IH|ring|congruence].
Qed.
Lemma sumL_flat_map {A B} (f : A -> list B) (l : list A) (g : B -> K) :
  sumL (flat_map f l) g = sumL l (fun x => sumL (f x) g).
Proof. induction l as [|a l IH]; [reflexivity|]. cbn [flat_map]. rewrite sumL_app, IH. reflexivity. Qed.

Lemma sum_S n (g : nat -> K) : sum (S n) g = (sum n g + g n)%K.
Proof.
  unfold sum. rewrite seq_S, sumL_app. cbn. f_equal. ring.
Qed.
Lemma sum_split n m (g : nat -> K) : sum (n + m) g = (sum n g + sum m (fun i => g (n + i)%nat))%K.
Proof.
  unfold sum. rewrite seq_app, sumL_app. f_equal. cbn [plus].
  rewrite <- (Nat.add_0_r n) at 1.
  assert (H : forall a b k, seq (a + b) k = map (fun i => a + i)%nat (seq b k)).
  { clear. intros a b k. revert b. induction k as [|k IH]; intros b; cbn; [reflexivity|].
    f_equal. rewrite <- IH. f_equal. lia. }
  rewrite H, sumL_map. reflexivity.
Qed.
Lemma sum_zero n (g : nat -> K) : (forall i, (i < n)%nat -> g i = 0%K) -> sum n g = 0%K.
Proof. intros H. rewrite (sum_ext K n g (fun _ => 0%K) H). apply sumL_zero. Qed.
Lemma sum_single n k (g : nat -> K) : (k < n)%nat -> (forall i, (i < n)%nat -> i <> k -> g i = 0%K) -> sum n g = g k.
Proof.
  induction n as [|n IH]; intros Hk H; [lia|]. rewrite sum_S.
  destruct (Nat.eq_dec k n) as [->|Hne].
  - rewrite sum_zero; [ring|]. intros i Hi. apply H; lia.
  - rewrite IH by (try lia; intros; apply H; lia). rewrite (H n) by lia. ring.
Qed.

Lemma mvmul_assoc n (M N : mat K) f i : mvmul n M (mvmul n N f) i = mvmul n (mmul n M N) f i.
Proof.
  unfold mvmul, mmul, sum.
  rewrite (sumL_ext K _ _ (fun j => sumL (seq 0 n) (fun k => M i j * (N j k * f k))%K)).
  2:{ intros j _. rewrite <- sumL_mul_l. reflexivity. }
  rewrite sumL_swap. apply sumL_ext. intros k _. rewrite <- sumL_mul_r.
  apply sumL_ext. intros j _. ring.
Qed.
Lemma mmul_assoc n (M N P : mat K) i k : mmul n M (mmul n N P) i k = mmul n (mmul n M N) P i k.
Proof. apply (mvmul_assoc n M N (fun j => P j k) i). Qed.
Lemma mvmul_id n (M : mat K) f i : is_id n M -> (i < n)%nat -> mvmul n M f i = f i.
Proof.
  intros H Hi. unfold mvmul. rewrite (sum_single n i).
  - rewrite H by assumption. unfold idm. rewrite Nat.eqb_refl. ring.
  - exact Hi.
  - intros j Hj Hne. rewrite H by assumption. unfold idm.
    destruct (Nat.eqb_spec i j); [congruence|]. ring.
Qed.
Lemma mmul_idm_r n (M : mat K) i k : (k < n)%nat -> mmul n M idm i k = M i k.
Proof.
  intros Hk. unfold mmul. rewrite (sum_single n k); [|exact Hk|].
  - unfold idm. rewrite Nat.eqb_refl. ring.
  - intros j Hj Hne. unfold idm. destruct (Nat.eqb_spec j k); [congruence|]. ring.
Qed.
Lemma mmul_idm_l n (M : mat K) i k : (i < n)%nat -> mmul n idm M i k = M i k.
Proof.
  intros Hi. unfold mmul. rewrite (sum_single n i); [|exact Hi|].
  - unfold idm. rewrite Nat.eqb_refl. ring.
  - intros j Hj Hne. unfold idm. destruct (Nat.eqb_spec i j); [congruence|]. ring.
Qed.
Lemma mvmul_inverse n (M N : mat K) f i : is_id n (mmul n M N) -> (i < n)%nat -> mvmul n M (mvmul n N f) i = f i.
Proof. intros H Hi. rewrite mvmul_assoc. now apply mvmul_id. Qed.
End Sums.
