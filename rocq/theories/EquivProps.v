(* C49: first order flux of the equivalent equation. *)
From Verif Require Import PyBase LinAlg EquivModel.
From Coq Require Import Ring.

Section Props.
Variable K : ring.
Add Ring Kring2 : (rth K).
Open Scope ring_scope'.
Implicit Types s : escheme K.

(* feq is the equilibrium distribution of the conserved values W: its moments are
   W for the conserved ones and EQ(W) for the others. *)
Definition equilibrium_distribution s (W feq : vec K) : Prop :=
  (forall i, (i < es_nc s)%nat -> mvmul (es_n s) (es_M s) feq i = W i) /\
  (forall i, (es_nc s <= i < es_n s)%nat -> mvmul (es_n s) (es_M s) feq i = es_EQ s W i).

Lemma Lambda_apply s d f i : mvmul (es_n s) (Lambda s d) f i =
  sum (es_n s) (fun k => es_M s i k * (es_la s * es_vel s k d) * mvmul (es_n s) (es_invM s) f k).
Proof.
  unfold Lambda. rewrite <- mvmul_assoc. unfold mvmul at 1. apply sum_ext. intros k Hk. f_equal.
  unfold mmul. rewrite (sum_single K (es_n s) k); [|exact Hk|].
  - unfold vd. rewrite Nat.eqb_refl. reflexivity.
  - intros j Hj Hne. unfold vd. destruct (Nat.eqb_spec j k); [congruence|]. ring.
Qed.

Theorem C49_first_order_flux s (W feq : vec K) d i :
  (es_nc s <= es_n s)%nat -> is_id (es_n s) (mmul (es_n s) (es_invM s) (es_M s)) ->
  equilibrium_distribution s W feq ->
  coeff_order1 s W d i =
  sum (es_n s) (fun k => (es_vel s k d * es_la s) * (es_M s i k * feq k)).
Proof.
  intros Hle Hinv [Hc He].
  set (m := mvmul (es_n s) (es_M s) feq).
  assert (E : coeff_order1 s W d i = mvmul (es_n s) (Lambda s d) m i).
  { assert (Hsp : forall g : nat -> K, sum (es_n s) g = sum (es_nc s) g + sum (es_n s - es_nc s) (fun j => g (es_nc s + j)%nat)).
    { intros g. rewrite <- sum_split. f_equal. lia. }
    unfold coeff_order1. unfold mvmul. rewrite Hsp. f_equal; apply sum_ext; intros j Hj; f_equal.
    - symmetry. apply Hc. exact Hj.
    - symmetry. apply He. lia. }
  rewrite E, Lambda_apply. apply sum_ext. intros k Hk.
  unfold m. rewrite mvmul_inverse by assumption. ring.
Qed.

(* The equilibrium distribution exists: it is invM applied to the equilibrium
   moments, so the theorem speaks about every state. *)
Theorem C49_equilibrium_exists s W : inverse (es_n s) (es_M s) (es_invM s) -> (es_nc s <= es_n s)%nat ->
  exists feq, equilibrium_distribution s W feq.
Proof.
  intros [H _] Hle.
  exists (mvmul (es_n s) (es_invM s) (fun i => if Nat.ltb i (es_nc s) then W i else es_EQ s W i)).
  split; intros i Hi; rewrite mvmul_inverse; try assumption; try lia.
  - destruct (Nat.ltb_spec i (es_nc s)); [reflexivity|lia].
  - destruct (Nat.ltb_spec i (es_nc s)); [lia|reflexivity].
Qed.
End Props.

(* Three velocities 0, 1, -1 with a unimodular M, one conserved moment, la = 2. *)
Definition zl (l : list (list Z)) : mat Zring := fun i j => nth j (nth i l []) 0%Z.
Definition s_ex : escheme Zring :=
  @mkES Zring 3 1 (zl [[1;1;1];[0;1;1];[0;0;1]]%Z) (zl [[1;-1;0];[0;1;-1];[0;0;1]]%Z) 2%Z
    (fun k d => nth k [0;1;-1]%Z 0%Z)
    (fun W i => match i with 1%nat => (3 * W 0%nat)%Z | _ => (W 0%nat * W 0%nat)%Z end).
Example C49_ex_hyps : inverse 3 (es_M s_ex) (es_invM s_ex) /\
  equilibrium_distribution Zring s_ex (fun _ => 5%Z) (fun k => nth k [-10; -10; 25]%Z 0%Z).
Proof.
  split; [split; intros [|[|[|i]]] [|[|[|j]]] Hi Hj; try lia; reflexivity|].
  split; intros [|[|[|i]]]; cbn; intros H; try lia; reflexivity.
Qed.
Example C49_ex : coeff_order1 s_ex (fun _ => 5%Z) 0 0%nat = (-70)%Z.
Proof. reflexivity. Qed.

Print Assumptions C49_first_order_flux.
Print Assumptions C49_equilibrium_exists.
