(* C79: the arrays of the loo.py back end, with one copy on the host and one on the device. *)
From Verif Require Import PyBase VelocityModel GridModel StorageModel LinAlg AlgoModel GlobalModel GenModel StepGenModel LoopyModel.
Require Import Lia.
Open Scope Z_scope.

Section Mirror.
Context {I V : Type}.
(* What is expected: one array. *)
Fixpoint plain (l : list (mop I V)) (A : I -> V) : list (I -> V) * (I -> V) := match l with
  | [] => ([], A)
  | OGet :: l => (A :: fst (plain l A), snd (plain l A))
  | OSet P w :: l | OView P w :: l => plain l (fun i => if P i then w i else A i)
  | OCall g :: l => plain l (g A)
  end.
(* the array has been read since the last call of a kernel, whenever it is set; no write by a view *)
Fixpoint careful (read : bool) (l : list (mop I V)) : Prop := match l with
  | [] => True
  | OGet :: l => careful true l
  | OSet _ _ :: l => read = true /\ careful true l
  | OView _ _ :: l => False
  | OCall _ :: l => careful false l
  end.
(* A program which reads the array before it sets entries of it gets the values of one array. *)
Theorem C79_careful l : forall A, careful true l -> fst (mrun l (mnew A)) = fst (plain l A) /\ m_dev (snd (mrun l (mnew A))) = snd (plain l A).
Proof.
  assert (H : forall r s, careful r l -> (r = true -> m_cpu s = m_dev s) -> fst (mrun l s) = fst (plain l (m_dev s)) /\ m_dev (snd (mrun l s)) = snd (plain l (m_dev s))).
  { induction l as [|[|P w|P w|g] l IH]; intros r s C E; cbn [careful mrun plain fst snd mget] in *; [auto| | | |].
    - destruct (IH true (mkMirror (m_dev s) (m_dev s)) C (fun _ => eq_refl)) as [H1 H2]. cbn [m_dev] in *. now rewrite H1, H2.
    - destruct C as [-> C]. destruct (IH true (mset P w s) C (fun _ => eq_refl)) as [H1 H2]. rewrite H1, H2. unfold mset, write. cbn [m_dev]. now rewrite (E eq_refl).
    - destruct C.
    - apply (IH false (mcall g s) C). discriminate. }
  intros A C. now apply (H true (mnew A)).
Qed.
End Mirror.
Print Assumptions C79_careful.

(* Setting one entry after a call resets the other ones (sol.F_halo[k] = v after a time step), and
   what is written in a view is lost (sol.m[k][...] = v). *)
Theorem C79_set_refuted : exists (l : list (mop nat Z)) A, ~ In OGet l /\ (forall P w, ~ In (OView P w) l) /\ m_dev (snd (mrun l (mnew A))) 1%nat <> snd (plain l A) 1%nat.
Proof.
  exists [OCall (fun A i => A i + 1); OSet (Nat.eqb 0) (fun _ => 7)], (fun _ => 0). split; [intros [|[|[]]]; discriminate|]. split; [intros P w [|[|[]]]; discriminate|]. discriminate.
Qed.
Theorem C79_view_refuted : exists (l : list (mop nat Z)) A, (forall g, ~ In (OCall g) l) /\ map (fun f => f 0%nat) (fst (mrun l (mnew A))) <> map (fun f => f 0%nat) (fst (plain l A)).
Proof. exists [OGet; OView (Nat.eqb 0) (fun _ => 7); OGet], (fun _ => 0). split; [intros g [|[|[|[]]]]; discriminate|]. discriminate. Qed.
Print Assumptions C79_set_refuted.
Print Assumptions C79_view_refuted.
(* a careful program: call, read, set, read *)
Example C79_example : let l := [OCall (fun A i => A i + Z.of_nat i); OGet; OSet (Nat.eqb 0) (fun _ => 7); OGet] in
  careful true l /\ map (fun f => map f [0%nat; 1%nat; 2%nat]) (fst (mrun l (mnew (fun _ => 5)))) = [[5; 6; 7]; [7; 6; 7]].
Proof. split; [cbn; auto|reflexivity]. Qed.
