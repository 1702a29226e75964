(* Common definitions: the few pieces of Python semantics used by the models. *)
From Coq Require Export List ZArith Lia Bool Arith.
Export ListNotations.

(* Python  l[i]  on a list: negative indices count from the end, an index out
   of range raises IndexError (None). *)
Definition py_index {A : Type} (l : list A) (i : Z) : option A :=
  let n := Z.of_nat (length l) in
  if (0 <=? i)%Z then nth_error l (Z.to_nat i)
  else if (- n <=? i)%Z then nth_error l (Z.to_nat (n + i))
  else None.

(* Python  l[i] = x  for an index in range. *)
Fixpoint upd {A : Type} (l : list A) (i : nat) (x : A) : list A :=
  match l, i with
  | [], _ => []
  | _ :: t, 0 => x :: t
  | a :: t, S i' => a :: upd t i' x
  end.

(* list.index(x): position of the first occurrence, None for ValueError. *)
Fixpoint index_of {A : Type} (eqb : A -> A -> bool) (x : A) (l : list A) : option nat :=
  match l with
  | [] => None
  | a :: t => if eqb x a then Some 0
              else match index_of eqb x t with Some n => Some (S n) | None => None end
  end.
