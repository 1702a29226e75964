(* Model of Stability.__init__ and set_matrix (pylbm/analysis/stability.py 41-66, 100-104):
   the matrix whose spectrum is examined.  The entries are the numbers obtained once the
   parameters and the conserved moments have been substituted (73-78); the Jacobian is an
   oracle (SymPy). *)
From Verif Require Import PyBase LinAlg.

Section Stability.
Variable K : ring.
Open Scope ring_scope'.

(* 53-54: eye - diag(s), then [:, :len(consm)] += diag(s) * jacobian *)
Definition relax_mat_m (nc : nat) (s : vec K) (jac : mat K) : mat K := fun i j =>
  (idm i j - (if Nat.eqb i j then s i else 0) + (if Nat.ltb j nc then s i * jac i j else 0))%K.
(* 48-60; J is the Jacobian of EQ, frame holds scheme.Tu and scheme.Tmu when there is a
   relative velocity (Tu does not contain the conserved moments, the relative velocity being
   substituted afterwards: the Jacobian of Tu * EQ is Tu * J) *)
Definition relax_mat (n nc : nat) (s : vec K) (J : mat K) (frame : option (mat K * mat K)) : mat K :=
  match frame with
  | None => relax_mat_m nc s J
  | Some (Tu, Tmu) => mmul n (mmul n Tmu (relax_mat_m nc s (mmul n Tu J))) Tu
  end.
(* 62 *)
Definition relax_mat_f (n : nat) (M invM R : mat K) : mat K := mmul n (mmul n invM R) M.
(* 100-104: the column j is multiplied by exp(i xi . v_j) *)
Definition amplification (e : vec K) (R : mat K) : mat K := fun i j => (e j * R i j)%K.
End Stability.
Arguments relax_mat_m {K}. Arguments relax_mat {K}. Arguments relax_mat_f {K}. Arguments amplification {K}.
