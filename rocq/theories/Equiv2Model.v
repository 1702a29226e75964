(* Model of pylbm/analysis/equivalent_equation.py, second order part. *)
From Verif Require Import PyBase LinAlg EquivModel.

Section Equiv2.
Variable K : ring.
Open Scope ring_scope'.
(* inv_s (line 52): 1 / s for the non conserved moments (numbered from 0); half:
   1/2; jac (line 91): the Jacobian of EQ[nconsm:] with respect to the conserved
   moments, computed by SymPy and taken at the current values. *)
Variable s : escheme K.
Variable inv_s : vec K.
Variable half : K.
Variable jac : mat K.
Notation nc := (es_nc s).
Notation nn := (es_n s - es_nc s)%nat.

(* The blocks of Lambda (57-63) *)
Definition bA (d : nat) : mat K := fun i j => Lambda s d i j.
Definition bB (d : nat) : mat K := fun i j => Lambda s d i (nc + j)%nat.
Definition bC (d : nat) : mat K := fun i j => Lambda s d (nc + i)%nat j.
Definition bD (d : nat) : mat K := fun i j => Lambda s d (nc + i)%nat (nc + j)%nat.
(* sigma = diag(inv_s) - eye / 2  (53) *)
Definition sigma (j : nat) : K := inv_s j - half.

(* An expression linear in the first derivatives of the conserved moments is given
   by its coefficients: form d jc is the one of Derivative(func[jc], space[d]).
   doit() applies the chain rule to the derivatives of A * func + B * eq_func. *)
Definition form := nat -> nat -> K.
(* gamma_1 (67-68) and phi1 (70-73) *)
Definition gamma1 (i : nat) : form := fun d jc => bA d i jc + sum nn (fun j => bB d i j * jac j jc).
Definition phi1 (j : nat) : form := fun d jc => - bC d j jc - sum nn (fun l => bD d j l * jac l jc).
(* delta1 = jac * gamma_1; phi1_ = phi1 + delta1  (93-95) *)
Definition phi1_ (j : nat) : form := fun d jc => phi1 j d jc + sum nc (fun l => jac j l * gamma1 l d jc).
(* sphi1 = B * sigma * phi1_ and its coefficients (96-106): coeff_order2[dim][i][ic, jc] *)
Definition coeff_order2 (dim i ic jc : nat) : K := sum nn (fun j => bB dim ic j * sigma j * phi1_ j i jc).
(* __str__, 131: B[i][j] = - Delta_t * coeff_order2[i][j] *)
Definition printed_B (delta_t : K) (i j ic jc : nat) : K := - (delta_t * coeff_order2 i j ic jc).
End Equiv2.
Arguments coeff_order2 {K}. Arguments printed_B {K}. Arguments phi1_ {K}. Arguments phi1 {K}. Arguments gamma1 {K}.
Arguments sigma {K}. Arguments bA {K}. Arguments bB {K}. Arguments bC {K}. Arguments bD {K}.
