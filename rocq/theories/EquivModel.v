(* Model of pylbm/analysis/equivalent_equation.py, first order part. *)
From Verif Require Import PyBase LinAlg.

Section Equiv.
Variable K : ring.
Open Scope ring_scope'.

(* What the constructor reads from the scheme: number of moments, of conserved
   moments (which are the first ones, scheme.py 383-421), M and invM, la, the
   velocities (component d of velocity k) and the equilibrium EQ as a function
   of the conserved moments (SymPy substitution lines 38-41). *)
Record escheme := mkES {
  es_n : nat; es_nc : nat;
  es_M : mat K; es_invM : mat K;
  es_la : K; es_vel : nat -> nat -> K;
  es_EQ : vec K -> vec K
}.
(* LA * sp.diag(all_vel[:, d])  (line 48) *)
Definition vd (s : escheme) (d : nat) : mat K :=
  fun k l => if Nat.eqb k l then es_la s * es_vel s k d else 0.
(* scheme.M * vd * scheme.invM  (line 49) *)
Definition Lambda (s : escheme) (d : nat) : mat K :=
  mmul (es_n s) (mmul (es_n s) (es_M s) (vd s d)) (es_invM s).
(* A * func + B * eq_func  (lines 58-65), A and B being the first nconsm rows of
   Lambda cut at nconsm, eq_func the rows of EQ from nconsm on.  The
   simplification (alltogether) keeps the value. *)
Definition coeff_order1 (s : escheme) (func : vec K) (d : nat) : vec K := fun i =>
  sum (es_nc s) (fun j => Lambda s d i j * func j) +
  sum (es_n s - es_nc s) (fun j => Lambda s d i (es_nc s + j)%nat * es_EQ s func (es_nc s + j)%nat).
End Equiv.
Arguments mkES {K}. Arguments es_n {K}. Arguments es_nc {K}. Arguments es_M {K}. Arguments es_invM {K}.
Arguments es_la {K}. Arguments es_vel {K}. Arguments es_EQ {K}.
Arguments coeff_order1 {K}. Arguments Lambda {K}. Arguments vd {K}.
