(* Model of the polynomial tests of pylbm/analysis/stability.py: Schur, simple von Neumann
   and von Neumann polynomials, and the characteristic polynomial of the amplification
   matrix.  The complex numbers are the elements of any closed field with a norm
   (numClosedFieldType of the mathcomp library: the algebraic numbers, or the complex
   numbers over a real closed field); arithmetic is exact.  A polynomial is the sequence of
   its coefficients in ascending order, as in the code. *)
From mathcomp Require Import all_ssreflect all_algebra.
Set Implicit Arguments.
Unset Strict Implicit.
Unset Printing Implicit Defensive.
Import Order.TTheory GRing.Theory Num.Theory.
Local Open Scope ring_scope.

Section Tests.
Variable C : numClosedFieldType.
Implicit Types p : seq C.

(* operator_star, 353-365 *)
Definition operator_star p : seq C :=
  let d := (size p).-1 in [seq (p`_(d - k))^* | k <- iota 0 d.+1].

(* operator_circ, 368-375 *)
Definition operator_circ p : seq C :=
  let d := (size p).-1 in
  let pstar := operator_star p in
  [seq pstar`_0 * p`_k - p`_0 * pstar`_k | k <- iota 1 d].

(* operator_deriv, 378-383 *)
Definition operator_deriv p : seq C :=
  let d := (size p).-1 in [seq k%:R * p`_k | k <- iota 1 d].

(* is_S, 386-396.  The fuel bounds the recursion; size p is enough as each call removes one
   coefficient.  p[-1] is last 0 p. *)
Fixpoint is_S_fuel (n : nat) p : bool :=
  if size p == 2%N then `|p`_0| < `|p`_1| else
  match n with
  | 0 => false
  | n.+1 => if `|p`_0| < `|last 0 p| then is_S_fuel n (operator_circ p) else false
  end.
Definition is_S p : bool := is_S_fuel (size p) p.

(* TPV, 18 *)
Variable tpv : C.

(* is_svN, 399-412 *)
Fixpoint is_svN_fuel (n : nat) p : bool :=
  if size p == 2%N then `|p`_0| <= `|p`_1| + tpv else
  match n with
  | 0 => false
  | n.+1 =>
      let pcirc := operator_circ p in
      if `|p`_0| < `|last 0 p| then is_svN_fuel n pcirc
      else if all (fun c => `|c| < tpv) pcirc then is_S (operator_deriv p)
      else false
  end.
Definition is_svN p : bool := is_svN_fuel (size p) p.

(* is_vN, 415-428 *)
Fixpoint is_vN_fuel (n : nat) p : bool :=
  if size p == 2%N then `|p`_0| <= `|p`_1| + tpv else
  match n with
  | 0 => false
  | n.+1 =>
      let pcirc := operator_circ p in
      if `|p`_0| < `|last 0 p| then is_vN_fuel n pcirc
      else if all (fun c => `|c| < tpv) pcirc then is_vN_fuel n (operator_deriv p)
      else false
  end.
Definition is_vN p : bool := is_vN_fuel (size p) p.

(* algo_cohn_schur, 431-477: the algorithm of Faddeev and Le Verrier.  leverrier k returns
   Gk and the list charpoly (descending order) after the turn k of the loop. *)
Fixpoint leverrier n (G : 'M[C]_n) (k : nat) : 'M[C]_n * seq C :=
  match k with
  | 0 => (G, [:: 1; - \tr G])
  | k'.+1 =>
      let (Gk, charpoly) := leverrier G k' in
      let Gk' := G *m (Gk + (charpoly`_k)%:M) in
      (Gk', rcons charpoly (- \tr Gk' / (k.+1)%:R))
  end.
(* for k in range(1, d - 1) with d = n + 1: n - 1 turns; then charpoly.reverse() *)
Definition charpoly n (G : 'M[C]_n) : seq C := rev (leverrier G n.-1).2.
Definition algo_cohn_schur n (G : 'M[C]_n) : bool * bool := (is_svN (charpoly G), is_vN (charpoly G)).

(* is_stable_l2 of Stability.eigenvalues, 117-121: 0 (in), 1 (on), 2 (out) *)
Definition is_stable_l2 (tests : seq (bool * bool)) : nat :=
  let r := if all (fun t => t.1) tests then 0%N else 1%N in
  if ~~ all (fun t => t.2) tests then 2%N else r.

(* set_matrix, 100-104: np.exp(velocities.dot(wave_vector))[np.newaxis, :] * relax_mat_f_num;
   e j stands for exp(i xi . v_j) *)
Definition set_matrix n (e : 'I_n -> C) (R : 'M[C]_n) : 'M[C]_n := \matrix_(i, j) (e j * R i j).
End Tests.
