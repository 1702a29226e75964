(* Model of the floating-point numbers used by the generated kernels and by pylbm/domain.py:
   IEEE 754 binary64 with rounding to the nearest, ties to even (Coq.Floats.SpecFloat, which
   defines the operations on integers, without axioms). *)
From Coq Require Import QArith.
From Coq.Floats Require Import SpecFloat.
From Verif Require Import PyBase StorageModel LinAlg.
Open Scope Z_scope.

Notation prec64 := 53.
Notation emax64 := 1024.
Definition f64 := spec_float.
Definition add64 : f64 -> f64 -> f64 := SFadd prec64 emax64.
Definition sub64 : f64 -> f64 -> f64 := SFsub prec64 emax64.
Definition mul64 : f64 -> f64 -> f64 := SFmul prec64 emax64.
Definition div64 : f64 -> f64 -> f64 := SFdiv prec64 emax64.
(* float(n) of an integer, m * 2^e *)
Definition of_Z64 (n : Z) : f64 := binary_normalize prec64 emax64 n 0 false.
Definition dyadic64 (m e : Z) : f64 := binary_normalize prec64 emax64 m e false.
(* the numbers with + - * : an arithmetic, not a ring *)
Definition B64 : arith := mkArith f64 (S754_zero false) (of_Z64 1) add64 mul64 sub64 SFopp.
(* the exact value of a finite number *)
Definition to_Q (x : f64) : option Q := match x with
  | S754_zero _ => Some 0%Q
  | S754_finite s m e =>
      let z := if s then Z.neg m else Z.pos m in
      Some (if 0 <=? e then inject_Z (z * 2 ^ e) else Qmake z (Z.to_pos (2 ^ (- e))))
  | _ => None
  end.

(* np.linspace(a, b, num) for a float a, b and num > 1 (numpy/core/function_base.py, of NumPy,
   not in /repo): arange(0, num) * ((b - a) / (num - 1)) + a, the last one replaced by b. *)
Definition linspace64 (a b : f64) (num : Z) : list f64 :=
  map (fun i => if Z.of_nat i =? num - 1 then b else add64 (mul64 (of_Z64 (Z.of_nat i)) (div64 (sub64 b a) (of_Z64 (num - 1)))) a)
      (seq 0 (Z.to_nat num)).
(* domain.py 423-435, one direction: halo_beg = dx * (h - 0.5), the region is (r0, r1). *)
Definition coords_halo64 (lo dx : f64) (r0 r1 h : Z) : list f64 :=
  let halo_beg := mul64 dx (sub64 (of_Z64 h) (dyadic64 1 (-1))) in
  linspace64 (sub64 (add64 lo (mul64 dx (of_Z64 r0))) halo_beg) (add64 (add64 lo (mul64 dx (of_Z64 r1))) halo_beg) (r1 - r0 + 2 * h).
(* the coordinate of the cell number i (ghost cells included) of the process c of an axis *)
Definition coord64 (lo dx : f64) (x : axis) (c : nat) (i : Z) : f64 :=
  nth (Z.to_nat i) (coords_halo64 lo dx (ax_lo x c) (ax_hi x c) (ax_h x)) S754_nan.

(* elements/circle.py 114-117: (x - cx)**2 + (y - cy)**2 <= radius**2 *)
Definition circle64 (cx cy radius x y : f64) : bool :=
  let v0 := sub64 x cx in let v1 := sub64 y cy in
  SFleb (add64 (mul64 v0 v0) (mul64 v1 v1)) (mul64 radius radius).
