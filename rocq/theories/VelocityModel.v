(* Model of pylbm/stencil.py, lines 23-373: cmp, permute_in_place, Velocity. *)
From Verif Require Import PyBase.
From Coq Require Import Sorting.Mergesort Orders.
Open Scope Z_scope.

(* stencil.py 23-27: cmp.  Python booleans are the integers 0 and 1. *)
Definition b2z (b : bool) : Z := if b then 1 else 0.
Definition pycmp (a b : Z) : Z := b2z (b <? a) - b2z (a <? b).

(* ------------------------------------------------------------------------ *)
(* stencil.py 30-102: permute_in_place, on lists of integers.               *)

(* 76: iterable.sort().  The builtin sort is modelled by insertion sort (the
   result of a sort of integers does not depend on the algorithm). *)
Fixpoint pyinsert (x : Z) (l : list Z) : list Z :=
  match l with
  | [] => [x]
  | y :: t => if x <=? y then x :: l else y :: pyinsert x t
  end.
Fixpoint pysort (l : list Z) : list Z :=
  match l with [] => [] | x :: t => pyinsert x (pysort t) end.

(* 87-102: the inner loop which decreases i, starting from i.  The comparison
   at line 89 is made before the test  i == first  at line 100.
   None: i reached first without success. *)
Fixpoint find_i (l : list Z) (i : nat) : option nat :=
  match nth_error l i, nth_error l (S i) with
  | Some a, Some b =>
      if a <? b then Some i
      else match i with O => None | S i' => find_i l i' end
  | _, _ => None
  end.

(* 90-92: j from last-1 downwards while not iterable[i] < iterable[j]. *)
Fixpoint find_j (l : list Z) (a : Z) (j : nat) : option nat :=
  match nth_error l j with
  | Some b => if a <? b then Some j
              else match j with O => None | S j' => find_j l a j' end
  | None => None
  end.

(* 94-97: swap the values at i and j, then reverse iterable[i+1:last]. *)
Definition swap_rev (l : list Z) (i j : nat) : option (list Z) :=
  match nth_error l i, nth_error l j with
  | Some a, Some b =>
      let l' := upd (upd l i b) j a in
      Some (firstn (S i) l' ++ rev (skipn (S i) l'))
  | _, _ => None
  end.

(* One turn of the outer loop 84-102. *)
Inductive next_res := NextDone (l : list Z) | NextYield (l : list Z) | NextError.
Definition next_perm (l : list Z) : next_res :=
  match find_i l (length l - 2) with
  | None => NextDone (rev l)                          (* 100-102 *)
  | Some i =>
      match nth_error l i with
      | None => NextError
      | Some a =>
          match find_j l a (length l - 1) with        (* 90-92 *)
          | None => NextError
          | Some j => match swap_rev l i j with
                      | Some l' => NextYield l'
                      | None => NextError
                      end
          end
      end
  end.

(* The outer loop; None when the fuel is exhausted or an index is wrong.
   Result: yielded lists and final content of the list. *)
Fixpoint perm_loop (fuel : nat) (l : list Z) : option (list (list Z) * list Z) :=
  match fuel with
  | O => None
  | S fuel' =>
      match next_perm l with
      | NextError => None
      | NextDone l' => Some ([], l')
      | NextYield l' =>
          match perm_loop fuel' l' with
          | Some (ys, lf) => Some (l' :: ys, lf)
          | None => None
          end
      end
  end.

(* 76-102. *)
Definition permute_in_place (fuel : nat) (l : list Z) : option (list (list Z) * list Z) :=
  let s := pysort l in
  if (length s <=? 1)%nat then Some ([s], s)          (* 77-80 *)
  else match perm_loop fuel s with
       | Some (ys, lf) => Some (s :: ys, lf)
       | None => None
       end.

(* ------------------------------------------------------------------------ *)
(* Velocity, 119-373.                                                        *)

(* 178-185: the table _R2, with _d = 1000. *)
Definition R2 : list (list (list Z)) :=
  [ [ [5; 6; 4]; [1000; 1000; 2]; [2; 5; 3] ];
    [ [3; 1000; 1000]; [1000; -1; 1000]; [1; 1000; 1000] ];
    [ [6; 7; 7]; [1000; 1000; 0]; [1; 4; 0] ] ].

Definition R2_get (a b c : Z) : option Z :=
  match py_index R2 a with
  | None => None
  | Some m => match py_index m b with
              | None => None
              | Some r => py_index r c
              end
  end.

(* 288-291: number of a 1D velocity. *)
Definition set_num1 (vx : Z) : Z :=
  let avx := Z.abs vx in 2 * avx - (if 0 <? vx then 1 else 0).

(* 292-303: number of a 2D velocity. *)
Definition set_num2 (vx vy : Z) : option Z :=
  let avx := Z.abs vx in
  let avy := Z.abs vy in
  let T1 := pycmp vx 0 in
  let T2 := pycmp vy 0 in
  let T3 := pycmp avx avy in
  let p := 2 * Z.max avx avy - 1 in
  let p := p * p in
  let q := 8 * Z.min avx avy * Z.abs T3 in
  match R2_get (T1 + 1) (T2 + 1) (T3 + 1) with
  | Some r => Some (p + q + r)
  | None => None
  end.

(* 332-335: coordinate of a 1D velocity; int() truncates toward zero.
   n/2 is exact for |n| < 2^53 (floats are not modelled). *)
Definition set_coord1 (num : Z) : Z :=
  let n := num + 1 in
  Z.quot ((1 - 2 * (n mod 2)) * n) 2.

(* 336-352: coordinates of a 2D velocity.  sqrt of a negative number raises
   ValueError.  int((sqrt(num)+1)/2) is the floor of an exact expression here.
   At 346  j = p/8  is not an integer in general; the lists hold 8 times their
   Python entries and int() at 350-351 is the truncated division by 8. *)
Definition set_coord2 (num : Z) : option (Z * Z) :=
  if num <? 0 then None else
  let n := (Z.sqrt num + 1) / 2 in
  let p := num - (2 * n - 1) * (2 * n - 1) in
  let get Lx Ly k :=
    match py_index Lx k, py_index Ly k with
    | Some a, Some b => Some (a, b)
    | _, _ => None
    end in
  if p <? 4 then get [n; 0; - n; 0] [0; n; 0; - n] p
  else if p <? 8 then get [n; - n; - n; n] [n; n; - n; - n] (p - 4)
  else
    let i := 8 * n in
    let j := p in
    match get [i; j; - j; - i; - i; - j; j; i] [j; i; i; j; - j; - i; - i; - j] (p mod 8) with
    | Some (a, b) => Some (Z.quot a 8, Z.quot b 8)
    | None => None
    end.

(* 305-325 and 354-372: the enumeration of the 3D velocities in the order in
   which [count] runs through them; N stands for the bound 100 of range(100).
   The body of _set_num stops at the first match, _set_coord at position num. *)
Definition zrange (n : nat) : list Z := map Z.of_nat (seq 0 n).

(* sign[0 : kk+1] with sign = [1, -1]; kk >= 0 here. *)
Definition signs (kk : Z) : list Z := firstn (Z.to_nat (kk + 1)) [1; -1].

(* The six arrangements at most of a triple; the fuel 28 exceeds the number of
   words of length 3 over 3 letters and is never exhausted. *)
Definition perms3 (k i j : Z) : list (list Z) :=
  match permute_in_place 28 [k; i; j] with Some (ys, _) => ys | None => [] end.

Definition triple := (Z * Z * Z)%type.

Definition signed (l : list Z) : list triple :=
  match l with
  | [kk; ii; jj] =>
      flat_map (fun pmk =>
      flat_map (fun pmi =>
      map (fun pmj => (pmk * kk, pmi * ii, pmj * jj))
        (signs jj)) (signs ii)) (signs kk)
  | _ => []
  end.

Definition shell3 (k : nat) : list triple :=
  flat_map (fun i =>
  flat_map (fun j =>
  flat_map signed (perms3 (Z.of_nat k) i j))
    (zrange (S (Z.to_nat i)))) (zrange (S k)).

Definition enum3 (N : nat) : list triple := flat_map shell3 (seq 0 N).

Definition triple_eqb (u v : triple) : bool :=
  let '(a, b, c) := u in let '(x, y, z) := v in (a =? x) && (b =? y) && (c =? z).

(* 304-326: None stands for the case where the loop ends without success: the
   call to log.error formats self.num = None and raises TypeError. *)
Definition set_num3 (N : nat) (v : triple) : option Z :=
  option_map Z.of_nat (index_of triple_eqb v (enum3 N)).

(* 353-373: None: the number is not reached (an error is logged and the
   coordinates stay None). *)
Definition set_coord3 (N : nat) (num : Z) : option triple :=
  if num <? 0 then None else nth_error (enum3 N) (Z.to_nat num).

(* A velocity object: dimension, number, coordinates (119-210).  The attributes
   vy and vz are None in lower dimension. *)
Record velocity := mkVel { vdim : Z; vnum : Z; vx : Z; vy : option Z; vz : option Z }.

(* 187-210: Velocity(vx=, vy=, vz=) with dim=None, num=None.
   None: the construction raises. *)
Definition vel_of_coord (x : Z) (y z : option Z) : option velocity :=
  match z with
  | Some z' =>
      match y with
      | Some y' => match set_num3 100 (x, y', z') with
                   | Some n => Some (mkVel 3 n x y z)
                   | None => None
                   end
      | None => None     (* vy=None never equals an integer: not found, TypeError *)
      end
  | None =>
      match y with
      | Some y' => match set_num2 x y' with
                   | Some n => Some (mkVel 2 n x y None)
                   | None => None
                   end
      | None => Some (mkVel 1 (set_num1 x) x None None)
      end
  end.

(* 187-210: Velocity(dim=, num=). *)
Definition vel_of_num (dim num : Z) : option velocity :=
  if dim =? 1 then Some (mkVel 1 num (set_coord1 num) None None)
  else if dim =? 2 then
    match set_coord2 num with
    | Some (a, b) => Some (mkVel 2 num a (Some b) None)
    | None => None
    end
  else if dim =? 3 then
    match set_coord3 100 num with
    | Some (a, b, c) => Some (mkVel 3 num a (Some b) (Some c))
    | None => None
    end
  else None.

(* 241-281: get_symmetric.  SymErr is the ValueError of 265-269; SymFail stands
   for a failure inside the constructor called at 276-281. *)
Inductive sym_res := SymErr | SymFail | SymOk (v : velocity).
Definition opp_opt (o : option Z) : option Z := option_map Z.opp o.
Definition lift_vel (o : option velocity) : sym_res :=
  match o with Some v => SymOk v | None => SymFail end.
Definition get_symmetric (v : velocity) (axis : option Z) : sym_res :=
  let svx := - vx v in
  let svy := opp_opt (vy v) in
  let svz := opp_opt (vz v) in
  match axis with
  | None => lift_vel (vel_of_coord svx svy svz)
  | Some a =>
      if (vdim v <=? a) || (a <? 0) then SymErr
      else if a =? 0 then lift_vel (vel_of_coord (vx v) svy svz)
      else if a =? 1 then lift_vel (vel_of_coord svx (vy v) svz)
      else lift_vel (vel_of_coord svx svy (vz v))
  end.
