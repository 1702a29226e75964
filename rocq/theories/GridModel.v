(* Model of pylbm/mpi_topology.py (partition of the cells) and of
   pylbm/domain.py, create_coords (385-442). *)
From Verif Require Import PyBase.
From Coq Require Import QArith Qround Qabs.
Open Scope Z_scope.

(* mpi_topology.py 82-105, get_region_indices_: the loop over range(nproc);
   b2z (r > i) is the addition of a Python boolean. *)
Fixpoint region_loop (n nproc : Z) (i : Z) (k : nat) (acc : Z) : list Z :=
  match k with
  | O => []
  | S k' => let next := acc + n / nproc + (if (n mod nproc) >? i then 1 else 0) in
            next :: region_loop n nproc (i + 1) k' next
  end.
Definition region_indices (n : Z) (nproc : nat) : list Z :=
  0 :: region_loop n (Z.of_nat nproc) 0 nproc 0.

(* mpi_topology.py 145-177, get_region, one axis: the process has coordinate c. *)
Definition region1 (n : Z) (nproc c : nat) : option (Z * Z) :=
  match nth_error (region_indices n nproc) c, nth_error (region_indices n nproc) (S c) with
  | Some a, Some b => Some (a, b)
  | _, _ => None
  end.

(* All axes: sizes, process grid and process coordinates are lists of the same
   length (the dimension). *)
Fixpoint get_region (sizes : list Z) (split coords : list nat) : option (list (Z * Z)) :=
  match sizes, split, coords with
  | [], [], [] => Some []
  | n :: ns, p :: ps, c :: cs =>
      match region1 n p c, get_region ns ps cs with
      | Some r, Some rs => Some (r :: rs)
      | _, _ => None
      end
  | _, _, _ => None
  end.

(* Python slice l[a:b] with negative indices counted from the end. *)
Definition norm_slice (len i : Z) : Z :=
  if i <? 0 then Z.max 0 (len + i) else Z.min i len.
Definition py_slice {A : Type} (l : list A) (a b : Z) : list A :=
  let len := Z.of_nat (length l) in
  let a' := norm_slice len a in
  let b' := norm_slice len b in
  firstn (Z.to_nat (b' - a')) (skipn (Z.to_nat a') l).

(* Python round(): to the nearest integer, ties to even. *)
Definition py_round (q : Q) : Z :=
  let f := Qfloor q in
  let d := (q - inject_Z f)%Q in
  if Qle_bool d (1 # 2) then
    if Qeq_bool d (1 # 2) then (if Z.even f then f else f + 1) else f
  else f + 1.
(* float.is_integer *)
Definition is_integer (q : Q) : bool := Qeq_bool q (inject_Z (Qfloor q)).
Definition Qltb (a b : Q) : bool := negb (Qle_bool b a).

(* domain.py 393-416: number of cells along one direction; None: sys.exit(). *)
Definition global_size1 (lo hi dx : Q) : option Z :=
  let gs := ((hi - lo) / dx)%Q in
  if is_integer gs then Some (Qfloor gs)
  else
    let dummy := py_round gs in
    let diff_n := (inject_Z dummy - gs)%Q in
    if Qltb (Qabs diff_n) dx then Some dummy else None.

(* np.linspace(a, b, num) *)
Definition linspace (a b : Q) (num : Z) : list Q :=
  map (fun i => if num =? 1 then a
                else (a + inject_Z (Z.of_nat i) * ((b - a) / inject_Z (num - 1)))%Q)
      (seq 0 (Z.to_nat num)).

(* domain.py 424-435, one direction: lo = phys_box[k][0], region (r0, r1), halo h. *)
Definition coords_halo1 (lo dx : Q) (r0 r1 h : Z) : list Q :=
  let halo_beg := (dx * (inject_Z h - (1 # 2)))%Q in
  linspace (lo + dx * inject_Z r0 - halo_beg)%Q
           (lo + dx * inject_Z r1 + halo_beg)%Q
           (r1 - r0 + 2 * h).
(* domain.py 438-442 *)
Definition coords1 (lo dx : Q) (r0 r1 h : Z) : list Q :=
  py_slice (coords_halo1 lo dx r0 r1 h) h (if h >? 0 then - h else 1).
