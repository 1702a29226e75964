(* Model of pylbm/hdf5.py: the HDF5 file written by the process of rank 0 from the data of
   all the processes, and the XDMF file which describes it. *)
From Verif Require Import PyBase GridModel StorageModel GlobalModel.
Open Scope Z_scope.

(* MPI: Get_coords(rank) of a cartesian communicator, row-major order of the ranks.
   mpi_topology.py 80 creates it without reordering, so the process of rank 0 of
   COMM_WORLD is the process of rank 0 of the cartesian communicator. *)
Definition nprod (P : list nat) : nat := fold_right Nat.mul 1%nat P.
Fixpoint cart_coords (P : list nat) (r : nat) : list nat :=
  match P with
  | [] => []
  | p :: t => ((r / nprod t) mod p)%nat :: cart_coords t (r mod nprod t)%nat
  end.

Section File.
Context {X V : Type} (zero : V).

(* What the process of rank 0 knows after set_grid: attributes region and global_size and
   the datasets x_0, x_1, ... *)
Record h5grid := mkGrid { r_region : list (list Z); r_size : list Z; r_coords : list (list X) }.

(* 110-113: region[i].insert(0, 0); for j in range(1, len): region[i][j] += region[i][j - 1] *)
Fixpoint cumulate (acc : Z) (l : list Z) : list Z :=
  match l with
  | [] => []
  | n :: t => (acc + n) :: cumulate (acc + n) t
  end.
Definition region_of (sizes : list Z) : list Z := 0 :: cumulate 0 sizes.
Definition zlen (c : list X) : Z := Z.of_nat (length c).

(* 106: np.asarray of a list of one dimensional arrays raises ValueError (NumPy >= 1.24;
   pyproject.toml asks for numpy >= 2) if they do not have the same length. *)
Definition homogeneous (l : list (list X)) : bool :=
  match l with
  | [] => true
  | c :: t => forallb (fun d => zlen d =? zlen c) t
  end.

(* set_grid, 57-121.  pieces: for each direction i, the coordinates owned by the processes,
   in the order of the process coordinate along i (Sub keeps the order of the ranks; the
   other process coordinates are those of the caller, here rank 0; all the processes with
   the same coordinate along i own the same piece).  None: an exception, IndexError of x[1]
   (80, 84, 88) in a process which owns less than two cells, or ValueError (106). *)
Definition set_grid (pieces : list (list (list X))) : option h5grid :=
  if forallb (forallb (fun c => 2 <=? zlen c)) pieces && forallb homogeneous pieces then
    Some (mkGrid (map (fun l => region_of (map zlen l)) pieces)
                 (map (fun l => fold_right Z.add 0 (map zlen l)) pieces)
                 (map (fun l => concat l) pieces))
  else None.

(* _get_slice, 123-139 *)
Definition get_slice (g : h5grid) (P : list nat) (r : nat) : list (Z * Z) * list Z :=
  let ind := map2 (fun reg c => (nth c reg 0, nth (S c) reg 0)) (r_region g) (cart_coords P r) in
  (rev ind, rev (map (fun s => snd s - fst s) ind)).

(* A dataset: its shape and its entries; create_dataset fills it with zeros. *)
Record dataset := mkDset { d_shape : list Z; d_val : list Z -> V }.
Definition create (shape : list Z) : dataset := mkDset shape (fun _ => zero).

Fixpoint in_slices (sl : list (Z * Z)) (i : list Z) : bool :=
  match sl, i with
  | [], [] => true
  | (a, b) :: sl', x :: i' => (a <=? x) && (x <? b) && in_slices sl' i'
  | _, _ => false
  end.
(* dset[slices + suffix] = block *)
Definition write (sl : list (Z * Z)) (suffix : list Z) (block : list Z -> V) (d : dataset) : dataset :=
  mkDset (d_shape d) (fun i =>
    let j := firstn (length sl) i in
    if in_slices sl j && list_eqb (skipn (length sl) i) suffix then block (map2 Z.sub j (map fst sl))
    else d_val d i).

(* The data of a process: shape and entries, in the order x, y, z. *)
Record data := mkData { t_shape : list Z; t_val : list Z -> V }.
Definition transpose (f : data) : list Z -> V := fun j => t_val f (rev j).
(* np.ascontiguousarray(data.T): the message, in the order of the memory (210-214, 248) *)
Definition message (f : data) : list V :=
  map (transpose f) (nested (map (zrange 0) (rev (t_shape f)))).
(* 176-178: a contiguous buffer of the given shape filled by the message; np.empty gives
   unknown entries to the cells which are not received. *)
Definition received (unknown : V) (shape : list Z) (m : list V) : list Z -> V :=
  fun j => nth (Z.to_nat (rowmajor shape j)) m unknown.
(* Recv(source, tag): the first message with this tag *)
Definition recv (mail : list (nat * list V)) (tag : nat) : list V :=
  match find (fun p => Nat.eqb (fst p) tag) mail with Some p => snd p | None => [] end.

Variable unknown : V.
Variable g : h5grid.
Variable P : list nat.

(* _set_dset, 141-178: f is the data of rank 0, mail r the messages sent by rank r *)
Definition set_dset (d : dataset) (f : data) (mail : nat -> list (nat * list V)) (index : nat) (with_index : bool)
  : dataset :=
  let suffix := if with_index then [Z.of_nat index] else [] in
  let d := write (fst (get_slice g P 0)) suffix (transpose f) d in
  fold_left (fun d i =>
    let (ind, buffer_size) := get_slice g P i in
    write ind suffix (received unknown buffer_size (recv (mail i) index)) d) (seq 1 (nprod P - 1)) d.

(* add_scalar, 180-214 *)
Definition add_scalar (f : nat -> data) : dataset :=
  set_dset (create (rev (r_size g))) (f 0%nat) (fun r => [(0%nat, message (f r))]) 0 false.

(* add_vector, 216-248: datas r is the list of the components on the process r *)
Definition add_vector (datas : nat -> list data) : dataset :=
  let mail r := combine (seq 0 (length (datas r))) (map message (datas r)) in
  fold_left (fun d p => set_dset d (snd p) mail (fst p) true)
    (combine (seq 0 (length (datas 0%nat))) (datas 0%nat)) (create (rev (r_size g) ++ [3])).

End File.
Arguments h5grid : clear implicits.
Arguments dataset : clear implicits.
Arguments data : clear implicits.

(* The XDMF file, save, 250-325: the numbers it contains.  The names of the datasets are
   those used in the HDF5 file and are not modelled. *)
Inductive topology := Mesh2D | Mesh3D.
Record xdmf := mkXdmf {
  x_topology : topology;                (* 265-284 *)
  x_elements : list Z;                  (* NumberOfElements, 272 and 282 *)
  x_geometry : list (list Z);           (* Dimensions of the coordinates, 285-294 *)
  x_scalar : list Z;                    (* Dimensions of a scalar field, 298-309 *)
  x_vector : list Z                     (* Dimensions of a vector field, 311-322 *)
}.
Definition save (size : list Z) : xdmf :=
  let dim := length size in
  mkXdmf (if Nat.eqb dim 2 then Mesh2D else Mesh3D) size (map (fun n => [n]) size) (rev size)
         (rev size ++ [Z.of_nat dim]).
