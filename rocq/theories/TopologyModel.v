(* Model of the process grid (pylbm/mpi_topology.py 66-80, 137-185; options.py 26-52) and of the
   messages of pylbm/storage.py 228-303 at the level of the buffers.  The functions of MPI are those
   of its standard: Compute_dims is an oracle, the ranks of a Cartesian grid are in row major order
   and, since reorder is False, those of the communicator. *)
From Verif Require Import PyBase GridModel StorageModel.
Open Scope Z_scope.

(* ---- MpiTopology.__init__ ---- *)
Definition product (l : list nat) : nat := fold_right Nat.mul 1%nat l.
(* 73-79; the options are integers, 1 by default *)
Definition split_of (compute_dims : nat -> nat -> list nat) (size dim : nat) (npx npy npz : Z) : list Z :=
  firstn dim (if (npx =? npy) && (npy =? npz) && (npz =? 1) then map Z.of_nat (compute_dims size dim) else [npx; npy; npz]).
(* 80, Create_cart: an error (None) unless the numbers are positive and the grid has at most size processes *)
Definition create_cart (size : nat) (split : list Z) : option (list nat) :=
  if forallb (fun p => 1 <=? p) split && (product (map Z.to_nat split) <=? size)%nat then Some (map Z.to_nat split) else None.
(* Get_coords and Get_cart_rank; the grid is periodic (domain.py 377) *)
Fixpoint coords_of (dims : list nat) (rank : nat) : list nat := match dims with
  | [] => []
  | _ :: t => (rank / product t)%nat :: coords_of t (rank mod product t)
  end.
Fixpoint rank_of (dims : list nat) (coords : list Z) : nat := match dims, coords with
  | p :: t, c :: cs => (Z.to_nat (c mod Z.of_nat p) * product t + rank_of t cs)%nat
  | _, _ => 0%nat
  end.
(* 137-143; None: cartcomm is COMM_NULL, an error *)
Definition get_coords (dims : list nat) (rank : nat) : option (list nat) := if (rank <? product dims)%nat then Some (coords_of dims rank) else None.
(* the domain of a process: construct_mpi_topology, then get_region *)
Definition domain_of (compute_dims : nat -> nat -> list nat) (size dim : nat) (npx npy npz : Z) (sizes : list Z) (rank : nat) : option (list (Z * Z)) :=
  match create_cart size (split_of compute_dims size dim npx npy npz) with
  | None => None
  | Some dims => match get_coords dims rank with Some c => get_region sizes dims c | None => None end
  end.
(* storage.py 232-241: direction[i] -= 1, direction[i] += 1 *)
Definition move (c : list nat) (i : nat) (s : Z) : list Z := upd (map Z.of_nat c) i (Z.of_nat (nth i c 0%nat) + s).
Definition neighbors (dims : list nat) (rank : nat) : list nat :=
  let c := coords_of dims rank in flat_map (fun i => [rank_of dims (move c i (-1)); rank_of dims (move c i 1)]) (seq 0 (length dims)).

(* ---- mpi_topology.py 188-243, get_directions ---- np.repeat(v, n, axis=1) of a row repeats each
   element, axis=0 repeats the row *)
Definition common : list Z := [-1; 0; 1].
Definition each {A : Type} (n : nat) (l : list A) : list A := flat_map (fun x => repeat x n) l.
Definition rows {A : Type} (n : nat) (l : list A) : list A := concat (repeat l n).
Fixpoint columns (cs : list (list Z)) (n : nat) : list (list Z) := match cs with
  | [] => repeat [] n
  | c :: cs => map (fun p => fst p :: snd p) (combine c (columns cs n))
  end.
Definition get_directions (dim : nat) : option (list (list Z)) := match dim with
  | 1%nat => Some (columns [common] 3)
  | 2%nat => Some (columns [each 3 common; rows 3 common] 9)
  | 3%nat => Some (columns [each 9 common; each 3 (rows 3 common); rows 9 common] 27)
  | _ => None
  end.

(* ---- the messages in the buffers ---- *)
Definition zrange (n : Z) : list Z := map Z.of_nat (seq 0 (Z.to_nat n)).
Fixpoint indices (shape : list Z) : list (list Z) := match shape with
  | [] => [[]]
  | n :: t => flat_map (fun i => map (cons i) (indices t)) (zrange n)
  end.
Fixpoint add_list (x y : list Z) : list Z := match x, y with a :: x, b :: y => (a + b) :: add_list x y | _, _ => [] end.
(* Create_subarray(sizes, subsizes, starts), in the order of C: the offsets of the elements in the
   order in which they are sent or received *)
Definition sub_offsets (sizes subsizes starts : list Z) : list Z := map (fun i => rowmajor sizes (add_list i starts)) (indices subsizes).
Section Buffers.
Context {V : Type}.
Definition pack (offs : list Z) (buf : Z -> V) : list V := map buf offs.
Definition unpack (offs : list Z) (msg : list V) (buf : Z -> V) : Z -> V :=
  fold_left (fun b p o => if o =? fst p then snd p else b o) (combine offs msg) buf.
End Buffers.
(* storage.py 249-297: the slab of width h along the axis d of the space from start on; ind: the
   storage order, shape: [nv] + nspace *)
Definition slab_type (ind : list nat) (shape : list Z) (d : nat) (h start : Z) : list Z :=
  sub_offsets (scatter 0 ind shape) (scatter 0 ind (upd shape (S d) h)) (scatter 0 ind (upd (repeat 0 (length shape)) (S d) start)).
(* Isend of the array y, Irecv in the array x *)
Definition transmit {V : Type} (d : nat) (h sstart rstart : Z) (y x : array (V := V)) : array :=
  mkArray (a_ind x) (a_shape x)
    (unpack (slab_type (a_ind x) (a_shape x) d h rstart) (pack (slab_type (a_ind y) (a_shape y) d h sstart) (a_buf y)) (a_buf x)).
