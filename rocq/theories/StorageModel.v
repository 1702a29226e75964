(* Model of pylbm/storage.py (class Array) and of the index reordering of
   pylbm/symbolic.py. *)
From Verif Require Import PyBase VelocityModel GridModel.
Open Scope Z_scope.

(* ------------------------------------------------------ layout ---------- *)
(* storage.py 102-105 (and swap, 222-226):
     out = [0] * len(l);  for i in range(len(l)): out[ind[i]] = l[i]          *)
Definition scatter {A : Type} (d : A) (ind : list nat) (l : list A) : list A :=
  fold_left (fun out p => upd out (fst p) (snd p)) (combine ind l) (repeat d (length l)).

(* Offset of the entry a of a C ordered array of the given shape. *)
Fixpoint rowmajor_from (acc : Z) (shape a : list Z) : Z :=
  match shape, a with
  | n :: shape', k :: a' => rowmajor_from (acc * n + k) shape' a'
  | _, _ => acc
  end.
Definition rowmajor (shape a : list Z) : Z := rowmajor_from 0 shape a.

Section Memory.
Context {V : Type} (zero : V).
(* The array object: the storage order, the shape of swaparray ([nv] + nspace)
   and the buffer.  60-121: the buffer has shape scatter ind tmpshape and is full
   of zeros; swaparray is the transposition by ind: entry k of swaparray is entry
   a of the buffer where a[ind[i]] = k[i]. *)
Record array := mkArray { a_ind : list nat; a_shape : list Z; a_buf : Z -> V }.
Definition array_new (ind : list nat) (shape : list Z) : array :=
  mkArray ind shape (fun _ => zero).
Definition offset (x : array) (k : list Z) : Z :=
  rowmajor (scatter 0 (a_ind x) (a_shape x)) (scatter 0 (a_ind x) k).
(* 126-131 and 133-145, for a full integer index in range *)
Definition getitem (x : array) (k : list Z) : V := a_buf x (offset x k).
Definition setitem (x : array) (k : list Z) (v : V) : array :=
  mkArray (a_ind x) (a_shape x)
    (fun o => if o =? offset x k then v else a_buf x o).
End Memory.

(* symbolic.py 84-110, set_order: [array[p] for p in np.argsort(priority)];
   None: IndexError.  argsort is modelled by an insertion sort of the positions. *)
Fixpoint arginsert (key : nat -> Z) (i : nat) (l : list nat) : list nat :=
  match l with
  | [] => [i]
  | j :: t => if key i <=? key j then i :: j :: t else j :: arginsert key i t
  end.
Definition argsort (p : list Z) : list nat :=
  fold_right (arginsert (fun i => nth i p 0)) [] (seq 0 (length p)).
Fixpoint gather {A : Type} (array : list A) (ps : list nat) : option (list A) :=
  match ps with
  | [] => Some []
  | p :: t => match nth_error array p, gather array t with
              | Some x, Some r => Some (x :: r)
              | _, _ => None
              end
  end.
(* "if priority": an empty list is false, the array is returned unchanged. *)
Definition set_order {A : Type} (array : list A) (priority : list nat) : option (list A) :=
  match priority with
  | [] => Some array
  | _ => gather array (argsort (map Z.of_nat priority))
  end.

(* Symbolic index of an access: the velocity number or a loop variable with a
   shift; the loop variables 0, 1, 2 are ix_, iy_, iz_. *)
Inductive sidx := SVel (k : Z) | SLoop (name : nat) (shift : Z).

(* symbolic.py 211-256 with three ranges (base.py 157-189): the loop variables in
   the order of the loops.  The range of the variable number d is the one of
   axis d: (vmax[d], n_d - vmax[d]). *)
Definition space_idx (sorder : list nat) : option (list nat) :=
  set_order [0; 1; 2]%nat (tl sorder).

(* symbolic.py 113-208, indexed(..., [nv] + space_index, velocities=...,
   priority=sorder) for the velocity number k whose shift is v. *)
Fixpoint add_shift (space_index : list nat) (v : list Z) {struct v} : option (list sidx) :=
  match v, space_index with
  | [], _ => Some []
  | c :: v', s :: t => match add_shift t v' with
                       | Some r => Some (SLoop s c :: r)
                       | None => None
                       end
  | _ :: _, [] => None
  end.
Definition indexed_velocity (sorder : list nat) (k : Z) (v : list Z) : option (list sidx) :=
  match space_idx sorder with
  | None => None
  | Some si => match add_shift si v with
               | None => None
               | Some l => set_order (SVel k :: l) sorder
               end
  end.

(* ------------------------------------------------------ ghost exchange -- *)
(* One axis of the process grid: number of cells, of processes, ghost width. *)
Record axis := mkAxis { ax_n : Z; ax_p : nat; ax_h : Z }.
Definition ax_lo (a : axis) (c : nat) : Z :=
  match region1 (ax_n a) (ax_p a) c with Some (r0, _) => r0 | None => 0 end.
Definition ax_hi (a : axis) (c : nat) : Z :=
  match region1 (ax_n a) (ax_p a) c with Some (_, r1) => r1 | None => 0 end.
(* 78-86: number of cells stored by the process, ghosts included. *)
Definition ax_size (a : axis) (c : nat) : Z := ax_hi a c - ax_lo a c + 2 * ax_h a.

(* 233-241: neighbours in a periodic cartesian grid, coordinate along the axis. *)
Definition nbr_low (a : axis) (c : nat) : nat := Z.to_nat ((Z.of_nat c - 1) mod Z.of_nat (ax_p a)).
Definition nbr_high (a : axis) (c : nat) : nat := Z.to_nat ((Z.of_nat c + 1) mod Z.of_nat (ax_p a)).

(* A message: coordinate (along the axis) of the other process, tag, start of
   the slab; all slabs of axis d have width vmax[d] and cover the other axes. *)
Record msg := mkMsg { m_peer : nat; m_tag : Z; m_start : Z }.
(* 243-244 *)
Definition send_tag (k : nat) : Z := nth k [0; 1; 2; 3; 4; 5] (-1).
Definition recv_tag (k : nat) : Z := nth k [1; 0; 3; 2; 5; 4] (-1).
(* 249-303, 331-363 *)
Definition sends (d : nat) (a : axis) (c : nat) : list msg :=
  [ mkMsg (nbr_low a c) (send_tag (2 * d)) (ax_h a);
    mkMsg (nbr_high a c) (send_tag (2 * d + 1)) (ax_size a c - 2 * ax_h a) ].
Definition recvs (d : nat) (a : axis) (c : nat) : list msg :=
  [ mkMsg (nbr_low a c) (recv_tag (2 * d)) 0;
    mkMsg (nbr_high a c) (recv_tag (2 * d + 1)) (ax_size a c - ax_h a) ].

Section Exchange.
Context {V : Type}.
Variable axes : list axis.
(* state of all the processes: process coordinates, local index (ghosts
   included) -> value (all velocities together) *)
Definition pstate := list nat -> list Z -> V.
Definition dax : axis := mkAxis 0 1 0.

(* the send of process src (same other coordinates) matching a receive of c *)
Definition match_send (d : nat) (a : axis) (c src : nat) (tag : Z) : option msg :=
  find (fun s => (m_peer s =? c)%nat && (m_tag s =? tag)) (sends d a src).

(* the receive of process c which writes local index x along the axis, if any *)
Definition recv_of (d : nat) (a : axis) (c : nat) (x : Z) : option msg :=
  find (fun r => (m_start r <=? x) && (x <? m_start r + ax_h a)) (recvs d a c).

(* 331-367: exchange along axis d.  A receive without matching send would wait
   for ever; the value is then left (the theorems show it does not happen). *)
Definition exchange (d : nat) (A : pstate) : pstate := fun c i =>
  let a := nth d axes dax in
  let cd := nth d c 0%nat in
  let x := nth d i 0 in
  match recv_of d a cd x with
  | None => A c i
  | Some r => match match_send d a cd (m_peer r) (m_tag r) with
              | None => A c i
              | Some s => A (upd c d (m_peer r)) (upd i d (m_start s + (x - m_start r)))
              end
  end.
(* 330: for d in range(self.dim) *)
Definition update (A : pstate) : pstate :=
  fold_left (fun A d => exchange d A) (seq 0 (length axes)) A.

(* 370-420 and 311-327: the loo.py version, one process, all axes in turn; n is
   the local size along the axis. *)
Definition loopy_exchange (d : nat) (A : pstate) : pstate := fun c i =>
  let n := ax_size (nth d axes dax) 0 in
  let x := nth d i 0 in
  if x =? n - 1 then A c (upd i d 1)
  else if x =? 0 then A c (upd i d (n - 2))
  else A c i.
Definition loopy_update (A : pstate) : pstate :=
  fold_left (fun A d => loopy_exchange d A) (seq 0 (length axes)) A.
End Exchange.

(* storage.py 147-157, Array._in along one axis: slice(vmax, -vmax). *)
Definition in_slice {A : Type} (l : list A) (h : Z) : list A := py_slice l h (- h).
