(* Model of pylbm/container.py (the arrays m, F and Fnew of a simulation and the
   storage order given to the generated code), of the constructors of
   pylbm/storage.py and of AOS.reshape.
   Simplification: NumpyContainer has Fnew = F, the same object; here the two fields
   hold equal values, the effect of the sharing on the step is in WholeModel.v.  The
   symbols of the conserved moments (set_conserved_moments) and the OpenCL copies of
   LoopyContainer are left out. *)
From Verif Require Import PyBase VelocityModel GridModel StorageModel.
Open Scope Z_scope.

(* Position meant by the Python index s in a list of n entries (a negative index
   counts from the end); None: IndexError. *)
Definition py_index (n : nat) (s : Z) : option nat :=
  if (0 <=? s) && (s <? Z.of_nat n) then Some (Z.to_nat s)
  else if (- Z.of_nat n <=? s) && (s <? 0) then Some (Z.to_nat (s + Z.of_nat n))
  else None.
Fixpoint py_indices (n : nat) (l : list Z) : option (list nat) :=
  match l with
  | [] => Some []
  | s :: t => match py_index n s, py_indices n t with
              | Some j, Some r => Some (j :: r)
              | _, _ => None
              end
  end.

(* storage.py 102-105: shape = [0] * len(tmpshape)
     for i in range(self.dim + 1): shape[ind[i]] = int(tmpshape[i])
   None: IndexError (of ind[i] or of shape[ind[i]]). *)
Fixpoint fill (out : list Z) (ind tmpshape : list Z) : option (list Z) :=
  match tmpshape with
  | [] => Some out
  | x :: l => match ind with
              | [] => None
              | s :: ind' => match py_index (length out) s with
                             | None => None
                             | Some j => fill (upd out j x) ind' l
                             end
              end
  end.

Fixpoint repeated (l : list nat) : bool :=
  match l with
  | [] => false
  | a :: t => existsb (Nat.eqb a) t || repeated t
  end.
(* storage.py 118, np.transpose(self.array_cpu, self.index) for an array of n axes:
   the axes; None: ValueError (wrong number of axes, axis out of bounds or repeated). *)
Definition transpose_axes (n : nat) (ind : list Z) : option (list nat) :=
  if Nat.eqb (length ind) n then
    match py_indices n ind with
    | Some p => if repeated p then None else Some p
    | None => None
    end
  else None.

Section Containers.
Context {V : Type} (zero : V).

(* storage.py 60-121.  shape: [nv] + region_size.  The result: the shape of the buffer
   array_cpu, and the array.  93-96 only write a message when the length is wrong. *)
Definition array_init (shape : list Z) (sorder : option (list Z)) : option (list Z * array (V := V)) :=
  let ind := match sorder with
             | None => map Z.of_nat (seq 0 (length shape))
             | Some s => s
             end in
  match fill (repeat 0 (length shape)) ind shape with
  | None => None
  | Some bshape => match transpose_axes (length shape) ind with
                   | None => None
                   | Some p => Some (bshape, array_new zero p shape)
                   end
  end.

(* storage.py 453-466 and 505-518: the orders of SOA and AOS; dim = len(gspace_size) *)
Definition soa_order (dim : nat) : list Z := map Z.of_nat (seq 0 (dim + 1)).
Definition aos_order (dim : nat) : list Z := Z.of_nat dim :: map Z.of_nat (seq 0 dim).

(* simulation.py 165-171 *)
Inductive backend := NUMPY | CYTHON | LOOPY.
(* container.py 66, 76, 96: default_type *)
Definition default_order (b : backend) (dim : nat) : list Z :=
  match b with NUMPY => soa_order dim | _ => aos_order dim end.
(* container.py 70-72, 88-90: _set_sorder, when self.sorder is false *)
Definition set_sorder (b : backend) (dim : nat) : list Z :=
  match b with
  | NUMPY => map Z.of_nat (seq 0 (dim + 1))
  | _ => [Z.of_nat dim] ++ map Z.of_nat (seq 0 dim)
  end.

Record container := mkContainer {
  c_m : list Z * array (V := V); c_F : list Z * array (V := V);
  c_Fnew : list Z * array (V := V); c_sorder : list Z }.

(* container.py 13-62 and the constructors 66-68, 76-86, 96-97.  "if sorder": None and
   the empty list are false. *)
Definition container_init (b : backend) (shape : list Z) (sorder : option (list Z)) : option container :=
  let dim := (length shape - 1)%nat in
  let given := match sorder with None | Some [] => None | Some s => Some s end in
  let order := match given with Some s => s | None => default_order b dim end in
  let self_sorder := match given with Some s => s | None => set_sorder b dim end in
  match array_init shape (Some order), array_init shape (Some order) with
  | Some m, Some F =>
      match b with
      | NUMPY => Some (mkContainer m F F self_sorder)
      | _ => match array_init shape (Some self_sorder) with
             | Some Fnew => Some (mkContainer m F Fnew self_sorder)
             | None => None
             end
      end
  | _, _ => None
  end.

(* simulation.py 417: F, Fnew = Fnew, F *)
Definition exchange (c : container) : container :=
  mkContainer (c_m c) (c_Fnew c) (c_F c) (c_sorder c).

(* storage.py 520-524, AOS.reshape: self.array.reshape((np.prod(self.nspace), self.nv)):
   the entry (r, k) of the two-dimensional view of the same buffer. *)
Definition aos_reshape (x : array (V := V)) (r k : Z) : V :=
  a_buf x (rowmajor [fold_right Z.mul 1 (tl (a_shape x)); hd 0 (a_shape x)] [r; k]).
End Containers.

(* symbolic.py 84-110, set_order with a list of Python integers *)
Definition set_order_z {A : Type} (array : list A) (priority : list Z) : option (list A) :=
  match priority with
  | [] => Some array
  | _ => gather array (argsort priority)
  end.
(* symbolic.py 211-256 and 113-208 as in StorageModel.v (space_idx, indexed_velocity),
   with the order as the container holds it: simulation.py 133-136, 142. *)
Definition space_idx_z (sorder : list Z) : option (list nat) :=
  set_order_z [0; 1; 2]%nat (tl sorder).
Definition indexed_velocity_z (sorder : list Z) (k : Z) (v : list Z) : option (list sidx) :=
  match space_idx_z sorder with
  | None => None
  | Some si => match add_shift si v with
               | None => None
               | Some l => set_order_z (SVel k :: l) sorder
               end
  end.
