(* Model of the domain and of the boundary conditions of each process:
   pylbm/domain.py 262-302 and 415-432, pylbm/boundary.py, simulation.py 374-394. *)
From Verif Require Import PyBase VelocityModel StencilModel GridModel StorageModel LinAlg AlgoModel GlobalModel DomainModel
  GeometryModel BoundaryModel.
From Coq Require Import QArith.
Open Scope Z_scope.

(* The axes of the process grid ps (mpi_topo.split) for the domain g of one process. *)
Definition proc_axis (g : grid) (ps : list nat) (d : nat) : axis := mkAxis (g_n g)@d (nth d ps 1%nat) (g_h g)@d.
Definition proc_axes (g : grid) (ps : list nat) : list axis := map (proc_axis g ps) (axes g).
Definition lo (g : grid) (ps : list nat) (c : list nat) (d : nat) : Z := ax_lo (proc_axis g ps d) (nth d c 0%nat).
Definition hi (g : grid) (ps : list nat) (c : list nat) (d : nat) : Z := ax_hi (proc_axis g ps d) (nth d c 0%nat).
(* 275-280: the label of a side becomes -2 if it is an interface. *)
Definition local_label (g : grid) (ps : list nat) (c : list nat) (i : nat) : Z :=
  let d := Nat.div2 i in
  if Nat.even i then (if lo g ps c d =? 0 then (g_lab g)@i else -2)
  else (if hi g ps c d =? (g_n g)@d then (g_lab g)@i else -2).
(* The domain of the process c: region[k] (419), the coordinates start at
   phys_box + dx * region[k][0] - halo_beg (425-432). *)
Definition local_grid (g : grid) (ps : list nat) (c : list nat) : grid :=
  mkGrid (map (fun d => hi g ps c d - lo g ps c d) (axes g)) (map (fun d => (g_h g)@d) (axes g))
    (map (local_label g ps c) (seq 0 (2 * dim g))) (g_vel g)
    (map (fun d => ((g_x0 g)@@d + g_dx g * inject_Z (lo g ps c d))%Q) (axes g)) (g_dx g).

(* 637-642, list_of_labels, for elements with the labels els *)
Definition labels_of (g : grid) (els : list Z) : list Z := union1d (unique (g_lab g)) els.

Section PBC.
Variable K : arith.
Variable qk : Q -> K.
Variable st : stencil.
Variable vel : nat -> list Z.
Variable sym : nat -> nat.
(* prepare_rhs and update_feq: column of feq, a function of the label and of the
   coordinates of the point of the wall (boundary.py 262-300). *)
Variable phi : Z -> list Q -> nat -> K.
Definition wall_point (g : grid) (b : blink) : list Q := map (bcoord st g b) (axes g).
Definition feq_of (g : grid) (b : blink) (k : nat) : K := phi (b_lab b) (wall_point g b) k.
(* boundary_condition, simulation.py 374-394, on all the processes: F.update(), then
   the methods of each process on its own array. *)
Definition pbc (g : grid) (ps : list nat) (be : backend) (mss : list nat -> list (method * list blink)) (F : fields K) : fields K :=
  fun c i k => boundary_condition K qk (local_grid g ps c) vel sym (feq_of (local_grid g ps c)) be (mss c)
    (fun k x => update (proc_axes g ps) F c x k) k i.
End PBC.
Arguments pbc {K}. Arguments feq_of {K}.
