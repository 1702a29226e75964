(* Model of the time steps of pylbm/simulation.py 374-420 on processes without a common clock: the
   program of each process, for the executions of AsyncModel. *)
From Coq Require Import QArith.
From Verif Require Import PyBase VelocityModel StencilModel GridModel StorageModel LinAlg AlgoModel GlobalModel DomainModel
  GeometryModel BoundaryModel ParallelModel GenModel StepGenModel AsyncModel.

Open Scope Z_scope.

Section Sim.
Variable K : ring.
Variables (pos : nat) (axes : list axis).
(* the cells of an array: an address with another number of indices does not exist *)
Definition clip (F : list Z -> vec K) : list Z -> vec K := fun i => if (length i =? length axes)%nat then F i else fun _ => 0%K.
(* the boundary methods of a process on its own array, simulation.py 387-390 *)
Variable B : proc -> (list Z -> vec K) -> (list Z -> vec K).
(* the private memory is the second storage (Cython, container.py 17-36) or the moments (NumPy) *)
Definition local_two (p : list (GenModel.stmt K)) (L0 : nat -> K) (c : proc) (x : memory (V := vec K) (M := list Z -> vec K)) : memory :=
  let f1 := B c (clip (snd x)) in
  (f1, field_of K pos (fst (cython K p (nest (ranges_of axes c)) (arrays3 K pos f1 (zero_field K) (clip (fst x)), L0)) 2%nat)).
Definition local_one (ns : nat) (p : list (GenModel.stmt K)) (c : proc) (x : memory (V := vec K) (M := list Z -> vec K)) : memory :=
  let A0 := arrays3 K pos (B c (clip (snd x))) (clip (fst x)) (zero_field K) in
  let A := match numpy K (ranges_of axes c) (fun _ => ins pos (Z.of_nat ns) (sizes_of axes c)) p A0 with Some (A, _) => A | None => A0 end in
  (field_of K pos (A 1%nat), field_of K pos (A 0%nat)).
End Sim.
Arguments clip {K}. Arguments local_two {K}. Arguments local_one {K}.
(* simulation.py 384: self.container.F.update(), then the methods and the kernel *)
Definition step_program {V M : Type} (axes : list axis) (l : proc -> memory (V := V) (M := M) -> memory (V := V) (M := M)) : list item :=
  map Exch (seq 0 (length axes)) ++ [Loc l].
Fixpoint sim_program {V M : Type} (axes : list axis) (ls : nat -> proc -> memory (V := V) (M := M) -> memory (V := V) (M := M)) (t : nat) : list item :=
  match t with O => [] | S t => sim_program axes ls t ++ step_program axes (ls t) end.
(* boundary_condition of one process, with the grid of the process *)
Definition bc_at {K : ring} (qk : Q -> K) (st : stencil) (vel : nat -> list Z) (sym : nat -> nat) (phi : Z -> list Q -> nat -> K) (g : grid) (ps : list nat)
    (be : backend) (mss : list nat -> list (method * list blink)) (c : proc) (f : list Z -> vec K) : list Z -> vec K :=
  fun i k => boundary_condition K qk (local_grid g ps c) vel sym (feq_of st phi (local_grid g ps c)) be (mss c) (fun k x => f x k) k i.
