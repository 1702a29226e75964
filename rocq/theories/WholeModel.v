(* Model of Simulation.one_time_step, pylbm/simulation.py 396-420, on all the processes with the
   generated kernels: boundary_condition (374-394), call_function("one_time_step"), exchange of
   the two storages. *)
From Verif Require Import PyBase VelocityModel StencilModel GridModel StorageModel LinAlg AlgoModel GlobalModel DomainModel
  GeometryModel BoundaryModel ParallelModel GenModel StepGenModel.

Section Whole.
Variable K : arith.
Variables (pos : nat) (axes : list axis).
(* boundary_condition: F.update(), then the methods of each process *)
Variable B : fields K -> fields K.
(* Cython, two storages *)
Definition whole_two (p : list (GenModel.stmt K)) (L0 : nat -> K) (st : fields K * fields K) : fields K * fields K :=
  let F1 := B (fst st) in
  ((fun c => field_of K pos (fst (cython K p (nest (ranges_of axes c)) (arrays3 K pos (F1 c) (zero_field K) (snd st c), L0)) 2%nat)), F1).
(* NumPy, one storage and the array of the moments; None: an error on some process of the list cs *)
Definition whole_one_at (ns : nat) (p : list (GenModel.stmt K)) (st : fields K * fields K) (c : list nat) : option (arrays K) :=
  option_map fst (numpy K (ranges_of axes c) (fun _ => ins pos (Z.of_nat ns) (sizes_of axes c)) p (arrays3 K pos (B (fst st) c) (snd st c) (zero_field K))).
Definition whole_one (ns : nat) (p : list (GenModel.stmt K)) (st : fields K * fields K) : fields K * fields K :=
  let res c := match whole_one_at ns p st c with Some A => A | None => arrays3 K pos (B (fst st) c) (snd st c) (zero_field K) end in
  ((fun c => field_of K pos (res c 0%nat)), (fun c => field_of K pos (res c 1%nat))).
End Whole.
Arguments whole_two {K}. Arguments whole_one {K}. Arguments whole_one_at {K}.
