(* Model of pylbm/simulation.py, one_time_step (396-420) on all the processes of a
   periodic domain, for the two kinds of containers of pylbm/container.py. *)
From Verif Require Import PyBase VelocityModel GridModel StorageModel LinAlg AlgoModel.
Open Scope Z_scope.

Definition map2 {A B C : Type} (f : A -> B -> C) (l : list A) (m : list B) : list C :=
  map (fun p => f (fst p) (snd p)) (combine l m).
Fixpoint list_eqb (l m : list Z) : bool :=
  match l, m with
  | [], [] => true
  | x :: l', y :: m' => (x =? y) && list_eqb l' m'
  | _, _ => false
  end.
(* x - v_k *)
Definition shift_cell (vel : nat -> list Z) (k : nat) (x : list Z) : list Z := map2 Z.sub x (vel k).

Section Step.
Variable K : arith.
Variable axes : list axis.
Variable vel : nat -> list Z.

(* base.py 170-189: the ranges vmax .. n - vmax of the nested loops (outermost loop
   first; the storage order of the loops only changes the order of the cells). *)
Definition zrange (lo hi : Z) : list Z := map (fun k => lo + Z.of_nat k) (seq 0 (Z.to_nat (hi - lo))).
Fixpoint nested (ranges : list (list Z)) : list (list Z) :=
  match ranges with
  | [] => [[]]
  | r :: t => flat_map (fun x => map (cons x) (nested t)) r
  end.
Definition loop_cells (c : list nat) : list (list Z) :=
  nested (map2 (fun a k => zrange (ax_h a) (ax_size a k - ax_h a)) axes c).
Definition in_loop (c : list nat) (i : list Z) : bool := existsb (list_eqb i) (loop_cells c).

(* All the processes: local array of each process. *)
Definition fields := pstate (V := vec K).

(* Two buffers.  boundary_condition: F.update() (no boundary method on a periodic
   domain); one_time_step kernel; exchange of the two buffers. *)
Definition two_step (p : list (stmt K)) (m0 u0 : vec K) (st : fields * fields) : fields * fields :=
  let F1 := update axes (fst st) in
  ((fun c => fst (cython_loop list_eqb (shift_cell vel) p (loop_cells c) (F1 c) (snd st c, (m0, u0)))), F1).
(* One buffer; the array of the moments is kept from step to step. *)
Definition one_step (p : list (stmt K)) (st : fields * (fields * fields)) : fields * (fields * fields) :=
  let F1 := update axes (fst st) in
  let res c := numpy_run (shift_cell vel) (in_loop c) p (F1 c, (fst (snd st) c, snd (snd st) c)) in
  ((fun c => fst (res c)), ((fun c => fst (snd (res c))), (fun c => snd (snd (res c))))).

(* The same steps with the boundary conditions: B stands for the whole of
   boundary_condition (simulation.py 385-394), F.update() then the methods. *)
Definition two_step_bc (B : fields -> fields) (p : list (stmt K)) (m0 u0 : vec K) (st : fields * fields) : fields * fields :=
  let F1 := B (fst st) in
  ((fun c => fst (cython_loop list_eqb (shift_cell vel) p (loop_cells c) (F1 c) (snd st c, (m0, u0)))), F1).
Definition one_step_bc (B : fields -> fields) (p : list (stmt K)) (st : fields * (fields * fields)) : fields * (fields * fields) :=
  let F1 := B (fst st) in
  let res c := numpy_run (shift_cell vel) (in_loop c) p (F1 c, (fst (snd st) c, snd (snd st) c)) in
  ((fun c => fst (res c)), ((fun c => fst (snd (res c))), (fun c => snd (snd (res c))))).
End Step.
Arguments two_step_bc {K}. Arguments one_step_bc {K}. Arguments two_step {K}. Arguments one_step {K}. Arguments fields K : clear implicits.

Fixpoint iter {A : Type} (n : nat) (f : A -> A) (x : A) : A :=
  match n with O => x | S n' => f (iter n' f x) end.
