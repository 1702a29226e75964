(* Model of the source terms which read the moments of neighbouring cells
   (base.py 439-504, transform.py 35-51: rho[ix - 1] in the expression of a source) in the
   step of pull.py, as printed for NumPy and for Cython.  Schemes without relative velocity. *)
From Verif Require Import PyBase LinAlg AlgoModel.

Section Neighbour.
Variable K : arith.
Variables cell off : Type.
Variable nb : nat -> cell -> cell.            (* nb k x = x - v_k *)
Variable sh : off -> cell -> cell.            (* the cell read with the indices ix + d, ... *)
Open Scope ring_scope'.

(* A scalar statement whose right hand side reads any cell of the arrays.  NumPy
   (settings m_local = False, simulation.py 175; pycode.py 1086-1138): it is executed for
   all the cells of the range at once, a read with shifted indices is a shifted slice. *)
Definition gstmt : Type := target * ((cell -> view K) -> cell -> K).
Definition gstep (inner : cell -> bool) (st : field K cell * (field K cell * field K cell)) (s : gstmt) :
    field K cell * (field K cell * field K cell) :=
  let '(F, (m, u)) := st in
  let val x := snd s (fun y => view_at nb F F (m y) (u y) y) x in
  match fst s with
  | TFn k => ((fun x => if inner x then updf (F x) k (val x) else F x), (m, u))
  | TM k => (F, ((fun x => if inner x then updf (m x) k (val x) else m x), u))
  | TU d => (F, (m, (fun x => if inner x then updf (u x) d (val x) else u x)))
  end.
Definition grun (inner : cell -> bool) (p : list gstmt) st := fold_left (gstep inner) p st.

(* The statements of the other parts of the step read their own cell. *)
Definition lift (s : stmt K) : gstmt := (fst s, fun V x => snd s (V x)).

(* The sources: moment index and function of the moments of the cells which are read.
   A later source of the same moment replaces the earlier one (base.py 492). *)
Definition nsources : Type := list (nat * ((off -> vec K) -> K)).
Definition nsource_of (src : nsources) (k : nat) : option ((off -> vec K) -> K) :=
  match find (fun p => Nat.eqb (fst p) k) (rev src) with
  | Some p => Some (snd p)
  | None => None
  end.

Variable a : algo K.
(* base.py 484-495 and ode.py *)
Definition nsource_term_local (src : nsources) : list gstmt :=
  map (fun k => (TM k, fun V x =>
         match nsource_of src k with
         | Some g => (vm (V x) k + al_hdt a * g (fun d => vm (V (sh d x))))%K
         | None => vm (V x) k
         end)) (seq 0 (al_n a)).
Definition with_nsource (src : nsources) : list gstmt :=
  match src with [] => [] | _ => nsource_term_local src end.
(* pull.py 38-59 *)
Definition neighbour_pull (src : nsources) : list gstmt :=
  map lift (f2m_local a vf) ++ with_nsource src ++ map lift (relaxation_local a) ++
  with_nsource src ++ map lift (m2f_local a).

(* One step on the inner cells (base.py 551-600); the moments are the array container.m,
   which keeps its values between the steps. *)
Definition neighbour_step (inner : cell -> bool) (src : nsources)
    (st : field K cell * (field K cell * field K cell)) :=
  grun inner (neighbour_pull src) st.
(* simulation.f2m: the moments of all the cells of the arrays (base.py 336-344) *)
Definition f2m_all (st : field K cell * (field K cell * field K cell)) :
    field K cell * (field K cell * field K cell) :=
  let '(F, (m, u)) := st in (F, ((fun x => mvmul (al_n a) (al_M a) (F x)), u)).
End Neighbour.
Arguments gstep {K cell}. Arguments grun {K cell}. Arguments lift {K cell}.
Arguments nsource_of {K off}. Arguments nsource_term_local {K cell off}. Arguments with_nsource {K cell off}.
Arguments neighbour_pull {K cell off}. Arguments neighbour_step {K cell off}. Arguments f2m_all {K cell}.

(* Cython (settings m_local = True, simulation.py 177): sorder is None and m is the local
   array, MatrixSymbol("m", ns, 1).  transform.py 36-51 turns the name of moment k with the
   index ix + d into m[k, ix + d], and cython.py 288-289 prints this element as
   m[j + i * shape[1]], i = k, j = ix + d, shape[1] = 1: the position in the local array. *)
Definition local_position (k : nat) (ix d : Z) : Z := ((ix + d) + Z.of_nat k * 1)%Z.

(* One space dimension, N cells with period N, cut in processes: a process owns the cells
   lo <= x < hi and has its own array of moments, halo included; F has the values of all the
   cells.  A step: exchange of the ghost cells of F (C12: the periodic neighbour values; the
   moments are not exchanged, simulation.py 384-385), then the kernel on the own cells. *)
Section Processes.
Variable K : arith.
Variable nb : nat -> Z -> Z.
Variable a : algo K.
Variable src : nsources K Z.
Variable N : Z.
Record nproc := mkNproc { np_lo : Z; np_hi : Z; np_m : field K Z }.
Definition owns (p : nproc) (x : Z) : bool := (np_lo p <=? x)%Z && (x <? np_hi p)%Z.
Definition proc_run (F : field K Z) (p : nproc) :=
  neighbour_step nb (fun d x => (x + d)%Z) a (owns p) src
    ((fun x => F (x mod N)%Z), (np_m p, fun _ _ => r0)).
Definition world_step (w : field K Z * list nproc) : field K Z * list nproc :=
  let '(F, ps) := w in
  ((fun x => match find (fun p => owns p x) ps with
             | Some p => fst (proc_run F p) x
             | None => F x
             end),
   map (fun p => mkNproc (np_lo p) (np_hi p) (fst (snd (proc_run F p)))) ps).
End Processes.
Arguments mkNproc {K}. Arguments owns {K}. Arguments np_m {K}. Arguments world_step {K}.
