(* Model of the kernels of the loo.py back end: generator/printing/loopy.py, the class
   LoopyCodeGen of generator/codegen.py, the class LoopyContainer of container.py and the kernels
   of storage.py 368-424. *)
From Verif Require Import PyBase VelocityModel GridModel StorageModel LinAlg AlgoModel GlobalModel GenModel StepGenModel.
Open Scope Z_scope.

Section Loopy.
Variable V : Type.

(* ---- the instructions ---- loopy.py 154-167: each Eq of the body of the loop is one block
   "with {id_prefix=inst_n, dep=inst_(n-1)*} ... end" of instructions, one for each element of a
   matrix (354-364).  An instruction of the block n waits for those of the block n-1 (the glob
   inst_(n-1)* ), and for no other one: the option dep without "*" in front is final in loo.py.  A
   block may be empty (an element equal to the right hand side is not printed, 359, 369): the
   glob then names nothing and the next block waits for nothing. *)
Definition kernel := list (list (GenModel.stmt V)).
(* the blocks which wait for each other, cut at the empty blocks *)
Fixpoint chains (k : kernel) : list kernel := match k with
  | [] => [[]]
  | b :: k => match b, chains k with
              | [], cs => [] :: cs
              | _, c :: cs => (b :: c) :: cs
              | _, [] => [[b]]
              end
  end.

(* ---- the executions ---- codegen.py 1346-1358 (_get_routine_opening) and 1432-1444: one
   instance of the loop is one work item, all the Idx are split on the groups and on the items
   (g.0, l.0, ...).  The work items run at the same time, without barrier; the temporary
   variables (1404-1420: m, rel_ux, ...) are private.  An item loads the values of a right hand
   side, and stores the result later.
   Simplifications: the loads of one instruction are done together; memory is sequentially
   consistent; the order of the instructions of a block is free for each item (loo.py chooses one
   for all of them); the prefetch of f (1453-1464) is left out, f is not written by the kernel. *)
Inductive dest := DArr (n : nat) (p : list Z) | DLoc (k : nat).
Record item := mkItem { i_cell : list Z; i_loc : nat -> V; i_pend : option (dest * V); i_todo : list kernel }.
Definition dest_of (x : list Z) (s : GenModel.stmt V) : dest := match s with SSet a _ => DArr (a_name a) (addr x a) | SLoc k _ => DLoc k end.
Definition rhs_of (s : GenModel.stmt V) : expr V := match s with SSet _ e => e | SLoc _ e => e end.
Inductive istep : arrays V * item -> arrays V * item -> Prop :=
| ISkip A x L t1 bs t2 : istep (A, mkItem x L None (t1 ++ ([] :: bs) :: t2)) (A, mkItem x L None (t1 ++ bs :: t2))
| ILoad A x L t1 b1 s b2 bs t2 :
    istep (A, mkItem x L None (t1 ++ ((b1 ++ s :: b2) :: bs) :: t2))
          (A, mkItem x L (Some (dest_of x s, ceval V A L x (rhs_of s))) (t1 ++ ((b1 ++ b2) :: bs) :: t2))
| IStoreA A x L n p v ts : istep (A, mkItem x L (Some (DArr n p, v)) ts) (store V A n p v, mkItem x L None ts)
| IStoreL A x L k v ts : istep (A, mkItem x L (Some (DLoc k, v)) ts) (A, mkItem x (updf L k v) None ts).
Definition conf := (arrays V * list item)%type.
Inductive kstep : conf -> conf -> Prop :=
| KStep A A' pre i i' post : istep (A, i) (A', i') -> kstep (A, pre ++ i :: post) (A', pre ++ i' :: post).
Inductive ksteps : conf -> conf -> Prop :=
| KRefl c : ksteps c c
| KMore c c' c'' : ksteps c c' -> kstep c' c'' -> ksteps c c''.
(* all the instructions have been run *)
Definition idle (i : item) : Prop := i_pend i = None /\ Forall (fun t => t = []) (i_todo i).
(* the call of a kernel for the cells; L0: what is in the private memory of the items *)
Definition launch (k : kernel) (cells : list (list Z)) (L0 : list Z -> nat -> V) (A : arrays V) : conf :=
  (A, map (fun x => mkItem x (L0 x) None (chains k)) cells).
(* A' is a possible result of the call *)
Definition result (k : kernel) (cells : list (list Z)) (A A' : arrays V) : Prop :=
  exists L0 items, ksteps (launch k cells L0 A) (A', items) /\ Forall idle items.
End Loopy.
Arguments DArr : clear implicits. Arguments mkItem {V}. Arguments i_cell {V}. Arguments i_loc {V}. Arguments i_pend {V}. Arguments i_todo {V}.
Arguments dest_of {V}. Arguments rhs_of {V}. Arguments chains {V}. Arguments result {V}. Arguments launch {V}. Arguments ksteps {V}. Arguments kstep {V}. Arguments istep {V}. Arguments idle {V}.

(* ---- the kernel one_time_step ---- base.py 298-600, pull.py, with the setting m_local
   (simulation.py 172-176): one block for each Eq. *)
Section Step.
Variable K : ring.
Variable a : salgo K.
Notation n := (sa_n K a).
Notation nc := (sa_nc K a).
(* base.py 251-253 (one Eq for each component of the relative velocity), 325-334 *)
Definition lf2m (src : nat -> sym K) : list (list (sstmt K)) := match sa_relvel K a with
  | None => [sassign K TM 0 n (ymv K n (yM K a) src)]
  | Some rel => [sassign K TM 0 nc (ymv K n (yM K a) src)] ++ map (fun j => [(TU j, tsub K YMom (rel j))]) (seq 0 (sa_dim K a))
                ++ [sassign K TM nc n (ymv K n (yMu K a) src)]
  end.
(* 495: all the sources in one Eq *)
Definition lsource : list (list (sstmt K)) := match sa_source K a with [] => [] | _ => [ssource K a] end.
Definition lpull : list (list (sstmt K)) :=
  lf2m YOld ++ lsource ++ [srelaxation K a] ++ (match sa_relvel K a with None => [] | Some _ => [srestore K a] end) ++ lsource ++ [sm2f K a].
Definition lbase : list (list (sstmt K)) :=
  [stransport K a] ++ lf2m YNew ++ lsource ++ [srelaxation K a] ++ lsource ++ [sm2f K a].
(* loopy.py 359: "if lhs[i, j] != rhs[i, j]", by SymPy: drop tells which rows are equal to their
   right hand side. *)
Variable drop : sstmt K -> bool.
Variables (pos d : nat) (vel : nat -> list Z).
(* loopy.py 288-298 (Indexed, Idx, MatrixElement: "m[k]"), as for Cython *)
Definition lblocks (bs : list (list (sstmt K))) : kernel K :=
  map (fun b => map (cy_stmt K pos d n vel) (filter (fun s => negb (drop s)) b)) bs.
End Step.
Arguments lf2m {K}. Arguments lpull {K}. Arguments lbase {K}. Arguments lsource {K}. Arguments lblocks {K}.

(* ---- the kernels update_x, update_y, update_z ---- storage.py 368-424: for the axis d,
   f[0] = f[n-2] and f[n-1] = f[1] at each place of the other axes and for each component.  The
   index of the element s at the cell x is set_order([s] + x): out[sorder[i]] = array[i], which
   is the function scatter of StorageModel.v.  The cells of the loop are here the places of the
   component and of the other axes, with 0 along the axis d. *)
Section Ghost.
Variable V : Type.
Definition gstmt (sorder : list nat) (dim d : nat) (dst src : Z) : GenModel.stmt V :=
  let at_ z := mkAcc 0 (scatter (ICst 0) sorder (IIdx 0 0 :: map (fun j => if Nat.eqb j d then ICst z else IIdx (S j) 0) (seq 0 dim))) in
  SSet (at_ dst) (EGet (at_ src)).
Definition gkernel (sorder : list nat) (dim d : nat) (nd : Z) : kernel V := [[gstmt sorder dim d 0 (nd - 2); gstmt sorder dim d (nd - 1) 1]].
Definition gcells (nv : Z) (sizes : list Z) (d : nat) : list (list Z) := nest ((0, nv) :: map (fun n => (0, n)) (upd sizes d 1)).
(* 307-327: one call for each axis *)
Inductive gupdate (sorder : list nat) (nv : Z) (sizes : list Z) : nat -> arrays V -> arrays V -> Prop :=
| GNone A : gupdate sorder nv sizes 0 A A
| GNext d A B C : gupdate sorder nv sizes d A B -> result (gkernel sorder (length sizes) d (nth d sizes 0)) (gcells nv sizes d) B C ->
    gupdate sorder nv sizes (S d) A C.
End Ghost.
Arguments gstmt {V}. Arguments gkernel {V}. Arguments gupdate {V}.

(* ---- one time step ---- simulation.py 393-420, on one process with periodic sides:
   container.F.update() (in boundary_condition, 373-389), the kernel, the exchange of F (the
   array 0) and Fnew (the array 2).  The storage order is the one of StepGenModel.v: the
   component is the axis number pos.  The loops are those of ghost layers of width one. *)
Section Run.
Variable K : ring.
Variables (a : salgo K) (drop : sstmt K -> bool) (pos : nat) (sizes : list Z) (vel : nat -> list Z).
Definition order_of (dim : nat) : list nat := pos :: seq 0 pos ++ seq (S pos) (dim - pos).
Inductive lp_step : arrays K -> arrays K -> Prop :=
| LPStep A B C A' : gupdate (order_of (length sizes)) (Z.of_nat (sa_n K a)) sizes (length sizes) A B ->
    result (lblocks a drop pos (length sizes) vel (lpull a)) (nest (inner_ranges (repeat 1 (length sizes)) sizes)) B C ->
    (forall p, A' 0%nat p = C 2%nat p) -> (forall p, A' 2%nat p = C 0%nat p) -> lp_step A A'.
Inductive lp_run : nat -> arrays K -> arrays K -> Prop :=
| LPNone A : lp_run 0 A A
| LPMore t A B C : lp_run t A B -> lp_step B C -> lp_run (S t) A C.
End Run.
Arguments lp_step {K}. Arguments lp_run {K}.

(* ---- the arrays on the device ---- storage.py 107-121, 126-158: array_cpu (and its transposition
   swaparray) and array.  P tells which entries the key selects, w are the new values. *)
Section Mirror.
Context {I V : Type}.
Record mirror := mkMirror { m_cpu : I -> V; m_dev : I -> V }.
Definition write (P : I -> bool) (w A : I -> V) : I -> V := fun i => if P i then w i else A i.
(* __init__: array = to_device(array_cpu) *)
Definition mnew (A : I -> V) : mirror := mkMirror A A.
(* __getitem__ and _in: array is copied in array_cpu; the result is a view of array_cpu *)
Definition mget (s : mirror) : (I -> V) * mirror := (m_dev s, mkMirror (m_dev s) (m_dev s)).
(* __setitem__: array_cpu is written, then array_cpu is copied in array *)
Definition mset (P : I -> bool) (w : I -> V) (s : mirror) : mirror := let c := write P w (m_cpu s) in mkMirror c c.
(* a write in the view returned by __getitem__ or _in (sol.m[k][...] = w) *)
Definition mview (P : I -> bool) (w : I -> V) (s : mirror) : mirror := mkMirror (write P w (m_cpu s)) (m_dev s).
(* the call of a kernel: it works on array *)
Definition mcall (g : (I -> V) -> I -> V) (s : mirror) : mirror := mkMirror (m_cpu s) (g (m_dev s)).
Inductive mop := OGet | OSet (P : I -> bool) (w : I -> V) | OView (P : I -> bool) (w : I -> V) | OCall (g : (I -> V) -> I -> V).
(* the values which are read, and the state at the end *)
Fixpoint mrun (l : list mop) (s : mirror) : list (I -> V) * mirror := match l with
  | [] => ([], s)
  | OGet :: l => let r := mrun l (snd (mget s)) in (fst (mget s) :: fst r, snd r)
  | OSet P w :: l => mrun l (mset P w s)
  | OView P w :: l => mrun l (mview P w s)
  | OCall g :: l => mrun l (mcall g s)
  end.
End Mirror.
Arguments mirror : clear implicits. Arguments mop : clear implicits.
