(* Model of pylbm/algorithm/base.py, pull.py, ode.py and of the way the generated
   statements are executed (generator/printing/cython.py and pycode.py). *)
From Verif Require Import PyBase LinAlg.

Definition updf {A : Type} (m : nat -> A) (k : nat) (x : A) : nat -> A :=
  fun j => if Nat.eqb j k then x else m j.

Section Algo.
Variable K : arith.
Open Scope ring_scope'.

(* What the statements of a kernel can read and write at one cell: the shifted old
   distributions f (f k is the value of velocity k in the cell x - v_k), the new
   distributions, the moments and the relative velocity. *)
Record view := mkView { vf : vec K; vfn : vec K; vm : vec K; vu : vec K }.
Inductive target := TFn (k : nat) | TM (k : nat) | TU (d : nat).
Definition stmt : Type := target * (view -> K).

(* One scalar assignment. *)
Definition exec (v : view) (st : stmt) : view :=
  let x := snd st v in
  match fst st with
  | TFn k => mkView (vf v) (updf (vfn v) k x) (vm v) (vu v)
  | TM k => mkView (vf v) (vfn v) (updf (vm v) k x) (vu v)
  | TU d => mkView (vf v) (vfn v) (vm v) (updf (vu v) d x)
  end.
Definition run (p : list stmt) (v : view) : view := fold_left exec p v.

(* Eq(lhs, rhs) with vectors: one scalar assignment per entry, in the order of the
   entries (cython.py 315-323, pycode.py 1117-1125); entry k of the right hand side
   is evaluated after entries 0 .. k-1 have been stored. *)
Definition assign (t : nat -> target) (lo hi : nat) (e : view -> vec K) : list stmt :=
  map (fun k => (t k, fun v => e v k)) (seq lo (hi - lo)).

(* The data of a scheme used by the algorithms (base.py 91-155): number of moments,
   number of conserved moments, M, invM, Tu (a function of the relative velocity;
   Tmu is Tu at -u), eq and s (equilibrium and relaxation parameters as functions of
   the moments; the substitution of the moments in s is only done right when m is a
   local variable, 404-428 leaves the symbols of mv otherwise), the relative
   velocity as a function of the moments (None: no relative velocity), the source
   terms (moment index, function of the moments) and dt / 2. *)
Record algo := mkAlgo {
  al_n : nat;
  al_nc : nat;
  al_dim : nat;
  al_M : mat K;
  al_invM : mat K;
  al_Tu : vec K -> mat K;
  al_eq : vec K -> vec K;
  al_s : vec K -> vec K;
  al_relvel : option (vec K -> vec K);
  al_source : list (nat * (vec K -> K));
  al_hdt : K
}.
Variable a : algo.
Notation n := (al_n a).
Notation nc := (al_nc a).

Definition vopp (u : vec K) : vec K := fun d => (- u d)%K.
(* base.py 109-110 *)
Definition al_Mu (u : vec K) : mat K := mmul n (al_Tu a u) (al_M a).
Definition al_invMu (u : vec K) : mat K := mmul n (al_invM a) (al_Tu a (vopp u)).

(* 273-287 *)
Definition transport_local : list stmt := assign TFn 0 n vf.
(* 298-334, src: the distributions the moments are computed from *)
Definition f2m_local (src : view -> vec K) : list stmt :=
  match al_relvel a with
  | None => assign TM 0 n (fun v => mvmul n (al_M a) (src v))
  | Some rel =>
      assign TM 0 nc (fun v => mvmul n (al_M a) (src v)) ++
      assign TU 0 (al_dim a) (fun v => rel (vm v)) ++             (* 251-253 *)
      assign TM nc n (fun v => mvmul n (al_Mu (vu v)) (src v))
  end.
(* 346-369 *)
Definition m2f_local : list stmt :=
  match al_relvel a with
  | None => assign TFn 0 n (fun v => mvmul n (al_invM a) (vm v))
  | Some _ => assign TFn 0 n (fun v => mvmul n (al_invMu (vu v)) (vm v))
  end.
(* 381-393 *)
Definition equilibrium_local : list stmt := assign TM 0 n (fun v => al_eq a (vm v)).
(* 404-428 *)
Definition relaxation_local : list stmt :=
  match al_relvel a with
  | None => assign TM 0 n (fun v k =>
      ((1 - al_s a (vm v) k) * vm v k + al_s a (vm v) k * al_eq a (vm v) k)%K)
  | Some _ => assign TM 0 n (fun v k =>
      ((1 - al_s a (vm v) k) * vm v k + al_s a (vm v) k * mvmul n (al_Tu a (vu v)) (al_eq a (vm v)) k)%K)
  end.
(* 439-495 and ode.py: rhs_eq[i] = m_i + dt/2 * rhs; a later term for the same
   moment replaces the earlier one.  Sources which read neighbouring cells are
   left out. *)
Definition source_of (k : nat) : option (vec K -> K) :=
  match find (fun p => Nat.eqb (fst p) k) (rev (al_source a)) with
  | Some p => Some (snd p)
  | None => None
  end.
Definition source_term_local : list stmt :=
  assign TM 0 n (fun v k => match source_of k with
                            | Some g => (vm v k + al_hdt a * g (vm v))%K
                            | None => vm v k
                            end).
(* 255-263 *)
Definition restore_conserved_moments (src : view -> vec K) : list stmt :=
  assign TM 0 nc (fun v => mvmul n (al_Mu (vu v)) (src v)).

Definition with_source : list stmt :=
  match al_source a with [] => [] | _ => source_term_local end.

(* base.py 506-549 *)
Definition base_local : list stmt :=
  transport_local ++ f2m_local vfn ++ with_source ++ relaxation_local ++ with_source ++ m2f_local.
(* pull.py 12-59 *)
Definition pull_local : list stmt :=
  f2m_local vf ++ with_source ++ relaxation_local ++
  (match al_relvel a with None => [] | Some _ => restore_conserved_moments vf end) ++
  with_source ++ m2f_local.

(* ---- loops over the cells ---- *)
Variable cell : Type.
Variable cell_eqb : cell -> cell -> bool.
Variable nb : nat -> cell -> cell.            (* nb k x = x - v_k *)
Definition field := cell -> vec K.

(* Cython: two distinct buffers f and fnew, the moments and the relative velocity
   are local variables, not initialised: they keep the values of the previous cell.
   base.py 551-600; cython.py 280-293. *)
Definition view_at (f : field) (fnew : field) (m u : vec K) (x : cell) : view :=
  mkView (fun k => f (nb k x) k) (fnew x) m u.
Definition cython_cell (p : list stmt) (f : field) (st : field * (vec K * vec K)) (x : cell) :
    field * (vec K * vec K) :=
  let '(fnew, (m, u)) := st in
  let v := run p (view_at f fnew m u x) in
  ((fun y => if cell_eqb y x then vfn v else fnew y), (vm v, vu v)).
Definition cython_loop (p : list stmt) (cells : list cell) (f : field) (st : field * (vec K * vec K)) :=
  fold_left (cython_cell p f) cells st.
(* 580-587: with check_isfluid the body is guarded by in_or_out == valin *)
Definition cython_loop_fluid (fluid : cell -> bool) (p : list stmt) (cells : list cell) (f : field) st :=
  fold_left (fun st x => if fluid x then cython_cell p f st x else st) cells st.

(* NumPy: one array F for f and fnew (container.py, NumpyContainer), arrays for the
   moments and the relative velocity; each scalar statement is executed for all the
   cells of the range at once (pycode.py 1086-1138, slices). *)
Definition numpy_stmt (inner : cell -> bool) (st : field * (field * field)) (s : stmt) :
    field * (field * field) :=
  let '(F, (m, u)) := st in
  let val x := snd s (view_at F F (m x) (u x) x) in
  match fst s with
  | TFn k => ((fun x => if inner x then updf (F x) k (val x) else F x), (m, u))
  | TM k => (F, ((fun x => if inner x then updf (m x) k (val x) else m x), u))
  | TU d => (F, (m, (fun x => if inner x then updf (u x) d (val x) else u x)))
  end.
Definition numpy_run (inner : cell -> bool) (p : list stmt) (st : field * (field * field)) :=
  fold_left (numpy_stmt inner) p st.
End Algo.
Arguments mkView {K}. Arguments vf {K}. Arguments vfn {K}. Arguments vm {K}. Arguments vu {K}.
Arguments exec {K}. Arguments run {K}. Arguments assign {K}.
Arguments al_n {K}. Arguments al_nc {K}. Arguments al_dim {K}. Arguments al_M {K}. Arguments al_invM {K}.
Arguments al_Tu {K}. Arguments al_eq {K}. Arguments al_s {K}. Arguments al_relvel {K}. Arguments al_source {K}.
Arguments al_hdt {K}. Arguments mkAlgo {K}. Arguments vopp {K}. Arguments al_Mu {K}. Arguments al_invMu {K}.
Arguments transport_local {K}. Arguments f2m_local {K}. Arguments m2f_local {K}. Arguments equilibrium_local {K}.
Arguments relaxation_local {K}. Arguments source_of {K}. Arguments source_term_local {K}.
Arguments restore_conserved_moments {K}. Arguments with_source {K}. Arguments base_local {K}. Arguments pull_local {K}.
Arguments field K cell : clear implicits.
Arguments view_at {K cell}. Arguments cython_cell {K cell}. Arguments cython_loop {K cell}.
Arguments cython_loop_fluid {K cell}. Arguments numpy_stmt {K cell}. Arguments numpy_run {K cell}.
