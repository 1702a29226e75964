(* Model of pylbm/simulation.py, class Simulation: the state kept between the public
   operations and the operations (one process; the cells are the stored cells of the
   process, ghosts included). *)
From Verif Require Import PyBase LinAlg AlgoModel RelVelProofs.

Section Sim.
Variable K : ring.
Variable cell : Type.
Variable cell_eqb : cell -> cell -> bool.
Notation field := (field K cell).
Variable a : algo K.                    (* the algorithm, hence the scheme *)
Variable nb : nat -> cell -> cell.      (* x - v_k *)
Variable cells : list cell.             (* the inner cells, in the order of the loops *)
Variable B : field -> field.            (* boundary_condition 373-390: F.update() and the methods *)
Variable init : option (list (nat * (cell -> K))).  (* the entry 'init', in order: index of the moment or distribution, values on the stored cells *)
Variable init_moments : bool.           (* inittype: moments or distributions *)
Variable params : Type.                 (* extra_parameters *)

(* container.py: NumpyContainer (Fnew is F) or CythonContainer *)
Inductive backend := One | Two.
Variable bk : backend.

(* 105-110, 155-163.  s_dt: the time step is a symbolic expression until it is read
   for the first time, then a number. *)
Record sim := mkSim {
  s_F : field; s_Fnew : field; s_m : field; s_u : field;
  s_update : bool; s_need_init : bool;
  s_t : K; s_nt : nat; s_dt : (params -> K) + K; s_par : params }.

Definition set_F s F := mkSim F (s_Fnew s) (s_m s) (s_u s) (s_update s) (s_need_init s) (s_t s) (s_nt s) (s_dt s) (s_par s).
Definition set_Fnew s G := mkSim (s_F s) G (s_m s) (s_u s) (s_update s) (s_need_init s) (s_t s) (s_nt s) (s_dt s) (s_par s).
Definition set_m s m := mkSim (s_F s) (s_Fnew s) m (s_u s) (s_update s) (s_need_init s) (s_t s) (s_nt s) (s_dt s) (s_par s).
Definition set_u s u := mkSim (s_F s) (s_Fnew s) (s_m s) u (s_update s) (s_need_init s) (s_t s) (s_nt s) (s_dt s) (s_par s).
Definition set_update s b := mkSim (s_F s) (s_Fnew s) (s_m s) (s_u s) b (s_need_init s) (s_t s) (s_nt s) (s_dt s) (s_par s).
Definition set_need s b := mkSim (s_F s) (s_Fnew s) (s_m s) (s_u s) (s_update s) b (s_t s) (s_nt s) (s_dt s) (s_par s).
Definition set_time s t k := mkSim (s_F s) (s_Fnew s) (s_m s) (s_u s) (s_update s) (s_need_init s) t k (s_dt s) (s_par s).
Definition set_dt s d := mkSim (s_F s) (s_Fnew s) (s_m s) (s_u s) (s_update s) (s_need_init s) (s_t s) (s_nt s) d (s_par s).
Definition set_par s p := mkSim (s_F s) (s_Fnew s) (s_m s) (s_u s) (s_update s) (s_need_init s) (s_t s) (s_nt s) (s_dt s) p.

(* 191-198: the property dt *)
Definition dt_value (s : sim) : K := match s_dt s with inl e => e (s_par s) | inr v => v end.
Definition read_dt (s : sim) : sim := set_dt s (inr (dt_value s)).

(* base.py 336-345, 371-380, 395-402, 430-437: kernels local to a cell, on the
   whole array (all the stored cells), never with the relative velocity.  base.py 658:
   every call of a kernel reads simulation.dt. *)
Definition cell_kernel (p : list (stmt K)) (s : sim) (x : cell) : view K :=
  run p (mkView (s_F s x) (s_F s x) (s_m s x) (s_u s x)).
Definition k_f2m (s : sim) : sim := read_dt (set_m s (fun x => vm (cell_kernel (f2m_local (fixed_frame K a) vf) s x))).
Definition k_m2f (s : sim) : sim := read_dt (set_F s (fun x => vfn (cell_kernel (m2f_local (fixed_frame K a)) s x))).
Definition k_equilibrium (s : sim) : sim := read_dt (set_m s (fun x => vm (cell_kernel (equilibrium_local (fixed_frame K a)) s x))).
Definition k_relaxation (s : sim) : sim := read_dt (set_m s (fun x => vm (cell_kernel (relaxation_local (fixed_frame K a)) s x))).
Definition inner (x : cell) : bool := existsb (cell_eqb x) cells.
(* 497-504: the source term, on the inner cells only (_get_space_idx_inner); without sources the
   kernel does not exist and the call raises AttributeError (617-618), which is not modelled *)
Definition k_source (s : sim) : sim :=
  read_dt (set_m s (fun x => if inner x then vm (cell_kernel (source_term_local (fixed_frame K a)) s x) else s_m s x)).
(* the kernels transport (base.py 289-296) and one_time_step (551-600), on the inner
   cells; junk: the local variables of the compiled function before the first cell *)
Definition k_transport (s : sim) : sim :=
  match bk with
  | One => read_dt (set_F s (fst (numpy_run nb inner (transport_local a) (s_F s, (s_m s, s_u s)))))
  | Two => read_dt (set_Fnew s (fst (cython_loop cell_eqb nb (transport_local a) cells (s_F s) (s_Fnew s, (fun _ => 0%K, fun _ => 0%K)))))
  end.
Definition k_step (s : sim) : sim :=
  match bk with
  | One => let r := numpy_run nb inner (pull_local a) (s_F s, (s_m s, s_u s)) in
           read_dt (set_u (set_m (set_F s (fst r)) (fst (snd r))) (snd (snd r)))
  | Two => read_dt (set_Fnew s (fst (cython_loop cell_eqb nb (pull_local a) cells (s_F s) (s_Fnew s, (fun _ => 0%K, fun _ => 0%K)))))
  end.
(* 417: exchange of container.F and container.Fnew *)
Definition swap_buffers (s : sim) : sim :=
  match bk with One => s | Two => set_Fnew (set_F s (s_Fnew s)) (s_F s) end.

(* array[i] = value: one moment or distribution, on all the cells *)
Definition write_row (A : field) (i : nat) (v : cell -> K) : field := fun x => updf (A x) i (v x).
(* 300-311: the values of the user (a function of the coordinates or a constant) are
   written in the array of the moments or of the distributions, not through the
   properties *)
Definition write_rows (A : field) (d : list (nat * (cell -> K))) : field :=
  fold_left (fun A r => write_row A (fst r) (snd r)) d A.
(* 257-320: initialization; 294-298: nothing at all without the entry 'init' *)
Definition initialization (s : sim) : sim :=
  match init with
  | None => s
  | Some d =>
      let s1 := if init_moments then k_m2f (k_equilibrium (set_m s (write_rows (s_m s) d)))
                else k_f2m (set_F s (write_rows (s_F s) d)) in
      match bk with One => s1 | Two => set_Fnew s1 (s_F s1) end
  end.
(* 156-164 *)
Definition initialize (s : sim) : sim := set_need (initialization s) false.

(* 200-225: reading the moments recomputes them if the flag is set *)
Definition refresh (s : sim) : sim := if s_update s then k_f2m (set_update s false) else s.

(* 392-420 *)
Definition one_time_step (s : sim) : sim :=
  let s0 := if s_need_init s then initialize s else s in
  let s1 := set_update s0 true in
  let s2 := set_F s1 (B (s_F s1)) in
  let s3 := swap_buffers (k_step s2) in
  let s4 := read_dt s3 in
  set_time s4 (s_t s4 + dt_value s4)%K (S (s_nt s4)).

Inductive op :=
  | OStep                              (* one_time_step() *)
  | OReadM                             (* simu.m[i], simu.m_halo[i] *)
  | OReadF                             (* simu.F[i], simu.F_halo[i] *)
  | OWriteM (i : nat) (v : cell -> K)  (* simu.m_halo[i] = v *)
  | OWriteF (i : nat) (v : cell -> K)  (* simu.F_halo[i] = v *)
  | OViewM (i : nat) (v : cell -> K)   (* simu.m[i][...] = v *)
  | OViewF (i : nat) (v : cell -> K)   (* simu.F[i][...] = v *)
  | OTransport | ORelaxation | OSource | OF2m | OM2f | OEquilibrium
  | OBoundary                          (* boundary_condition() *)
  | OParam (p : params).               (* changes of extra_parameters *)

Definition apply (o : op) (s : sim) : sim :=
  match o with
  | OStep => one_time_step s
  | OReadM => refresh s
  | OReadF => s
  | OWriteM i v => let s1 := set_update s false in set_m s1 (write_row (s_m s1) i v)
  | OWriteF i v => let s1 := set_update s true in set_F s1 (write_row (s_F s1) i v)
  | OViewM i v => let s1 := refresh s in set_m s1 (write_row (s_m s1) i v)
  | OViewF i v => set_F s (write_row (s_F s) i v)
  | OTransport => k_transport s
  | ORelaxation => k_relaxation s
  | OSource => k_source s
  | OF2m => k_f2m s
  | OM2f => k_m2f s
  | OEquilibrium => k_equilibrium s
  | OBoundary => set_F s (B (s_F s))
  | OParam p => set_par s p
  end.
Definition exec_ops (l : list op) (s : sim) : sim := fold_left (fun s o => apply o s) l s.
(* what the user reads *)
Definition read_m (s : sim) : field := s_m (refresh s).
End Sim.
