(* Model of the equilibria of the walls: pylbm/boundary.py 191-224 (__init__), 238-305
   (prepare_rhs), 307-321 (update_feq), simulation.py 155-164 (_initialize) and 373-390
   (boundary_condition), for the points of one method. *)
From Verif Require Import PyBase LinAlg AlgoModel RelVelProofs GeometryModel.
Open Scope Z_scope.

Section Wall.
Variable K : ring.
Variable a : algo K.          (* the algorithm, hence the scheme *)
Variable point : Type.        (* coordinates of a point of the wall (262-273) *)

(* The columns of an array with one column per point: Array(nv, nspace, 0, sorder). *)
Definition cols := nat -> vec K.
Definition zeros : cols := fun _ _ => 0%K.

(* The function given by the user, with its own extra arguments (281-285): it writes the
   moments m and the distributions f; time: None if the function has no argument t.  The
   function is an oracle on the whole arrays. *)
Definition user := option K -> list point -> cols * cols -> cols * cols.
(* value and time_bc of a label: dico_bound[label].get("value", None), boundary.py 109-110 *)
Record bvalue := mkBV { v_user : option user; v_time : bool }.
Variable value : Z -> bvalue.

Variable ilabel : list Z.     (* labels of the points of the method *)
Variable pts : list point.    (* points of the wall, in the same order *)
Variable p0 : point.

(* 258: np.where(self.ilabel == key) *)
Definition indices_of (key : Z) : list nat := filter (fun i => nth i ilabel 0 =? key) (seq 0 (length ilabel)).
Definition args (key : Z) : list point := map (fun i => nth i pts p0) (indices_of key).

(* self.feq[:, indices] = f *)
Fixpoint position (i : nat) (l : list nat) : option nat :=
  match l with
  | [] => None
  | j :: l => if Nat.eqb i j then Some 0%nat else option_map S (position i l)
  end.
Definition set_cols (feq : cols) (idx : list nat) (f : cols) : cols :=
  fun i => match position i idx with Some j => f j | None => feq i end.

(* simulation.equilibrium(m); simulation.m2f(m, f): the generated kernels on the arrays
   of the user (base.py 371-380, 395-402), never with the relative velocity. *)
Definition w_equilibrium (m : cols) : cols :=
  fun j => vm (run (equilibrium_local (fixed_frame K a)) (mkView (fun _ => 0%K) (fun _ => 0%K) (m j) (fun _ => 0%K))).
Definition w_m2f (m f : cols) : cols :=
  fun j => vfn (run (m2f_local (fixed_frame K a)) (mkView (f j) (f j) (m j) (fun _ => 0%K))).

(* 287-293, 312-314: call of the function, equilibrium, m2f *)
Definition evaluate (u : user) (t : option K) (key : Z) (mf : cols * cols) : cols * cols :=
  let mf1 := u t (args key) mf in
  let m2 := w_equilibrium (fst mf1) in
  (m2, w_m2f m2 (snd mf1)).

(* The method: the array feq and the entries func, args, f, m, indices (219-224). *)
Record method_data := mkMD { d_feq : cols; d_timed : list (Z * user * (cols * cols)) }.
Definition new_method : method_data := mkMD zeros [].

(* 256-305: one key of value_bc *)
Definition prepare_key (d : method_data) (key : Z) : method_data :=
  match v_user (value key) with
  | None => d
  | Some u =>
      let mf := evaluate u (if v_time (value key) then Some 0%K else None) key (zeros, zeros) in
      mkMD (set_cols (d_feq d) (indices_of key) (snd mf))
           (if v_time (value key) then d_timed d ++ [(key, u, mf)] else d_timed d)
  end.
(* 212-214: the keys of value_bc are np.unique(self.ilabel) *)
Definition prepare_rhs (d : method_data) : method_data := fold_left prepare_key (unique ilabel) d.

(* 311-321: the arrays m and f of the previous call are given to the function again *)
Definition update_entry (t : K) (st : cols * list (Z * user * (cols * cols))) (e : Z * user * (cols * cols))
  : cols * list (Z * user * (cols * cols)) :=
  let '(key, u, mf) := e in
  let mf' := evaluate u (Some t) key mf in
  (set_cols (fst st) (indices_of key) (snd mf'), snd st ++ [(key, u, mf')]).
Definition update_feq (t : K) (d : method_data) : method_data :=
  let st := fold_left (update_entry t) (d_timed d) (d_feq d, []) in mkMD (fst st) (snd st).

(* simulation.py 155-164 then one call of boundary_condition at each time of the list *)
Definition wall_run (ts : list K) : method_data :=
  fold_left (fun d t => update_feq t d) ts (prepare_rhs new_method).
End Wall.
Arguments mkBV {K point}. Arguments v_user {K point}. Arguments v_time {K point}.
Arguments d_feq {K point}. Arguments d_timed {K point}. Arguments mkMD {K point}.
