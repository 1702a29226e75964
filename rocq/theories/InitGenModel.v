(* Model of Simulation.initialization, pylbm/simulation.py 254-318, on each process, with the
   generated kernels equilibrium, m2f and f2m (pylbm/algorithm/base.py 336-402) and the
   assignments array[key] = values of pylbm/storage.py 133-136. *)
From Coq Require Import QArith.
From Verif Require Import PyBase VelocityModel StencilModel GridModel StorageModel LinAlg AlgoModel GlobalModel GenModel StepGenModel SchemeModel BuildModel
  DomainModel GeometryModel BoundaryModel ParallelModel.
Open Scope Z_scope.

(* base.py 157-168, _get_space_idx_full: all the cells, with the halo. *)
Definition full_ranges (sizes : list Z) : ranges := map (fun n => (0, n)) sizes.

(* ---- the keys of "init" ---- a symbol of a conserved moment or an integer *)
Inductive ikey := ISym (c : nat) | IInt (z : Z).

Section Init.
Variable K : ring.
Variable a : salgo K.
Variable pos : nat.
Notation n := (sa_n K a).

(* ---- the kernels on the whole domain ---- base.py 336-344, 371-379, 396-402: the argument
   with_rel_velocity is left out, its default is False. *)
Definition still : salgo K :=
  mkSalgo K n (sa_nc K a) (sa_dim K a) (sa_M K a) (sa_invM K a) (sa_Tu K a) (sa_eq K a) (sa_s K a) None (sa_source K a) (sa_hdt K a).
(* f and m are Indexed at the cell, for both printers: the arrays 0 and 1 *)
Definition on_cell (d : nat) (sp : list (sstmt K)) : list (GenModel.stmt K) := map (np_stmt K pos d n (fun _ => repeat 0 d)) sp.
Definition gen_equilibrium (d : nat) := on_cell d (sequilibrium K still).
Definition gen_m2f (d : nat) := on_cell d (sm2f K still).
Definition gen_f2m (d : nat) := on_cell d (sf2m K still YNew).
(* call_function: None is an error of NumPy *)
Definition call (be : backend) (sizes : list Z) (p : list (GenModel.stmt K)) (A : arrays K) : option (arrays K) := match be with
  | Cython => Some (fst (cython K p (nest (full_ranges sizes)) (A, fun _ => 0%K)))
  | Numpy => option_map fst (numpy K (full_ranges sizes) (fun _ => ins pos (Z.of_nat n) sizes) p A)
  end.

(* ---- array_to_init[k] = values ---- storage.py 133-136; container.py 60-61: consm of the
   scheme.  None: KeyError, IndexError. *)
Variable consm : list (nat * nat).
Definition row_of (k : ikey) : option nat := match k with
  | ISym c => odict_get consm c
  | IInt z => if (0 <=? z) && (z <? Z.of_nat n) then Some (Z.to_nat z)
              else if (- Z.of_nat n <=? z) && (z <? 0) then Some (Z.to_nat (z + Z.of_nat n)) else None
  end.
(* swaparray is the array with the component first *)
Definition set_row (X : list Z -> K) (r : nat) (v : list Z -> K) : list Z -> K :=
  fun q => if nth pos q 0 =? Z.of_nat r then v (drop_at pos q) else X q.
(* 302-312: a function (with its extra arguments) or a number; 282-284: called with the
   coordinates of all the cells, with the halo (point, DomainModel.v).  Simplification: a
   function of the user works element by element. *)
Fixpoint set_rows (g : grid) (l : list (ikey * (list Q -> K))) (X : list Z -> K) : option (list Z -> K) := match l with
  | [] => Some X
  | (k, v) :: l => match row_of k with Some r => set_rows g l (set_row X r (fun i => v (point g i))) | None => None end
  end.

(* mom: init_type is "moments".  data: dico["init"], None without the key (296-300).  The arrays
   f, m, fnew are 0, 1, 2; in NumPy Fnew is F (container.py 69) and the array 2 is not used. *)
Definition initialization (be : backend) (mom : bool) (g : grid) (sizes : list Z) (data : option (list (ikey * (list Q -> K)))) (A : arrays K) : option (arrays K) :=
  match data with
  | None => Some A
  | Some l =>
      let nm := if mom then 1%nat else 0%nat in
      match set_rows g l (A nm) with
      | None => None
      | Some X =>
          let A1 : arrays K := fun k => if Nat.eqb k nm then X else A k in
          let A2 := if mom then match call be sizes (gen_equilibrium (length sizes)) A1 with
                                | Some B => call be sizes (gen_m2f (length sizes)) B
                                | None => None
                                end
                    else call be sizes (gen_f2m (length sizes)) A1 in
          match A2 with
          | None => None
          | Some B => Some (fun k => if Nat.eqb k 2 then B 0%nat else B k)   (* 318 *)
          end
      end
  end.
(* on the process c: np.zeros (storage.py 104), the coordinates and the sizes of the process *)
Definition start_at (be : backend) (mom : bool) (g : grid) (ps : list nat) (data : option (list (ikey * (list Q -> K)))) (c : list nat) : option (arrays K) :=
  initialization be mom (local_grid g ps c) (sizes_of (proc_axes g ps) c) data (fun _ _ => 0%K).
(* the state of whole_two (F, Fnew) and of whole_one (F, m) of WholeModel.v *)
Definition start (be : backend) (mom : bool) (g : grid) (ps : list nat) (data : option (list (ikey * (list Q -> K)))) : fields K * fields K :=
  let res c := match start_at be mom g ps data c with Some A => A | None => fun _ _ => 0%K end in
  ((fun c => field_of K pos (res c 0%nat)), (fun c => field_of K pos (res c (match be with Cython => 2 | Numpy => 1 end)%nat))).
End Init.

(* scheme.py 225-241: the conserved moments are in front, in the order of consm *)
Definition scheme_consm (K : ring) inv simp (ds : list (sdict K)) : list (nat * nat) := match before_swap K inv simp ds with
  | Some b => combine (map fst (b_consm K b)) (seq 0 (length (b_consm K b)))
  | None => []
  end.
