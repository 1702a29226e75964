(* Model of pylbm/boundary.py: the lists of boundary points, the points that are
   read, and the update of the distributions; simulation.py 374-390. *)
From Verif Require Import PyBase VelocityModel StencilModel GridModel LinAlg GlobalModel DomainModel.
From Coq Require Import QArith.
Open Scope Z_scope.

Inductive method := MBounceBack | MBouzidi | MAnti | MBouzidiAnti | MNeumann | MNeumannX | MNeumannY | MNeumannZ.
Definition method_eqb (a b : method) : bool :=
  match a, b with
  | MBounceBack, MBounceBack | MBouzidi, MBouzidi | MAnti, MAnti | MBouzidiAnti, MBouzidiAnti
  | MNeumann, MNeumann | MNeumannX, MNeumannX | MNeumannY, MNeumannY | MNeumannZ, MNeumannZ => true
  | _, _ => false
  end.

(* One column of istore, ilabel, distance, normal. *)
Record blink := mkB { b_k : nat; b_cell : cell; b_lab : Z; b_dist : Q; b_norm : nat -> Q }.

Section Points.
Variable st : stencil.
Variable g : grid.
Variable D : dom.

(* all the cells of an array with halo, in the order of np.where *)
Definition array_cells : list cell := nested (map (fun d => zrange 0 (total g d)) (axes g)).

(* BoundaryVelocity, 23-47.  get_symmetric, unum2index[v.num]; the mark -1000 of a
   missing velocity is an index out of bounds. *)
Definition bvel (lab : Z) (ksym : nat) : option (list (cell * link)) :=
  match nth_error (sunique st) ksym with
  | None => None
  | Some w =>
    match VelocityModel.get_symmetric w None with
    | SymOk v =>
      match nth_error (sunum2index st) (Z.to_nat (vnum v)) with
      | Some num =>
        if num <? 0 then None
        else
          let num := Z.to_nat num in
          let ind := filter (fun x => l_flag (d_link D num x) =? lab) array_cells in
          Some (map (fun x => (shift g x (vel_list v), d_link D num x)) ind)
      | None => None
      end
    | _ => None
    end
  end.

(* 81-89: one entry per unique velocity *)
Definition bv_table (lab : Z) : option (list (list (cell * link))) :=
  mapM (bvel lab) (seq 0 (length (sunique st))).

(* 111-146, one label, one scheme s of methods.items(), velocity inumk numbered
   numk: the columns to append *)
Definition velocity_links (tab : list (list (cell * link))) (lab : Z) (s : nat) (iv : nat * velocity) :
    option (list blink) :=
  match nth_error (sunum2index st) (Z.to_nat (vnum (snd iv))), nth_error (snv_ptr st) s with
  | Some idx, Some p =>
    match nth_error tab (Z.to_nat idx) with
    | Some l => Some (map (fun xl => mkB (fst iv + Z.to_nat p) (fst xl) lab (l_dist (snd xl)) (l_norm (snd xl))) l)
    | None => None
    end
  | _, _ => None
  end.
Definition scheme_links (tab : list (list (cell * link))) (lab : Z) (sm : nat * method) :
    option (list (method * list blink)) :=
  match nth_error (sv st) (fst sm) with
  | None => None
  | Some vs => option_map (map (fun l => (snd sm, l))) (mapM (velocity_links tab lab (fst sm)) (numbered vs))
  end.
(* methods of the labels: dico["boundary_conditions"][label]["method"] *)
Variable conds : Z -> list (nat * method).
Definition label_links (lab : Z) : option (list (method * list blink)) :=
  if (lab =? -1) || (lab =? -2) then Some []
  else match bv_table lab with
       | None => None
       | Some tab => option_map (@concat _) (mapM (scheme_links tab lab) (conds lab))
       end.
(* the dictionaries istore, ... keyed by the method (ordered by first insertion) *)
Fixpoint append_to (m : method) (l : list blink) (acc : list (method * list blink)) : list (method * list blink) :=
  match acc with
  | [] => [(m, l)]
  | (m', l') :: r => if method_eqb m' m then (m', l' ++ l) :: r else (m', l') :: append_to m l r
  end.
Definition group (ls : list (method * list blink)) : list (method * list blink) :=
  fold_left (fun acc ml => match snd ml with [] => acc | _ => append_to (fst ml) (snd ml) acc end) ls [].
(* Boundary.__init__, 77-160; labels is domain.list_of_labels() *)
Definition boundary (labels : list Z) : option (list (method * list blink)) :=
  option_map (fun l => group (concat l)) (mapM label_links labels).

(* prepare_rhs, 262-267: the coordinates given to the user's function *)
Definition bcoord (b : blink) (d : nat) : Q :=
  ((point g (b_cell b))@@d + (1 - b_dist b) * inject_Z (nth (b_k b) (get_all_velocities st) [])@d * g_dx g)%Q.
End Points.

(* ---------------------------------------------------------------- updates -- *)
Section Update.
Variable K : arith.
Variable qk : Q -> K.                    (* the distances as numbers of K *)
Variable g : grid.
Variable vel : nat -> list Z.            (* get_all_velocities() *)
Variable sym : nat -> nat.               (* get_symmetric() *)
Variable feq : blink -> nat -> K.        (* prepare_rhs, update_feq: column of feq *)

Definition dfield := nat -> cell -> K.
Definition dupd (F : dfield) (k : nat) (y : cell) (x : K) : dfield :=
  fun k' c => if Nat.eqb k' k && list_eqb c y then x else F k' c.

(* istore + v[k], istore + 2 v[k] *)
Definition ahead (b : blink) : cell := shift g (b_cell b) (vel (b_k b)).
Definition ahead2 (b : blink) : cell := shift g (b_cell b) (map (fun x => 2 * x) (vel (b_k b))).
Definition ahead_axis (a : nat) (b : blink) : cell :=
  shift g (b_cell b) (map (fun d => if Nat.eqb d a then (vel (b_k b))@d else 0) (axes g)).
Definition near (b : blink) : bool := Qltb (b_dist b) (1 # 2).
(* s, 518-531 *)
Definition bz_s (d : Q) : Q := if Qltb d (1 # 2) then (2 * d)%Q else ((1 # 2) / d)%Q.

(* set_iload: 411-419, 508-534, 777-784, 834-842, 858-866, 882-890 *)
Definition iload0 (m : method) (b : blink) : nat * cell :=
  match m with
  | MNeumann => (b_k b, ahead b)
  | MNeumannX => (b_k b, ahead_axis 0 b)
  | MNeumannY => (b_k b, ahead_axis 1 b)
  | MNeumannZ => (b_k b, ahead_axis 2 b)
  | _ => (sym (b_k b), ahead b)
  end.
Definition iload1 (b : blink) : nat * cell :=
  if near b then (sym (b_k b), ahead2 b) else (b_k b, ahead b).
(* set_rhs: 421-427, 561-567, 637-643, 698-704, 771-775 *)
Definition rhs (m : method) (b : blink) : K :=
  match m with
  | MBounceBack | MBouzidi => (feq b (b_k b) - feq b (sym (b_k b)))%K
  | MAnti | MBouzidiAnti => (feq b (b_k b) + feq b (sym (b_k b)))%K
  | _ => r0
  end.
Definition at_ (F : dfield) (p : nat * cell) : K := F (fst p) (snd p).
(* generate (430-462, 570-616, 646-677, 707-753, 787-817): the right hand side of the assignment.  F is the array that is read. *)
Definition bvalue (m : method) (F : dfield) (b : blink) : K :=
  let s := qk (bz_s (b_dist b)) in
  match m with
  | MBounceBack => (at_ F (iload0 m b) + rhs m b)%K
  | MAnti => (- at_ F (iload0 m b) + rhs m b)%K
  | MBouzidi => (s * at_ F (iload0 m b) + (1 - s) * at_ F (iload1 b) + rhs m b)%K
  | MBouzidiAnti => (- s * at_ F (iload0 m b) + (1 - s) * at_ F (iload1 b) + rhs m b)%K
  | _ => at_ F (iload0 m b)
  end.
(* One call of update.  The Cython code runs the loop in order and reads f, except
   for Bouzidi bounce back which reads fcopy (536-559); the NumPy code evaluates the
   right hand sides of all the points before it stores them. *)
Inductive backend := Cython | Numpy.
Definition reads_copy (be : backend) (m : method) : bool :=
  match be, m with Numpy, _ | Cython, MBouzidi => true | _, _ => false end.
Definition bupdate (be : backend) (m : method) (l : list blink) (F0 : dfield) : dfield :=
  fold_left (fun F b => dupd F (b_k b) (b_cell b) (bvalue m (if reads_copy be m then F0 else F) b)) l F0.
(* simulation.py 387-390 *)
Definition boundary_condition (be : backend) (ms : list (method * list blink)) (F : dfield) : dfield :=
  fold_left (fun F ml => bupdate be (fst ml) (snd ml) F) ms F.
(* transport: f_k(x) <- f_k(x - v_k) *)
Definition btransport (F : dfield) : dfield := fun k x => F k (shift g x (map Z.opp (vel k))).
End Update.
