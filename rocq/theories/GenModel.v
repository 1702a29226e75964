(* Model of the kernels written by the code generators: the loops of the Cython printer and
   the slices of the NumPy printer.  generator/ast.py, generator/printing/cython.py,
   generator/printing/pycode.py. *)
From Verif Require Import PyBase AlgoModel GlobalModel.
Open Scope Z_scope.

Section Gen.
Variable V : Type.

(* ---- the kernel, For(target, body) ---- ast.py 858-924
   An index of an Indexed is a number, or an Idx of the target plus a number (symbolic.py
   193-199: indices[ik] + int(k)); the Idx are numbered by their place in the target.
   Simplification: the bounds of the Idx are numbers, not expressions in nx, ny, nz. *)
Inductive index := ICst (z : Z) | IIdx (j : nat) (c : Z).
Record access := mkAcc { a_name : nat; a_idx : list index }.
(* Right hand sides: numbers and scalar arguments, local symbols, Indexed, functions. *)
Inductive expr :=
| ENum (v : V)
| ELoc (k : nat)
| EGet (a : access)
| EUn (o : V -> V) (e : expr)
| EBin (o : V -> V -> V) (e1 e2 : expr).
(* Assignments, a matrix assignment being split in its elements by the printers
   (cython.py 334-342, pycode.py 1114-1122). *)
Inductive stmt := SSet (a : access) (e : expr) | SLoc (k : nat) (e : expr).
Definition ranges := list (Z * Z).
Definition arrays := nat -> list Z -> V.

Definition same (n m : nat) (p q : list Z) : bool := Nat.eqb n m && list_eqb p q.
Definition store (A : arrays) (n : nat) (p : list Z) (v : V) : arrays := fun m q => if same m n q p then v else A m q.

(* ---- Cython ---- cython.py 301-315, _print_For: one "for" for each Idx, the first is the
   outermost; 211-218: the Idx are printed by their labels.  boundscheck and wraparound are
   off (codegen.py 1041-1042): an index out of the array is undefined, the model reads and
   writes a cell of a larger memory. *)
Fixpoint nest (rs : ranges) : list (list Z) := match rs with
  | [] => [[]]
  | (l, u) :: rs => flat_map (fun i => map (cons i) (nest rs)) (zrange l u)
  end.
Definition ix_at (x : list Z) (t : index) : Z := match t with ICst z => z | IIdx j c => nth j x 0 + c end.
Definition addr (x : list Z) (a : access) : list Z := map (ix_at x) (a_idx a).
Fixpoint ceval (A : arrays) (L : nat -> V) (x : list Z) (e : expr) : V := match e with
  | ENum v => v
  | ELoc k => L k
  | EGet a => A (a_name a) (addr x a)
  | EUn o e => o (ceval A L x e)
  | EBin o e1 e2 => o (ceval A L x e1) (ceval A L x e2)
  end.
Definition cexec (x : list Z) (st : arrays * (nat -> V)) (s : stmt) : arrays * (nat -> V) := match s with
  | SSet a e => (store (fst st) (a_name a) (addr x a) (ceval (fst st) (snd st) x e), snd st)
  | SLoc k e => (fst st, updf (snd st) k (ceval (fst st) (snd st) x e))
  end.
Definition ccell (p : list stmt) (st : arrays * (nat -> V)) (x : list Z) : arrays * (nat -> V) := fold_left (cexec x) p st.
Definition cython (p : list stmt) (cells : list (list Z)) (st : arrays * (nat -> V)) : arrays * (nat -> V) := fold_left (ccell p) cells st.

(* ---- NumPy ---- pycode.py 1087-1095, _print_For: the statements one after the other,
   without loop; 1063-1085: an Idx plus a number is printed "lower + c:upper + c". *)
Inductive sel := SelAt (z : Z) | SelSl (start len : Z).
(* the semantics of the basic indices of NumPy for an axis of length n *)
Definition norm (n z : Z) : Z := if z <? 0 then Z.max 0 (z + n) else Z.min z n.
Definition resolve1 (rs : ranges) (n : Z) (t : index) : option sel := match t with
  | ICst z => if (- n <=? z) && (z <? n) then Some (SelAt (if z <? 0 then z + n else z)) else None
  | IIdx j c => let r := nth j rs (0, 0) in let s := norm n (fst r + c) in Some (SelSl s (Z.max 0 (norm n (snd r + c) - s)))
  end.
(* Simplification: fewer indices than axes is an error (NumPy takes the whole axes). *)
Fixpoint resolve (rs : ranges) (shape : list Z) (idx : list index) : option (list sel) := match shape, idx with
  | [], [] => Some []
  | n :: shape, t :: idx => match resolve1 rs n t, resolve rs shape idx with Some s, Some l => Some (s :: l) | _, _ => None end
  | _, _ => None
  end.
Definition sel_shape (l : list sel) : list Z := flat_map (fun s => match s with SelAt _ => [] | SelSl _ n => [n] end) l.
Fixpoint sel_addr (l : list sel) (i : list Z) : list Z := match l with
  | [] => []
  | SelAt z :: l => z :: sel_addr l i
  | SelSl s _ :: l => (s + hd 0 i) :: sel_addr l (tl i)
  end.
(* the index in the view of the index p of the array *)
Fixpoint sel_find (l : list sel) (p : list Z) : option (list Z) := match l, p with
  | [], [] => Some []
  | SelAt z :: l, q :: p => if q =? z then sel_find l p else None
  | SelSl s n :: l, q :: p => if (s <=? q) && (q <? s + n) then option_map (cons (q - s)) (sel_find l p) else None
  | _, _ => None
  end.
(* Values: an Indexed is a view of the array; other expressions are new arrays. *)
Inductive nval := NView (name : nat) (l : list sel) | NVal (shape : list Z) (get : list Z -> V).
Definition nshape (v : nval) : list Z := match v with NView _ l => sel_shape l | NVal s _ => s end.
Definition nget (A : arrays) (v : nval) (i : list Z) : V := match v with NView n l => A n (sel_addr l i) | NVal _ g => g i end.
(* broadcasting, from the last axes *)
Fixpoint bzip (s t : list Z) : option (list Z) := match s, t with
  | [], _ => Some t
  | _, [] => Some s
  | a :: s, b :: t =>
      match (if a =? b then Some a else if a =? 1 then Some b else if b =? 1 then Some a else None), bzip s t with
      | Some d, Some r => Some (d :: r)
      | _, _ => None
      end
  end.
Definition bshape (s t : list Z) : option (list Z) := option_map (@rev Z) (bzip (rev s) (rev t)).
Fixpoint bidx (s i : list Z) : list Z := match s with
  | [] => []
  | a :: s => (if a =? 1 then 0 else hd 0 i) :: bidx s (tl i)
  end.
Definition bget (A : arrays) (v : nval) (i : list Z) : V := nget A v (rev (bidx (rev (nshape v)) (rev i))).

Definition nlocals := nat -> option nval.
Fixpoint neval (rs : ranges) (sh : nat -> list Z) (A : arrays) (L : nlocals) (e : expr) : option nval := match e with
  | ENum v => Some (NVal [] (fun _ => v))
  | ELoc k => L k
  | EGet a => match resolve rs (sh (a_name a)) (a_idx a) with
              | Some l => match sel_shape l with [] => Some (NVal [] (fun _ => A (a_name a) (sel_addr l []))) | _ => Some (NView (a_name a) l) end
              | None => None
              end
  | EUn o e => match neval rs sh A L e with Some v => Some (NVal (nshape v) (fun i => o (nget A v i))) | None => None end
  | EBin o e1 e2 => match neval rs sh A L e1, neval rs sh A L e2 with
      | Some v1, Some v2 => match bshape (nshape v1) (nshape v2) with
          | Some s => Some (NVal s (fun i => o (bget A v1 i) (bget A v2 i)))
          | None => None
          end
      | _, _ => None
      end
  end.
Definition shape_eqb (s t : list Z) : bool := list_eqb s t.
Definition nexec (rs : ranges) (sh : nat -> list Z) (st : option (arrays * nlocals)) (s : stmt) : option (arrays * nlocals) :=
  match st with
  | None => None
  | Some (A, L) =>
    match s with
    | SSet a e =>
        match resolve rs (sh (a_name a)) (a_idx a), neval rs sh A L e with
        | Some l, Some v =>
            match bshape (sel_shape l) (nshape v) with
            | Some t => if shape_eqb t (sel_shape l)
                then Some ((fun m q => if Nat.eqb m (a_name a) then match sel_find l q with Some i => bget A v i | None => A m q end else A m q), L)
                else None
            | None => None
            end
        | _, _ => None
        end
    | SLoc k e => match neval rs sh A L e with Some v => Some (A, updf L k (Some v)) | None => None end
    end
  end.
Definition numpy (rs : ranges) (sh : nat -> list Z) (p : list stmt) (A : arrays) : option (arrays * nlocals) :=
  fold_left (nexec rs sh) p (Some (A, fun _ => None)).

(* ---- the Indexed of the algorithms ---- symbolic.py 84-110, 113-208 (set_order, indexed),
   algorithm/base.py 195-250: the number of the component at the place pos (sorder[0]), the
   Idx plus the shift v at the other places.  Simplification: the axes of the space are in
   the order of the target (the other orders are in C13). *)
Definition ins {X : Type} (pos : nat) (a : X) (l : list X) : list X := firstn pos l ++ a :: skipn pos l.
Definition idx_from (j : nat) (v : list Z) : list index := map (fun jc => IIdx (fst jc) (snd jc)) (combine (seq j (length v)) v).
Definition indexed_at (pos name k : nat) (v : list Z) : access := mkAcc name (ins pos (ICst (Z.of_nat k)) (idx_from 0 v)).
Definition here (pos d name k : nat) : access := indexed_at pos name k (repeat 0 d).

(* ---- the moments as local symbols ---- base.py 560-569: with the setting m_local (Cython),
   m is a MatrixSymbol, its elements are local variables of the loop; without it (NumPy) m
   is the array of the moments, read and written at the cell.  code gives the number of the
   local variable of an element. *)
Section Local.
Variables (mn : nat) (code : access -> nat).
Fixpoint loc_expr (e : expr) : expr := match e with
  | ENum v => ENum v
  | ELoc k => ELoc k
  | EGet a => if Nat.eqb (a_name a) mn then ELoc (code a) else EGet a
  | EUn o e => EUn o (loc_expr e)
  | EBin o e1 e2 => EBin o (loc_expr e1) (loc_expr e2)
  end.
Definition loc_stmt (s : stmt) : stmt := match s with
  | SSet a e => if Nat.eqb (a_name a) mn then SLoc (code a) (loc_expr e) else SSet a (loc_expr e)
  | SLoc k e => SLoc k (loc_expr e)
  end.
End Local.

(* ---- the kernel one_time_step ---- pull.py 13-66, base.py 552-600: for the cells vmax..n-vmax
   of each axis, assignments of moments and of fnew at the cell, and of local symbols (the
   relative velocity), whose right hand sides read f at x - v_l and the moments at the cell.
   The arrays f, m and fnew are numbered 0, 1 and 2. *)
Definition inner_ranges (vmax sizes : list Z) : ranges := map (fun hn => (fst hn, snd hn - fst hn)) (combine vmax sizes).
Definition f_at (pos : nat) (v : nat -> list Z) (l : nat) : access := indexed_at pos 0 l (map Z.opp (v l)).
Definition m_at (pos d l : nat) : access := here pos d 1 l.
Definition fnew_at (pos d l : nat) : access := here pos d 2 l.
(* the number of the component *)
Definition comp (pos : nat) (a : access) : nat := match nth pos (a_idx a) (ICst 0) with ICst z => Z.to_nat z | IIdx _ _ => 0%nat end.

(* ---- the setting split ---- base.py 589-591: a loop for each statement. *)
Definition cython_split (p : list stmt) (cells : list (list Z)) (st : arrays * (nat -> V)) : arrays * (nat -> V) :=
  fold_left (fun st s => cython [s] cells st) p st.
End Gen.
Arguments ENum {V}. Arguments ELoc {V}. Arguments EGet {V}. Arguments EUn {V}. Arguments EBin {V}.
Arguments SSet {V}. Arguments SLoc {V}. Arguments NView {V}. Arguments NVal {V}.
