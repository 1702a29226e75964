(* Model of pylbm/utils.py 26-31 and 42-61, itemproperty and bounditemproperty, and of the four attributes of
   Simulation which use it (simulation.py 200-243): m_halo, m, F_halo, F.

   The statements of the user are sol.p[i], sol.p[i] = v and sol.p[i] += w.  Python evaluates the last one
   as x = sol.p[i]; x += w; sol.p[i] = x, and x += w changes a NumPy array in place.  Exceptions are
   values which carry the state at the time of the exception.

   Simplifications: one array operation for all the cells, += is the only operator, i is an index (a symbol
   is replaced by its index in storage.py 129, 134, 156), one process.  item2property and bound2itemproperty
   (utils.py 34-39, 64-80) are not used in pylbm and are left out. *)
From Verif Require Import PyBase LinAlg AlgoModel RelVelProofs SimModel.

Section Item.
Variables (S key val : Type).
(* a property: its getter and its setter, if there is one *)
Record prop := mkProp { fget : option (S -> key -> S * val); fset : option (S -> key -> val -> S) }.
Inductive outcome (A : Type) := Done (s : S) (x : A) | Raise (s : S).
Arguments Done {A} s x.
Arguments Raise {A} s.
(* 48-55: AttributeError without getter *)
Definition getitem (p : prop) (s : S) (i : key) : outcome val :=
  match fget p with None => Raise s | Some g => let r := g s i in Done (fst r) (snd r) end.
(* 57-61: AttributeError without setter *)
Definition setitem (p : prop) (s : S) (i : key) (v : val) : outcome unit :=
  match fset p with None => Raise s | Some h => Done (h s i v) tt end.
(* x += w, in place; the name x is then bound to the result *)
Variable W : Type.
Variable iadd : S -> val -> W -> S * val.
Definition augmented (p : prop) (s : S) (i : key) (w : W) : outcome unit :=
  match getitem p s i with
  | Raise s1 => Raise s1
  | Done s1 x => let r := iadd s1 x w in setitem p (fst r) i (snd r)
  end.
End Item.
Arguments Done {S A} s x.
Arguments Raise {S A} s.

Section Attributes.
Variable K : ring.
Variable cell : Type.
Variable cell_eqb : cell -> cell -> bool.
Variable a : algo K.
Variable cells : list cell.
Variable params : Type.
Notation sim := (sim K cell params).
Notation inner := (inner cell cell_eqb cells).
(* what a getter returns: a view of a row of container.m or container.F, on all the stored cells or on the
   inner cells (storage.py 126-131, 147-157), or an array of the user *)
Inductive which := RM | RF.
Inductive value := View (w : which) (i : nat) (halo : bool) | Vals (v : cell -> K).
Definition row (s : sim) (w : which) (i : nat) : cell -> K := fun x => match w with RM => s_m _ _ _ s x i | RF => s_F _ _ _ s x i end.
Definition put (s : sim) (w : which) (i : nat) (v : cell -> K) : sim :=
  match w with RM => set_m _ _ _ s (write_row _ _ (s_m _ _ _ s) i v) | RF => set_F _ _ _ s (write_row _ _ (s_F _ _ _ s) i v) end.
(* the numbers of a value; the values given to the setters are arrays on all the stored cells *)
Definition numbers (s : sim) (v : value) : cell -> K := match v with View w i _ => row s w i | Vals v => v end.
(* ndarray.__iadd__: the memory of the view changes, the view is returned *)
Definition iadd (s : sim) (v : value) (w : cell -> K) : sim * value :=
  match v with
  | View r i halo => (put s r i (fun x => if (halo || inner x)%bool then (row s r i x + w x)%K else row s r i x), v)
  | Vals u => (s, Vals (fun x => (u x + w x)%K))
  end.
(* simulation.py 200-213 *)
Definition m_halo : prop sim nat value :=
  mkProp _ _ _ (Some (fun s i => (refresh K cell a params s, View RM i true)))
               (Some (fun s i v => let s1 := set_update _ _ _ s false in put s1 RM i (numbers s1 v))).
(* 215-224 *)
Definition m_in : prop sim nat value := mkProp _ _ _ (Some (fun s i => (refresh K cell a params s, View RM i false))) None.
(* 226-236 *)
Definition F_halo : prop sim nat value :=
  mkProp _ _ _ (Some (fun s i => (s, View RF i true)))
               (Some (fun s i v => let s1 := set_update _ _ _ s true in put s1 RF i (numbers s1 v))).
(* 238-243 *)
Definition F_in : prop sim nat value := mkProp _ _ _ (Some (fun s i => (s, View RF i false))) None.
Inductive attribute := AmH | Am | AFH | AF.
Definition attr (p : attribute) : prop sim nat value := match p with AmH => m_halo | Am => m_in | AFH => F_halo | AF => F_in end.

Inductive stmt := SGet (p : attribute) (i : nat) | SSet (p : attribute) (i : nat) (v : cell -> K) | SAug (p : attribute) (i : nat) (w : cell -> K).
Definition forget {A} (o : outcome sim A) : outcome sim unit := match o with Done s _ => Done s tt | Raise s => Raise s end.
Definition run_stmt (c : stmt) (s : sim) : outcome sim unit :=
  match c with
  | SGet p i => forget (getitem _ _ _ (attr p) s i)
  | SSet p i v => setitem _ _ _ (attr p) s i (Vals v)
  | SAug p i w => augmented _ _ _ _ iadd (attr p) s i w
  end.
End Attributes.
