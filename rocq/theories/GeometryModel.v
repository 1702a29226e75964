(* Model of pylbm/geometry.py (get_box, Geometry.__init__, add_elem,
   list_of_labels) and of the labels of the elements (elements/base.py).
   Labels are integers. *)
From Verif Require Import PyBase.

(* The box dictionary: the intervals x, y, z, None when the key is missing. *)
Record box (I : Type) := mkBox { b_x : option I; b_y : option I; b_z : option I }.
Arguments mkBox {I}. Arguments b_x {I}. Arguments b_y {I}. Arguments b_z {I}.
(* get_box, geometry.py 23-64: dimension and bounds.  None: without x the error is
   logged and the return statement raises UnboundLocalError. *)
Definition get_box {I : Type} (b : box I) : option (nat * list I) :=
  match b_x b with
  | None => None
  | Some x =>
      match b_y b with
      | None => Some (1, [x])
      | Some y => match b_z b with
                  | None => Some (2, [x; y])
                  | Some z => Some (3, [x; y; z])
                  end
      end
  end.

(* The value given for a label: an integer or a list. *)
Inductive lab := LInt (l : Z) | LList (l : list Z).
(* geometry.py 118-128; a missing label is LInt (-1).  A list of the wrong size is
   only logged. *)
Definition box_label (dim : nat) (l : lab) : list Z :=
  match l with LInt z => repeat z (2 * dim) | LList l => l end.
(* elements/base.py 35-41: the result of test_label is not used. *)
Definition elem_label (number_of_bounds : nat) (l : lab) : list Z :=
  match l with LInt z => repeat z number_of_bounds | LList l => l end.

Record elem := mkElem { el_dim : nat; el_label : list Z }.
Record geometry := mkGeom { g_dim : nat; g_box_label : list Z; g_elems : list elem }.
(* geometry.py 109-142.  None: exception. *)
Fixpoint all_dim (dim : nat) (es : list elem) : bool :=
  match es with [] => true | e :: r => Nat.eqb (el_dim e) dim && all_dim dim r end.
Definition geometry_init {I : Type} (b : box I) (l : lab) (es : list elem) : option geometry :=
  match get_box b with
  | None => None
  | Some (dim, _) => if all_dim dim es then Some (mkGeom dim (box_label dim l) es) else None
  end.
(* add_elem, 155-166: no check of the dimension *)
Definition add_elem (g : geometry) (e : elem) : geometry :=
  mkGeom (g_dim g) (g_box_label g) (g_elems g ++ [e]).

(* np.unique: sorted without duplicates *)
Fixpoint uinsert (x : Z) (l : list Z) : list Z :=
  match l with
  | [] => [x]
  | y :: t => if (x <? y)%Z then x :: y :: t else if (x =? y)%Z then y :: t else y :: uinsert x t
  end.
Definition unique (l : list Z) : list Z := fold_right uinsert [] l.
(* np.union1d *)
Definition union1d (a b : list Z) : list Z := unique (a ++ b).
(* 330-338 *)
Definition list_of_elements_labels (g : geometry) : list Z :=
  fold_left (fun labels e => union1d labels (el_label e)) (g_elems g) [].
(* 323-328 *)
Definition list_of_labels (g : geometry) : list Z :=
  union1d (unique (g_box_label g)) (list_of_elements_labels g).
