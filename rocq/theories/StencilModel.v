(* Model of pylbm/stencil.py, lines 444-871: the class Stencil. *)
From Verif Require Import PyBase VelocityModel.
Open Scope Z_scope.

(* np.unique on a sorted array: drop equal neighbours. *)
Fixpoint dedup (l : list Z) : list Z :=
  match l with
  | [] => []
  | x :: t => match dedup t with
              | [] => [x]
              | y :: u => if x =? y then y :: u else x :: y :: u
              end
  end.

(* np.union1d(a, b) = unique(concatenate((a, b))): sorted distinct values. *)
Definition union1d (a b : list Z) : list Z := dedup (pysort (a ++ b)).

(* np.searchsorted(a, x) with side='left' on a sorted array: the number of
   entries strictly smaller than x (they come first). *)
Fixpoint searchsorted (a : list Z) (x : Z) : nat :=
  match a with
  | [] => O
  | y :: t => if y <? x then S (searchsorted t x) else O
  end.
(* side='right': the number of entries smaller than or equal to x. *)
Fixpoint searchsorted_right (a : list Z) (x : Z) : nat :=
  match a with
  | [] => O
  | y :: t => if y <=? x then S (searchsorted_right t x) else O
  end.

(* [f x for x in l] where f may raise. *)
Fixpoint mapM {A B : Type} (f : A -> option B) (l : list A) : option (list B) :=
  match l with
  | [] => Some []
  | x :: t => match f x, mapM f t with
              | Some y, Some u => Some (y :: u)
              | _, _ => None
              end
  end.

Record stencil := mkStencil {
  sdim : Z;
  sunique : list velocity;          (* unique_velocities *)
  sv : list (list velocity);        (* v *)
  snv : list Z;                     (* nv *)
  snv_ptr : list Z;                 (* nv_ptr *)
  snum2index : list Z;              (* num2index *)
  sunum2index : list Z              (* unum2index *)
}.

(* 661-664: union of all the velocity numbers. *)
Definition unique_indices (schemes : list (list Z)) : list Z :=
  fold_left union1d schemes [].

(* 669-679: nv and nv_ptr. *)
Fixpoint nv_ptr_from (p : Z) (schemes : list (list Z)) : list Z :=
  match schemes with
  | [] => [p]
  | s :: t => p :: nv_ptr_from (p + Z.of_nat (length s)) t
  end.

(* 674-675: unique_velocities[searchsorted(num, velocities)]. *)
Definition scheme_velocities (uv : list velocity) (velocities : list Z) : option (list velocity) :=
  mapM (fun x => nth_error uv (searchsorted (map vnum uv) x)) velocities.

(* 689-690: -1000 everywhere, then unum2index[unum] = arange. *)
Fixpoint write_index (arr : list Z) (unum : list Z) (k : Z) : list Z :=
  match unum with
  | [] => arr
  | n :: t => write_index (upd arr (Z.to_nat n) k) t (k + 1)
  end.
Definition zmax_list (l : list Z) : option Z :=
  match l with [] => None | x :: t => Some (fold_left Z.max t x) end.
Definition zmin_list (l : list Z) : option Z :=
  match l with [] => None | x :: t => Some (fold_left Z.min t x) end.
Definition make_unum2index (unum : list Z) : option (list Z) :=
  match zmax_list unum with               (* np.max of an empty array raises *)
  | None => None
  | Some mx => Some (write_index (repeat (-1000) (Z.to_nat (mx + 1))) unum 0)
  end.

(* 643-698.  The dictionary is reduced to the dimension and the lists of
   velocity numbers; the validation of the dictionary, logging and printing are
   left out.  None: the construction raises. *)
Definition build_stencil (dim : Z) (schemes : list (list Z)) : option stencil :=
  match mapM (vel_of_num dim) (unique_indices schemes) with
  | None => None
  | Some uv =>
      match mapM (scheme_velocities uv) schemes with
      | None => None
      | Some v =>
          match make_unum2index (map vnum uv) with
          | None => None
          | Some u2i =>
              (* np.vectorize raises on an array of size 0: self.num[k] at 684 *)
              if existsb (fun s => match s with [] => true | _ => false end) schemes then None
              else
              Some (mkStencil dim uv v
                     (map (fun s => Z.of_nat (length s)) schemes)
                     (nv_ptr_from 0 schemes)
                     (concat (map (map vnum) v))         (* 681-685 *)
                     u2i)
          end
      end
  end.

(* Component d of a velocity (uvx, uvy, uvz). *)
Definition vcomp (d : nat) (v : velocity) : option Z :=
  match d with
  | 0%nat => Some (vx v)
  | 1%nat => vy v
  | 2%nat => vz v
  | _ => None
  end.

(* 715-725: vmax and vmin, the largest and smallest SIGNED components. *)
Definition vmax (st : stencil) (d : nat) : option Z :=
  match mapM (vcomp d) (sunique st) with Some l => zmax_list l | None => None end.
Definition vmin (st : stencil) (d : nat) : option Z :=
  match mapM (vcomp d) (sunique st) with Some l => zmin_list l | None => None end.

(* The list [vx, vy, vz][:dim] of one velocity. *)
Definition vel_list (v : velocity) : list Z :=
  match vy v, vz v with
  | Some y, Some z => [vx v; y; z]
  | Some y, None => [vx v; y]
  | None, _ => [vx v]
  end.

(* 800-809: get_all_velocities(None): the rows are filled scheme by scheme, the
   rows nv_ptr[k] .. nv_ptr[k+1] by the velocities of scheme k. *)
Definition get_all_velocities (st : stencil) : list (list Z) :=
  map vel_list (concat (sv st)).
(* 810-814 *)
Definition get_scheme_velocities (st : stencil) (k : nat) : option (list (list Z)) :=
  option_map (map vel_list) (nth_error (sv st) k).

(* 817-835: get_symmetric.  Python slicing l[a:b] with 0 <= a <= b. *)
Definition slice {A : Type} (l : list A) (a b : Z) : list A :=
  firstn (Z.to_nat (b - a)) (skipn (Z.to_nat a) l).

Definition sym_index (st : stencil) (axis : option Z) (k : Z) (vk : velocity) : option Z :=
  match VelocityModel.get_symmetric vk axis with
  | SymOk w =>
      let n := Z.of_nat (searchsorted_right (snv_ptr st) k) - 1 in
      match py_index (snv_ptr st) n, py_index (snv_ptr st) (n + 1) with
      | Some a, Some b =>
          match index_of Z.eqb (vnum w) (slice (snum2index st) a b) with
          | Some i => Some (Z.of_nat i + a)
          | None => None                       (* ValueError of list.index *)
          end
      | _, _ => None
      end
  | _ => None                                  (* ValueError *)
  end.

Fixpoint sym_loop (st : stencil) (axis : option Z) (k : Z) (vs : list velocity) : option (list Z) :=
  match vs with
  | [] => Some []
  | vk :: t => match sym_index st axis k vk, sym_loop st axis (k + 1) t with
               | Some i, Some r => Some (i :: r)
               | _, _ => None
               end
  end.
Definition stencil_get_symmetric (st : stencil) (axis : option Z) : option (list Z) :=
  sym_loop st axis 0 (concat (sv st)).

(* 849-871: is_symmetric.  The variable is_sym is reset to True for each scheme,
   the value returned is the one of the last scheme.  None: no scheme at all
   (unbound variable) or failure of get_symmetric. *)
Definition scheme_is_sym (vs : list velocity) : option bool :=
  fold_left (fun acc v =>
    match acc, VelocityModel.get_symmetric v None with
    | Some b, SymOk w => Some (b && existsb (Z.eqb (vnum w)) (map vnum vs))
    | _, _ => None
    end) vs (Some true).
Definition is_symmetric (st : stencil) : option bool :=
  match mapM scheme_is_sym (sv st) with
  | None => None
  | Some bs => match rev bs with [] => None | b :: _ => Some b end
  end.
