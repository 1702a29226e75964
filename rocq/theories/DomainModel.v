(* Model of pylbm/domain.py: in_or_out, distance, flag and normal of a Domain.
   Arrays are functions of the cell; a cell is the list of its indices in the
   arrays with halo.  Coordinates and distances are rationals. *)
From Verif Require Import PyBase GridModel.
From Coq Require Import QArith Qround.
Open Scope Z_scope.

Definition cell := list Z.
Notation "c @ d" := (nth d c 0) (at level 9, format "c @ d").
Notation "c @@ d" := (nth d c 0%Q) (at level 9, format "c @@ d").

(* 252-254 *)
Definition valin : Z := 999.
Definition qvalin : Q := inject_Z 999.

(* distance, flag and normal of one velocity at one cell *)
Record link := mkLink { l_dist : Q; l_flag : Z; l_norm : nat -> Q }.
(* in_or_out: true for valin (fluid), false for valout *)
Record dom := mkDom { d_ioo : cell -> bool; d_link : nat -> cell -> link }.

(* Number of interior cells, halo width (stencil.vmax), label of the sides (after
   the replacement by -2 at the interfaces, 275-280), unique velocities, and the
   coordinate of the first halo cell and space step (get_bounds_halo 444-450). *)
Record grid := mkGrid {
  g_n : list Z; g_h : list Z; g_lab : list Z; g_vel : list (list Z);
  g_x0 : list Q; g_dx : Q
}.
Definition dim (g : grid) : nat := length (g_n g).
Definition axes (g : grid) : list nat := seq 0 (dim g).
Definition total (g : grid) (d : nat) : Z := (g_n g)@d + 2 * (g_h g)@d.
(* coords_halo (430-442): equally spaced from the first halo cell (see C10). *)
Definition point (g : grid) (c : cell) : list Q :=
  map (fun d => ((g_x0 g)@@d + g_dx g * inject_Z c@d)%Q) (axes g).

(* phys_domain = [slice(h, -h) if h > 0 else slice(None)]  (466) *)
Definition interior (g : grid) (c : cell) : bool :=
  forallb (fun d => ((g_h g)@d <=? c@d) && (c@d <? (g_h g)@d + (g_n g)@d)) (axes g).

(* 259-271, initial arrays: overwritten in_or_out, distance and flag valin. *)
Definition link0 : link := mkLink qvalin valin (fun _ => 0%Q).

(* __add_init, body of the loop over i (502-518): row i of the axis d for the
   velocity k; right tells which side.  new_indices (482-490) keeps the cells of
   the row whose distance is larger than dvik (in dimension 1 the row is the only
   cell and its distance is still valin). *)
Definition set_row (g : grid) (d k : nat) (right : bool) (i : Z) (dvik : Q) (lab : Z)
    (L : nat -> cell -> link) : nat -> cell -> link :=
  fun k' c =>
    let p := c@d - (g_h g)@d in
    let row := if right then (g_n g)@d - 1 - i else i in
    if Nat.eqb k' k && interior g c && (p =? row) && Qltb dvik (l_dist (L k' c)) then
      mkLink dvik lab
        (fun j => if Nat.ltb j d then 0%Q else if Nat.eqb j d then (if right then 1%Q else (-1)%Q)
                  else l_norm (L k' c) j)
    else L k' c.
(* 499-518 for one axis and one velocity.  -(i+0.5)/vk and (i+0.5)/vk. *)
Definition rows (vk : Z) : list Z := map Z.of_nat (seq 0 (Z.to_nat (Z.abs vk))).
Definition dvik (vk i : Z) : Q := ((inject_Z i + (1 # 2)) / inject_Z (Z.abs vk))%Q.
Definition init_axis_vel (g : grid) (d : nat) (L : nat -> cell -> link) (kv : nat * list Z) :=
  let '(k, v) := kv in
  let vk := v@d in
  if (vk <? 0) && negb ((g_lab g)@(2 * d) =? -2) then
    fold_left (fun L i => set_row g d k false i (dvik vk i) (g_lab g)@(2 * d) L) (rows vk) L
  else if (0 <? vk) && negb ((g_lab g)@(2 * d + 1) =? -2) then
    fold_left (fun L i => set_row g d k true i (dvik vk i) (g_lab g)@(2 * d + 1) L) (rows vk) L
  else L.
Definition numbered {A : Type} (l : list A) : list (nat * A) := combine (seq 0 (length l)) l.
Definition init_links (g : grid) : nat -> cell -> link :=
  fold_left (fun L d => fold_left (init_axis_vel g d) (numbered (g_vel g)) L) (axes g) (fun _ _ => link0).
(* IndexError when a row does not exist. *)
Definition rows_exist (g : grid) : bool :=
  forallb (fun d => forallb (fun v =>
    let vk := v@d in
    if (vk <? 0) && negb ((g_lab g)@(2 * d) =? -2) then - vk <=? (g_n g)@d
    else if (0 <? vk) && negb ((g_lab g)@(2 * d + 1) =? -2) then vk <=? (g_n g)@d else true)
    (g_vel g)) (axes g).
(* __add_init, 463-520 *)
Definition add_init (g : grid) : option dom :=
  if rows_exist g then Some (mkDom (interior g) (init_links g)) else None.

(* An element of the geometry: get_bounds, point_inside at a point, distance (the
   values alpha, border and normal at a point for a displacement). *)
Record elem := mkElem {
  e_fluid : bool;
  e_lo : list Q; e_hi : list Q;
  e_in : list Q -> bool;
  e_alpha : list Q -> list Q -> Q;
  e_border : list Q -> list Q -> Z;
  e_norm : list Q -> list Q -> nat -> Q
}.

(* np.array(x, int): truncation towards zero *)
Definition qtrunc (x : Q) : Z := Z.quot (Qnum x) (Zpos (Qden x)).
(* 533-540 *)
Definition nmin (g : grid) (e : elem) (d : nat) : Z :=
  Z.max ((g_h g)@d) (qtrunc (((e_lo e)@@d - (g_x0 g)@@d) / g_dx g) - (g_h g)@d).
Definition nmax (g : grid) (e : elem) (d : nat) : Z :=
  Z.min ((g_h g)@d + (g_n g)@d) (qtrunc (((e_hi e)@@d - (g_x0 g)@@d) / g_dx g) + (g_h g)@d + 1).
(* A Python slice a:b of an axis of length n: first index and length. *)
Definition sl_start (n a : Z) : Z := norm_slice n a.
Definition sl_len (n a b : Z) : Z := Z.max 0 (norm_slice n b - norm_slice n a).
Definition in_view (g : grid) (e : elem) (c : cell) : bool :=
  forallb (fun d => let s := sl_start (total g d) (nmin g e d) in
                    (s <=? c@d) && (c@d <? s + sl_len (total g d) (nmin g e d) (nmax g e d))) (axes g).
Definition view_len (g : grid) (e : elem) (v : list Z) (d : nat) : Z :=
  sl_len (total g d) (nmin g e d + v@d) (nmax g e d + v@d).
Definition zero_v : list Z := [].
Definition shift (g : grid) (c : cell) (v : list Z) : cell := map (fun d => c@d + v@d) (axes g).
(* index in the shifted view (572-578) of the cell c of the view *)
Definition shifted (g : grid) (e : elem) (v : list Z) (c : cell) : cell :=
  map (fun d => sl_start (total g d) (nmin g e d + v@d) + (c@d - sl_start (total g d) (nmin g e d))) (axes g).
Definition same_shape (g : grid) (e : elem) (v : list Z) : bool :=
  forallb (fun d => view_len g e v d =? view_len g e zero_v d) (axes g).
Definition empty_shift (g : grid) (e : elem) (v : list Z) : bool :=
  existsb (fun d => view_len g e v d =? 0) (axes g).
Definition vzero (g : grid) (v : list Z) : bool := forallb (fun d => v@d =? 0) (axes g).
(* Shapes that NumPy cannot combine (584-594): the mask out_cells is used if it is
   not empty, and always for a fluid element.  A mask whose axis has length one
   would be broadcast; this is counted as an error as well. *)
Definition shape_error (g : grid) (e : elem) (v : list Z) : bool :=
  negb (vzero g v) && negb (same_shape g e v) && (e_fluid e || negb (empty_shift g e v)).

Definition displacement (g : grid) (v : list Z) : list Q :=
  map (fun d => (g_dx g * inject_Z v@d)%Q) (axes g).
(* 556-563: in_or_out *)
Definition ioo_elem (g : grid) (e : elem) (ioo : cell -> bool) : cell -> bool :=
  fun c => if in_view g e c && e_in e (point g c) then e_fluid e else ioo c.
(* 570-620, one velocity and one cell of the view; ioo is the updated array. *)
Definition link_elem (g : grid) (e : elem) (ioo : cell -> bool) (v : list Z) (c : cell) (l : link) : link :=
  let x := point g c in
  let dv := displacement g v in
  let out := negb (ioo (shifted g e v c)) in
  let alpha := e_alpha e x dv in
  let inside := e_in e x in
  let ind_fluid := if e_fluid e then inside else negb inside in
  let indx := Qltb 0 alpha && ind_fluid && (empty_shift g e v || out) in
  let l1 :=
    if e_fluid e then
      if negb out && ioo c then mkLink qvalin valin (l_norm l) else l
    else if inside then mkLink qvalin valin (l_norm l) else l in
  let better := if e_fluid e then Qltb (l_dist l1) alpha || Qeq_bool (l_dist l1) qvalin
                else Qltb alpha (l_dist l1) in
  if indx && better then
    mkLink alpha (e_border e x dv) (fun j => (- e_norm e x dv j)%Q)
  else l1.
(* __add_elem, 523-620.  None: NumPy raises ValueError. *)
Definition add_elem (g : grid) (e : elem) (D : dom) : option dom :=
  if existsb (shape_error g e) (g_vel g) then None
  else
    let ioo := ioo_elem g e (d_ioo D) in
    Some (mkDom ioo (fun k c =>
      match nth_error (g_vel g) k with
      | Some v => if in_view g e c && negb (vzero g v) then link_elem g e ioo v c (d_link D k c)
                  else d_link D k c
      | None => d_link D k c
      end)).
Fixpoint add_elems (g : grid) (es : list elem) (D : dom) : option dom :=
  match es with
  | [] => Some D
  | e :: r => match add_elem g e D with Some D' => add_elems g r D' | None => None end
  end.
(* clean, 622-635 *)
Definition clean (D : dom) : dom :=
  mkDom (d_ioo D) (fun k c =>
    let l := d_link D k c in
    if Qltb 0 (l_dist l) && negb (d_ioo D c) then mkLink qvalin valin (fun _ => 0%Q) else l).
(* 282-302 *)
Definition domain_init (g : grid) (es : list elem) : option dom :=
  match add_init g with
  | None => None
  | Some D => match add_elems g es D with Some D' => Some (clean D') | None => None end
  end.
