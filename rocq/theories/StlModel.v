(* Model of pylbm/elements/stl_element.py.  Coordinates are rational numbers: the code
   only adds, multiplies, divides and compares.  The functions of the code act on arrays
   of points, entry by entry; the model is the function of one point.  The module
   numpy-stl, which reads the file, is not modelled: the mesh is a list of triangles with
   their normal vectors. *)
From Verif Require Import PyBase GridModel DomainModel.
From Coq Require Import QArith.
Open Scope Q_scope.

Record p3 := P3 { qx : Q; qy : Q; qz : Q }.
Definition sub3 (p q : p3) : p3 := P3 (qx p - qx q) (qy p - qy q) (qz p - qz q).
Definition dot3 (p q : p3) : Q := qx p * qx q + qy p * qy q + qz p * qz q.

(* mesh.points[k] = tri[0:3], tri[3:6], tri[6:9], and mesh.normals[k] *)
Record tri := mkTri { t_a : p3; t_b : p3; t_c : p3; t_n : p3 }.

(* A 3x3 matrix by columns. *)
Record m3 := M3 { col0 : p3; col1 : p3; col2 : p3 }.
(* intersection, stl_element.py 41-47 *)
Definition mat (v : p3) (T : tri) : m3 := M3 (sub3 (t_c T) (t_a T)) (sub3 (t_b T) (t_a T)) (P3 (- qx v) (- qy v) (- qz v)).
Definition det3 (A : m3) : Q :=
  qx (col0 A) * (qy (col1 A) * qz (col2 A) - qz (col1 A) * qy (col2 A))
  - qx (col1 A) * (qy (col0 A) * qz (col2 A) - qz (col0 A) * qy (col2 A))
  + qx (col2 A) * (qy (col0 A) * qz (col1 A) - qz (col0 A) * qy (col1 A)).
(* np.linalg.inv, exact: the rows of the inverse; LinAlgError (None) if the matrix is
   singular *)
Definition inv3 (A : m3) : option (p3 * p3 * p3) :=
  let d := det3 A in
  if Qeq_bool d 0 then None
  else
    let a := col0 A in let b := col1 A in let c := col2 A in
    Some (P3 ((qy b * qz c - qz b * qy c) / d) ((qz b * qx c - qx b * qz c) / d) ((qx b * qy c - qy b * qx c) / d),
          P3 ((qy c * qz a - qz c * qy a) / d) ((qz c * qx a - qx c * qz a) / d) ((qx c * qy a - qy c * qx a) / d),
          P3 ((qy a * qz b - qz a * qy b) / d) ((qz a * qx b - qx a * qz b) / d) ((qx a * qy b - qy a * qx b) / d)).

(* A float which may be np.inf (None). *)
Definition ext := option Q.
Definition ltx (s t : ext) : bool :=
  match s, t with Some a, Some b => Qltb a b | Some _, None => true | None, _ => false end.
Definition lex_max (s : ext) (m : Q) : bool := match s with Some a => Qle_bool a m | None => false end.

(* intersection, 24-80: None is the None of the code, Some None is np.inf *)
Definition intersection (x v : p3) (T : tri) : option ext :=
  match inv3 (mat v T) with
  | None => None
  | Some (r0, r1, r2) =>
      let P := sub3 x (t_a T) in
      let s0 := dot3 r0 P in let s1 := dot3 r1 P in let s2 := dot3 r2 P in
      if (Qle_bool 0 s0 && Qle_bool 0 s1) && (Qle_bool (s0 + s1) 1 && Qle_bool 0 s2)
      then Some (Some s2) else Some None
  end.

(* point_inside, 142-151: one triangle; the state is (smin, in_or_out) *)
Definition inside_step (x v : p3) (st : ext * bool) (T : tri) : ext * bool :=
  match intersection x v T with
  | None => st
  | Some s => if ltx s (fst st) then (s, Qle_bool 0 (dot3 v (t_n T))) else st
  end.
(* 138-151: one direction; smin is reset, in_or_out is not *)
Definition inside_dir (mesh : list tri) (x : p3) (io : bool) (v : p3) : bool :=
  snd (fold_left (inside_step x v) mesh (None, io)).
Definition directions : list p3 := [P3 1 0 0; P3 0 1 0; P3 0 0 1].
(* 129-152 *)
Definition point_inside (mesh : list tri) (x : p3) : bool :=
  fold_left (inside_dir mesh x) directions false.

(* distance, 154-182, with normal=True: alpha, border and normal *)
Definition hit := (ext * Z * p3)%type.
(* 163-176 *)
Definition dist_step (label : Z) (x v : p3) (dmax : option Q) (h : hit) (T : tri) : hit :=
  match intersection x v T with
  | None => h
  | Some s =>
      if ltx s (fst (fst h)) && match dmax with None => true | Some m => lex_max s m end
      then (s, label, t_n T) else h
  end.
Definition stl_distance (mesh : list tri) (label : Z) (x v : p3) (dmax : option Q) : hit :=
  fold_left (dist_step label x v dmax) mesh (None, (-1)%Z, P3 0 0 0).

(* get_bounds, 123-124: mesh.min_ and mesh.max_, over all the vertices *)
Definition vertices (mesh : list tri) : list p3 := flat_map (fun T => [t_a T; t_b T; t_c T]) mesh.
Definition qmin (l : list Q) : Q := match l with [] => 0 | a :: r => fold_left (fun m b => if Qltb b m then b else m) r a end.
Definition qmax (l : list Q) : Q := match l with [] => 0 | a :: r => fold_left (fun m b => if Qltb m b then b else m) r a end.
Definition coordinates (p : p3) : list Q := [qx p; qy p; qz p].
Definition stl_bounds (mesh : list tri) : list Q * list Q :=
  (map (fun f => qmin (map f (vertices mesh))) [qx; qy; qz], map (fun f => qmax (map f (vertices mesh))) [qx; qy; qz]).

(* The element as the domain uses it (domain.py 523-620, dmax is 1).  Where distance
   gives np.inf the element of DomainModel.v gives the number big, which is to be larger
   than the numbers it is compared with. *)
Definition pt (x : list Q) : p3 := P3 (x@@0) (x@@1) (x@@2).
Definition stl_elem (big : Q) (fluid : bool) (label : Z) (mesh : list tri) : elem :=
  let h x dv := stl_distance mesh label (pt x) (pt dv) (Some 1) in
  mkElem fluid (fst (stl_bounds mesh)) (snd (stl_bounds mesh))
    (fun x => point_inside mesh (pt x))
    (fun x dv => match fst (fst (h x dv)) with Some a => a | None => big end)
    (fun x dv => snd (fst (h x dv)))
    (fun x dv j => nth j (coordinates (snd (h x dv))) 0).
