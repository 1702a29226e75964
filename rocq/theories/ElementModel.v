(* Model of the elements of the geometry (pylbm/elements).  Coordinates are real
   numbers.  The functions of the code act on arrays of points, entry by entry; the
   model is the function of one point. *)
From Coq Require Import Reals ZArith List.
Import ListNotations.
Open Scope bool_scope.
Open Scope R_scope.

Definition Rltb (a b : R) : bool := if Rlt_dec a b then true else false.
Definition Rleb (a b : R) : bool := if Rle_dec a b then true else false.
Definition Reqb (a b : R) : bool := if Req_EM_T a b then true else false.

Record p2 := P2 { px : R; py : R }.
Record p3 := P3 { qx : R; qy : R; qz : R }.
Definition add2 (p q : p2) : p2 := P2 (px p + px q) (py p + py q).
Definition sub2 (p q : p2) : p2 := P2 (px p - px q) (py p - py q).
Definition scale2 (a : R) (p : p2) : p2 := P2 (a * px p) (a * py p).
Definition dot2 (p q : p2) : R := px p * px q + py p * py q.
Definition norm2 (p : p2) : R := sqrt (dot2 p p).
Definition add3 (p q : p3) : p3 := P3 (qx p + qx q) (qy p + qy q) (qz p + qz q).
Definition sub3 (p q : p3) : p3 := P3 (qx p - qx q) (qy p - qy q) (qz p - qz q).
Definition scale3 (a : R) (p : p3) : p3 := P3 (a * qx p) (a * qy p) (a * qz p).
Definition dot3 (p q : p3) : R := qx p * qx q + qy p * qy q + qz p * qz q.
Definition norm3 (p : p3) : R := sqrt (dot3 p p).
(* np.cross *)
Definition cross3 (p q : p3) : p3 :=
  P3 (qy p * qz q - qz p * qy q) (qz p * qx q - qx p * qz q) (qx p * qy q - qy p * qx q).

(* elements/utils.py 18 *)
Definition tgv : R := 10 ^ 16.

(* A maximum given as None is no maximum: utils.py 62-68, 138-141, 238-241. *)
Definition below (dmax : option R) (t : R) : bool :=
  match dmax with None => true | Some m => Rleb t m end.

(* What the distance functions return for one point: the fraction, the label and the
   normal vector. *)
Record hit (V : Type) := mkHit { h_alpha : R; h_border : Z; h_normal : V }.
Arguments mkHit {V}. Arguments h_alpha {V}. Arguments h_border {V}. Arguments h_normal {V}.

(* intersection_two_lines, elements/utils.py 21-37 *)
Definition intersection_two_lines (p1 v1 q1 v2 : p2) : option (R * R) :=
  let det := py v1 * px v2 - px v1 * py v2 in
  if Reqb det 0 then None
  else
    let invdet := 1 / det in
    let c1 := px q1 - px p1 in
    let c2 := py q1 - py p1 in
    Some ((- py v2 * c1 + px v2 * c2) * invdet, (- py v1 * c1 + px v1 * c2) * invdet).

(* An edge: p[i], vt[i] and label[i].  The list of labels is supposed to be as long as
   the list of edges (a shorter one raises IndexError, see GeometryModel.v). *)
Record edge := mkEdge { e_p : p2; e_v : p2; e_label : Z }.

(* distance_lines, elements/utils.py 40-89, with normal=True.  One turn of the loop, 59-81 *)
Definition line_step (q v : p2) (dmax : option R) (h : hit p2) (e : edge) : hit p2 :=
  match intersection_two_lines q v (e_p e) (e_v e) with
  | None => h
  | Some (tmp1, tmp2) =>
      if Rltb tmp1 (h_alpha h) &&
         (Rltb 0 tmp1 && below dmax tmp1 && (Rleb 0 tmp2 && Rleb tmp2 1))
      then
        let sign := if Rltb (px v * py (e_v e)) (py v * px (e_v e)) then 1 else -1 in
        let nv := sqrt (px (e_v e) ^ 2 + py (e_v e) ^ 2) in
        mkHit tmp1 (e_label e) (P2 (sign * py (e_v e) / nv) (- sign * px (e_v e) / nv))
      else h
  end.
(* 54-58, 59, 82 *)
Definition distance_lines (q v : p2) (es : list edge) (dmax : option R) : hit p2 :=
  let h := fold_left (line_step q v dmax) es (mkHit tgv (-1)%Z (P2 0 0)) in
  if Reqb (h_alpha h) tgv then mkHit (-1) (h_border h) (h_normal h) else h.

(* The part common to distance_ellipse (117-142) and distance_ellipsoid (222-242): the
   smallest non negative root of a d^2 + b d + c, reported if it is positive and at most
   dmax.  The guard a <> 0 exists only in distance_ellipse (127); with a = 0 the other
   function divides by zero, and the model returns the default there too. *)
Definition first_root (a b c : R) (dmax : option R) : R :=
  let delta := b ^ 2 - 4 * a * c in
  let d :=
    if Rleb 0 delta then
      let sd := sqrt delta in
      let d1 := if Reqb a 0 then tgv else (- b - sd) / (2 * a) in
      let d2 := if Reqb a 0 then tgv else (- b + sd) / (2 * a) in
      let d1 := if Rltb d1 0 then tgv else d1 in
      let d2 := if Rltb d2 0 then tgv else d2 in
      Rmin d1 d2
    else -1 in
  let d := if Reqb d tgv then -1 else d in
  if Rltb 0 d && below dmax d then d else -1.

(* distance_ellipse, elements/utils.py 93-167, with normal=True *)
Definition distance_ellipse (q v center v1 v2 : p2) (dmax : option R) (label : Z) : hit p2 :=
  let X := px q - px center in
  let Y := py q - py center in
  let vx2 := px v1 ^ 2 + px v2 ^ 2 in
  let vy2 := py v1 ^ 2 + py v2 ^ 2 in
  let vxy := 2 * (px v1 * py v1 + px v2 * py v2) in
  let d := (px v1 * py v2 - py v1 * px v2) ^ 2 in
  let a := px v ^ 2 * vy2 + py v ^ 2 * vx2 - px v * py v * vxy in
  let b := 2 * X * px v * vy2 + 2 * Y * py v * vx2 - (X * py v + Y * px v) * vxy in
  let c := X ^ 2 * vy2 + Y ^ 2 * vx2 - X * Y * vxy - d in
  let alpha := first_root a b c dmax in
  if Rltb 0 alpha then
    (* 151-164 *)
    let Xe := X + alpha * px v in
    let Ye := Y + alpha * py v in
    let nx := 2 * Xe * vy2 - Ye * vxy in
    let ny := 2 * Ye * vx2 - Xe * vxy in
    let sense := if Rltb 0 (nx * px v + ny * py v) then -1 else 1 in
    let nx := sense * nx in
    let ny := sense * ny in
    let norm := sqrt (nx ^ 2 + ny ^ 2) in
    mkHit alpha label (P2 (nx / norm) (ny / norm))
  else mkHit alpha (-1)%Z (P2 0 0).

(* The coefficients cxx cyy czz cxy cyz czx d of the equation of an ellipsoid:
   elements/utils.py 188-199 and elements/ellipsoid.py 138-150 *)
Record quadric := mkQuad { k_xx : R; k_yy : R; k_zz : R; k_xy : R; k_yz : R; k_zx : R; k_d : R }.
Definition ellipsoid_eq (v1 v2 v3 : p3) : quadric :=
  let v12 := cross3 v1 v2 in
  let v23 := cross3 v2 v3 in
  let v31 := cross3 v3 v1 in
  mkQuad (qx v12 ^ 2 + qx v23 ^ 2 + qx v31 ^ 2)
         (qy v12 ^ 2 + qy v23 ^ 2 + qy v31 ^ 2)
         (qz v12 ^ 2 + qz v23 ^ 2 + qz v31 ^ 2)
         (2 * (qx v12 * qy v12 + qx v23 * qy v23 + qx v31 * qy v31))
         (2 * (qy v12 * qz v12 + qy v23 * qz v23 + qy v31 * qz v31))
         (2 * (qz v12 * qx v12 + qz v23 * qx v23 + qz v31 * qx v31))
         (dot3 v1 v23 ^ 2).

(* distance_ellipsoid, elements/utils.py 171-277, with normal=True *)
Definition distance_ellipsoid (q v center v1 v2 v3 : p3) (dmax : option R) (label : Z) : hit p3 :=
  let X := qx q - qx center in
  let Y := qy q - qy center in
  let Z := qz q - qz center in
  let k := ellipsoid_eq v1 v2 v3 in
  let a := k_xx k * qx v ^ 2 + k_yy k * qy v ^ 2 + k_zz k * qz v ^ 2
           + k_xy k * qx v * qy v + k_yz k * qy v * qz v + k_zx k * qz v * qx v in
  let b := (2 * k_xx k * qx v + k_xy k * qy v + k_zx k * qz v) * X
           + (2 * k_yy k * qy v + k_yz k * qz v + k_xy k * qx v) * Y
           + (2 * k_zz k * qz v + k_zx k * qx v + k_yz k * qy v) * Z in
  let c := k_xx k * X ^ 2 + k_yy k * Y ^ 2 + k_zz k * Z ^ 2
           + k_xy k * X * Y + k_yz k * Y * Z + k_zx k * Z * X - k_d k in
  let alpha := first_root a b c dmax in
  if Rltb 0 alpha then
    (* 253-274 *)
    let Xe := X + alpha * qx v in
    let Ye := Y + alpha * qy v in
    let Ze := Z + alpha * qz v in
    let nx := 2 * k_xx k * Xe + k_xy k * Ye + k_zx k * Ze in
    let ny := 2 * k_yy k * Ye + k_xy k * Xe + k_yz k * Ze in
    let nz := 2 * k_zz k * Ze + k_zx k * Xe + k_yz k * Ye in
    let sense := if Rltb 0 (nx * qx v + ny * qy v + nz * qz v) then -1 else 1 in
    let nx := sense * nx in
    let ny := sense * ny in
    let nz := sense * nz in
    let norm := sqrt (nx ^ 2 + ny ^ 2 + nz ^ 2) in
    mkHit alpha label (P3 (nx / norm) (ny / norm) (nz / norm))
  else mkHit alpha (-1)%Z (P3 0 0 0).

(* Circle, elements/circle.py 75-151 (the radius is not negative: otherwise an error is
   logged and the attribute is missing, 79-82) *)
Record circle := mkCircle { c_center : p2; c_radius : R; c_label : Z }.
Definition circle_bounds (c : circle) : p2 * p2 :=                              (* 86-90 *)
  (P2 (px (c_center c) - c_radius c) (py (c_center c) - c_radius c),
   P2 (px (c_center c) + c_radius c) (py (c_center c) + c_radius c)).
Definition circle_inside (c : circle) (q : p2) : bool :=                        (* 115-117 *)
  Rleb ((px q - px (c_center c)) ^ 2 + (py q - py (c_center c)) ^ 2) (c_radius c ^ 2).
Definition circle_distance (c : circle) (q v : p2) (dmax : option R) : hit p2 :=  (* 148-151 *)
  distance_ellipse q v (c_center c) (P2 (c_radius c * 1) (c_radius c * 0))
    (P2 (c_radius c * 0) (c_radius c * 1)) dmax (c_label c).

(* Ellipse, elements/ellipse.py *)
Record ellipse := mkEllipse { l_center : p2; l_v1 : p2; l_v2 : p2; l_label : Z }.
(* 84-88: the constructor keeps the vectors only if this is true *)
Definition ellipse_accepts (v1 v2 : p2) : bool :=
  negb (Rltb (/ 10 ^ 14) (Rabs (px v1 * px v2 + py v1 * py v2))).
Definition ellipse_bounds (e : ellipse) : p2 * p2 :=                            (* 92-97 *)
  let r := Rmax (norm2 (l_v1 e)) (norm2 (l_v2 e)) in
  (P2 (px (l_center e) - r) (py (l_center e) - r), P2 (px (l_center e) + r) (py (l_center e) + r)).
Definition ellipse_inside (e : ellipse) (q : p2) : bool :=                      (* 122-130 *)
  let X := px q - px (l_center e) in
  let Y := py q - py (l_center e) in
  let v1 := l_v1 e in
  let v2 := l_v2 e in
  let vx2 := px v1 ^ 2 + px v2 ^ 2 in
  let vy2 := py v1 ^ 2 + py v2 ^ 2 in
  let vxy := 2 * (px v1 * py v1 + px v2 * py v2) in
  let tv := px v1 * py v2 - py v1 * px v2 in
  Rleb (X ^ 2 * vy2 + Y ^ 2 * vx2 - X * Y * vxy) (tv ^ 2).
Definition ellipse_distance (e : ellipse) (q v : p2) (dmax : option R) : hit p2 :=  (* 157-160 *)
  distance_ellipse q v (l_center e) (l_v1 e) (l_v2 e) dmax (l_label e).

(* Sphere, elements/sphere.py *)
Record sphere := mkSphere { s_center : p3; s_radius : R; s_label : Z }.
Definition box3 (c : p3) (r : R) : p3 * p3 :=
  (P3 (qx c - r) (qy c - r) (qz c - r), P3 (qx c + r) (qy c + r) (qz c + r)).
Definition sphere_bounds (s : sphere) : p3 * p3 := box3 (s_center s) (s_radius s).  (* 88-92 *)
Definition sphere_inside (s : sphere) (q : p3) : bool :=                        (* 117-119 *)
  Rleb ((qx q - qx (s_center s)) ^ 2 + (qy q - qy (s_center s)) ^ 2
        + (qz q - qz (s_center s)) ^ 2) (s_radius s ^ 2).
Definition sphere_distance (s : sphere) (q v : p3) (dmax : option R) : hit p3 :=  (* 149-155 *)
  let r := s_radius s in
  distance_ellipsoid q v (s_center s) (P3 (r * 1) (r * 0) (r * 0)) (P3 (r * 0) (r * 1) (r * 0))
    (P3 (r * 0) (r * 0) (r * 1)) dmax (s_label s).

(* Ellipsoid, elements/ellipsoid.py *)
Record ellipsoid := mkEllipsoid { o_center : p3; o_v1 : p3; o_v2 : p3; o_v3 : p3; o_label : Z }.
Definition ellipsoid_bounds (e : ellipsoid) : p3 * p3 :=                        (* 102-109 *)
  box3 (o_center e) (Rmax (Rmax (norm3 (o_v1 e)) (norm3 (o_v2 e))) (norm3 (o_v3 e))).
Definition ellipsoid_inside (e : ellipsoid) (q : p3) : bool :=                  (* 134-160 *)
  let X := qx q - qx (o_center e) in
  let Y := qy q - qy (o_center e) in
  let Z := qz q - qz (o_center e) in
  let k := ellipsoid_eq (o_v1 e) (o_v2 e) (o_v3 e) in
  Rleb (k_xx k * X ^ 2 + k_yy k * Y ^ 2 + k_zz k * Z ^ 2
        + k_xy k * X * Y + k_yz k * Y * Z + k_zx k * Z * X) (k_d k).
Definition ellipsoid_distance (e : ellipsoid) (q v : p3) (dmax : option R) : hit p3 :=  (* 187-190 *)
  distance_ellipsoid q v (o_center e) (o_v1 e) (o_v2 e) (o_v3 e) dmax (o_label e).

(* Parallelogram and Triangle, elements/parallelogram.py and elements/triangle.py;
   g_label i is label[i] *)
Record gram := mkGram { g_point : p2; g_v1 : p2; g_v2 : p2; g_label : nat -> Z }.
Definition min4 (a b c d : R) : R := Rmin (Rmin (Rmin a b) c) d.
Definition max4 (a b c d : R) : R := Rmax (Rmax (Rmax a b) c) d.
(* get_bounds, parallelogram.py 92-104, triangle.py 92-101 *)
Definition gram_bounds (g : gram) : p2 * p2 :=
  let a := g_point g in
  let b := add2 a (g_v1 g) in
  let c := add2 b (g_v2 g) in
  let d := add2 a (g_v2 g) in
  (P2 (min4 (px a) (px b) (px c) (px d)) (min4 (py a) (py b) (py c) (py d)),
   P2 (max4 (px a) (px b) (px c) (px d)) (max4 (py a) (py b) (py c) (py d))).
(* The barycentric coordinates, parallelogram.py 129-134, triangle.py 104-109.  With
   dependent vectors the code divides by zero. *)
Definition bary (g : gram) (q : p2) : R * R :=
  let w := sub2 q (g_point g) in
  let invdelta := 1 / (px (g_v1 g) * py (g_v2 g) - py (g_v1 g) * px (g_v2 g)) in
  ((px w * py (g_v2 g) - py w * px (g_v2 g)) * invdelta,
   (py w * px (g_v1 g) - px w * py (g_v1 g)) * invdelta).
(* parallelogram.py 135-137 *)
Definition parallelogram_inside (g : gram) (q : p2) : bool :=
  let (u, v) := bary g q in (Rleb 0 u && Rleb 0 v) && (Rleb u 1 && Rleb v 1).
(* triangle.py 110 *)
Definition triangle_inside (g : gram) (q : p2) : bool :=
  let (u, v) := bary g q in (Rleb 0 u && Rleb 0 v) && Rleb (u + v) 1.
(* parallelogram.py 170-171 *)
Definition parallelogram_edges (g : gram) : list edge :=
  [ mkEdge (P2 0 0) (g_v1 g) (g_label g 0); mkEdge (P2 0 0) (g_v2 g) (g_label g 1);
    mkEdge (g_v2 g) (g_v1 g) (g_label g 2); mkEdge (g_v1 g) (g_v2 g) (g_label g 3) ].
(* triangle.py 143-144 *)
Definition triangle_edges (g : gram) : list edge :=
  [ mkEdge (P2 0 0) (g_v1 g) (g_label g 0); mkEdge (P2 0 0) (g_v2 g) (g_label g 1);
    mkEdge (g_v1 g) (sub2 (g_v2 g) (g_v1 g)) (g_label g 2) ].
Definition parallelogram_distance (g : gram) (q v : p2) (dmax : option R) : hit p2 :=
  distance_lines (sub2 q (g_point g)) v (parallelogram_edges g) dmax.
Definition triangle_distance (g : gram) (q v : p2) (dmax : option R) : hit p2 :=
  distance_lines (sub2 q (g_point g)) v (triangle_edges g) dmax.

(* Cylinders, elements/cylinder.py and the bases of elements/base.py *)
Inductive base := BCircle | BEllipse | BTriangle | BParallelogram.
Record cylinder := mkCyl { y_center : p3; y_v1 : p3; y_v2 : p3; y_w : p3; y_base : base;
                           y_label : nat -> Z; y_bottom : Z; y_top : Z }.
(* Parallelepiped.__init__, cylinder.py 557-565 *)
Definition parallelepiped (point v0 v1 v2 : p3) (label : nat -> Z) (bottom top : Z) : cylinder :=
  let w := scale3 (5 / 10) v2 in
  mkCyl (add3 point w) v0 v1 w BParallelogram label bottom top.
(* get_bounds of the bases: base.py 170-174 (the radius is the norm of v1, 153-158),
   283-288, 392-404, 514-526 *)
Definition base_bounds (y : cylinder) : p3 * p3 :=
  let c := y_center y in
  let a := c in
  let b := add3 c (y_v1 y) in
  let cc := add3 b (y_v2 y) in
  let d := add3 c (y_v2 y) in
  let corners :=
    (P3 (min4 (qx a) (qx b) (qx cc) (qx d)) (min4 (qy a) (qy b) (qy cc) (qy d))
        (min4 (qz a) (qz b) (qz cc) (qz d)),
     P3 (max4 (qx a) (qx b) (qx cc) (qx d)) (max4 (qy a) (qy b) (qy cc) (qy d))
        (max4 (qz a) (qz b) (qz cc) (qz d))) in
  match y_base y with
  | BCircle => box3 c (norm3 (y_v1 y))
  | BEllipse => box3 c (Rmax (norm3 (y_v1 y)) (norm3 (y_v2 y)))
  | BTriangle => corners
  | BParallelogram => corners
  end.
(* point_inside of the bases: base.py 200-201, 314-315, 430-431, 552-555 *)
Definition base_inside (b : base) (q : p2) : bool :=
  match b with
  | BCircle | BEllipse => Rleb (px q ^ 2 + py q ^ 2) 1
  | BTriangle => (Rleb 0 (px q) && Rleb 0 (py q)) && Rleb (px q + py q) 1
  | BParallelogram => (Rleb 0 (px q) && Rleb 0 (py q)) && (Rleb (px q) 1 && Rleb (py q) 1)
  end.
(* distance of the bases: base.py 231-235, 345-349, 461-464, 585-588 *)
Definition base_distance (b : base) (q v : p2) (dmax : option R) (label : nat -> Z) : hit p2 :=
  match b with
  | BCircle | BEllipse => distance_ellipse q v (P2 0 0) (P2 1 0) (P2 0 1) dmax (label 0%nat)
  | BTriangle =>
      distance_lines q v
        [ mkEdge (P2 0 0) (P2 1 0) (label 0%nat); mkEdge (P2 0 0) (P2 0 1) (label 1%nat);
          mkEdge (P2 1 0) (P2 (-1) 1) (label 2%nat) ] dmax
  | BParallelogram =>
      distance_lines q v
        [ mkEdge (P2 0 0) (P2 1 0) (label 0%nat); mkEdge (P2 0 0) (P2 0 1) (label 1%nat);
          mkEdge (P2 1 0) (P2 0 1) (label 2%nat); mkEdge (P2 0 1) (P2 1 0) (label 3%nat) ] dmax
  end.

(* Cylinder.get_bounds, cylinder.py 51-64 *)
Definition cylinder_bounds (y : cylinder) : p3 * p3 :=
  let lw := P3 (5 / 10 * Rabs (qx (y_w y))) (5 / 10 * Rabs (qy (y_w y)))
               (5 / 10 * Rabs (qz (y_w y))) in
  let (lo, hi) := base_bounds y in (sub3 lo lw, add3 hi lw).
(* change_of_variables, 36-49: iA, the inverse of the matrix with columns v1, v2, w, by
   Cramer's rule (np.linalg.inv raises LinAlgError for a singular matrix) *)
Definition det3 (a b c : p3) : R := dot3 a (cross3 b c).
Definition to_frame (y : cylinder) (q : p3) : p3 :=
  let d := det3 (y_v1 y) (y_v2 y) (y_w y) in
  P3 (det3 q (y_v2 y) (y_w y) / d) (det3 (y_v1 y) q (y_w y) / d) (det3 (y_v1 y) (y_v2 y) q / d).
(* point_inside, 66-101 *)
Definition cylinder_inside (y : cylinder) (q : p3) : bool :=
  let c := to_frame y (sub3 q (y_center y)) in
  base_inside (y_base y) (P2 (qx c) (qy c)) && Rleb (Rabs (qz c)) 1.
(* distance, 104-216, with normal=True and a number for dmax (with None the comparisons of
   lines 176 and 184 raise TypeError) *)
Definition cylinder_distance (y : cylinder) (q v : p3) (m : R) : hit p3 :=
  let vc := to_frame y v in                                                     (* 135 *)
  let c := to_frame y (sub3 q (y_center y)) in                                  (* 136-144 *)
  let v2 := P2 (qx vc) (qy vc) in
  let side := base_distance (y_base y) (P2 (qx c) (qy c)) v2 (Some m) (y_label y) in  (* 152-154 *)
  let a0 := if Rltb (h_alpha side) 0 then tgv else h_alpha side in              (* 156 *)
  let far := Rltb 0 a0 && Rltb 1 (Rabs (qz c + a0 * qz vc)) in                  (* 161 *)
  let alpha := if far then tgv else a0 in
  let border := if far then (-1)%Z else h_border side in
  let nx := if far then 0 else px (h_normal side) in
  let ny := if far then 0 else py (h_normal side) in
  let decal := if Reqb (qz vc) 0 then / 10 ^ 16 else 0 in                        (* 170-173 *)
  let out t := Rltb t 0 || Rltb m t ||
               negb (base_inside (y_base y) (P2 (qx c + t * qx vc) (qy c + t * qy vc))) in
  let top := (1 - qz c) / (qz vc + decal) in                                    (* 174-181 *)
  let top := if out top then tgv else top in
  let bot := - (1 + qz c) / (qz vc + decal) in                                  (* 182-189 *)
  let bot := if out bot then tgv else bot in
  let res := Rmin (Rmin alpha top) bot in                                       (* 192 *)
  let '(border, n) := if Reqb res top then (y_top y, P3 0 0 1) else (border, P3 nx ny 0) in
  let '(border, n) := if Reqb res bot then (y_bottom y, P3 0 0 (-1)) else (border, n) in
  let res := if Reqb res tgv then -1 else res in                                (* 206 *)
  let A := fun f : p3 -> R => f (y_v1 y) * qx n + f (y_v2 y) * qy n + f (y_w y) * qz n in
  mkHit res border (P3 (A qx) (A qy) (A qz)).                                   (* 208-214 *)
