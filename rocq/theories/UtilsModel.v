(* Model of pylbm/utils.py: hsl_to_rgb (83-129).  Floats are rationals. *)
From Coq Require Import QArith Qround.
Open Scope Q_scope.

(* Python  t % 1 *)
Definition qmod1 (t : Q) : Q := t - inject_Z (Qfloor t).
Definition Qltb (a b : Q) : bool := negb (Qle_bool b a).

(* lines 113-121 *)
Definition hue2rgb (p q t : Q) : Q :=
  let t := qmod1 t in
  if Qltb t (1#6) then p + (q - p) * 6 * t
  else if Qltb t (1#2) then q
  else if Qltb t (2#3) then p + (q - p) * ((2#3) - t) * 6
  else p.
(* lines 106-129 *)
Definition hsl_to_rgb (h s l : Q) : Q * Q * Q :=
  if Qeq_bool s 0 then (l, l, l)
  else
    let q := if Qltb l (1#2) then l * (1 + s) else l + s - l * s in
    let p := 2 * l - q in
    (hue2rgb p q (h + (1#3)), hue2rgb p q h, hue2rgb p q (h - (1#3))).
