(* Model of pylbm/utils.py: header_string (20-23), print_progress (132-153) and
   pylbm_progress_bar (156-176).  A text is a list of characters; the quotient of the two
   numbers is exact; the percentage, the prefix and the suffix are given texts. *)
From Coq Require Import QArith Ascii.
From Verif Require Import PyBase GridModel.
Require Import Lia.
Open Scope Z_scope.
Definition txt := list ascii.
(* Python  c * n *)
Definition times (c : ascii) (n : Z) : txt := repeat c (Z.to_nat n).
Definition nl : ascii := "010"%char.
Definition cr : ascii := "013"%char.

(* lines 20-23, without the codes of the colours *)
Definition header (title : txt) : txt :=
  let barre := "+"%char :: times "-" (Z.of_nat (length title) + 2) ++ ["+"%char] in
  let output := [nl; "|"%char; " "%char] ++ title ++ [" "%char; "|"%char; nl] in
  barre ++ output ++ barre.

(* line 146; the division by zero raises *)
Definition filled (bar i total : Z) : option Z :=
  if total =? 0 then None else Some (py_round (inject_Z (bar * i) / inject_Z total)).
(* line 147 *)
Definition p_bar (bar n : Z) : txt := times "*" n ++ times "-" (bar - n).
(* lines 144-153: what is written *)
Definition print_progress (bar i total : Z) (prefix suffix : txt) (percents : Z -> txt) : option txt :=
  match filled bar i total with
  | None => None
  | Some n => Some ([cr] ++ prefix ++ [" "%char; "|"%char] ++ p_bar bar n ++ ["|"%char; " "%char] ++ percents i ++ ["%"%char; " "%char] ++ suffix ++
                    (if i =? total then [nl] else []))
  end.

(* lines 156-176: the constructor prints the bar of 0, each call adds one and prints *)
Section Bar.
Variables (total : Z) (title : txt) (percents : Z -> txt).
Definition show (compt : Z) : option txt := print_progress 100 compt total title [] percents.
Definition new_bar : option (Z * txt) := match show 0 with Some s => Some (0, s) | None => None end.
Definition pbar (st : Z * txt) : option (Z * txt) :=
  let compt := fst st + 1 in
  match show compt with Some s => Some (compt, snd st ++ s) | None => None end.
Fixpoint calls (k : nat) : option (Z * txt) := match k with
  | O => new_bar
  | S k => match calls k with Some st => pbar st | None => None end
  end.
End Bar.
