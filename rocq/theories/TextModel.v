(* Model of the text of an expression: pylbm/generator/printing/cython.py 190-223 and
   printing/pycode.py 424-505, 927-942, 1063-1085, with the methods of SymPy they inherit
   (StrPrinter._print_Add, CodePrinter._print_Mul, parenthesize, precedence; SymPy >= 1.13).
   A text is the list of its tokens; spaces are left out. *)
From Coq Require Import String.
From Verif Require Import PyBase.
From Verif Require BoundaryModel.
Notation backend := BoundaryModel.backend.
Notation Cython := BoundaryModel.Cython.
Notation Numpy := BoundaryModel.Numpy.
Open Scope Z_scope.

Inductive tok := TInt (n : Z) | TFlo (p : Z) (q : positive) | TId (x : string)
  | TPlus | TMinus | TStar | TSlash | TPow | TLP | TRP | TLB | TRB | TComma | TColon | TQuest.
Definition text := list tok.

(* ---- the expressions of SymPy ---- Num is an Integer (q = 1) or a Rational; SMul has its
   numerical coefficient and the other factors in the printed order; Elem is an Indexed, whose
   indices are expressions or, with NumPy, lower:upper.  Left out: Float (but the exponents of
   NumPy), Piecewise (but C70_piecewise), relations, Boolean functions, sign. *)
Inductive sexp :=
| Num (p : Z) (q : positive)
| Sym (x : string)
| Elem (a : string) (ix : list sexp)
| Range (lower upper : sexp)
| SAdd (l : list sexp)
| SMul (p : Z) (q : positive) (l : list sexp)
| SPow (b x : sexp)
| SFn (f : string) (l : list sexp).

Section Print.
(* Mul.could_extract_minus_sign, any answer *)
Variable minus : sexp -> bool.
(* S.Half == 0.5: False since SymPy 1.13 *)
Variable half_eq : bool.
Variable be : backend.

(* sympy/printing/precedence.py *)
Definition prec (e : sexp) : Z := match e with
  | Num p q => if p <? 0 then 40 else if Pos.eqb q 1 then 1000 else 50
  | Sym _ | Elem _ _ | Range _ _ => 1000
  | SAdd _ => 40
  | SMul _ _ _ => if minus e then 40 else 50
  | SPow _ _ => 60
  | SFn _ _ => 70
  end.
Definition between (t : text) : text := TLP :: t ++ [TRP].
(* parenthesize(item, level), strict is False *)
Definition paren (level : Z) (e : sexp) (t : text) : text := if prec e <=? level then between t else t.
Fixpoint join (sep : text) (l : list text) : text := match l with
  | [] => []
  | [t] => t
  | t :: l => t ++ sep ++ join sep l
  end.
Fixpoint all {A : Type} (l : list (option A)) : option (list A) := match l with
  | [] => Some []
  | Some a :: l => option_map (cons a) (all l)
  | None :: _ => None
  end.

(* _print_Integer; _print_Rational: cython.py 207-208, the decimals of evalf(16) as the exact
   number; pycode.py 485-488 *)
Definition num_text (p : Z) (q : positive) : text :=
  (if p <? 0 then [TMinus] else []) ++
  (if Pos.eqb q 1 then [TInt (Z.abs p)] else match be with Cython => [TFlo (Z.abs p) q] | Numpy => [TInt (Z.abs p); TSlash; TInt (Zpos q)] end).
(* StrPrinter._print_Add: each term with its text and term.is_Add *)
Definition is_add (e : sexp) : bool := match e with SAdd _ => true | _ => false end.
Definition signed (add : bool) (t : text) : bool * text := match t with
  | TMinus :: r => if add then (false, between t) else (true, r)
  | _ => (false, if add then between t else t)
  end.
Definition add_text (l : list (bool * text)) : text := match map (fun p => signed (fst p) (snd p)) l with
  | [] => []
  | (s, t) :: l => (if s then [TMinus] else []) ++ t ++ flat_map (fun p : bool * text => (if fst p then TMinus else TPlus) :: snd p) l
  end.
(* _print_Pow: cython.py 190-205; pycode.py 927-942 and _hprint_Pow, 424-477.
   None: TypeError, the truth value of exp > 0 for an expression with symbols. *)
Definition call (f : string) (args : list text) : text := TId f :: TLP :: join [TComma] args ++ [TRP].
Definition power (n : nat) (t : text) : text := between (t ++ flat_map (fun _ => TStar :: t) (seq 1 (n - 1))).
Definition is_num (p : Z) (q : positive) (x : sexp) : bool := match x with Num p' q' => (p =? p') && Pos.eqb q q' | _ => false end.
Definition pow_text (b : sexp) (tb : text) (x : sexp) (tx : text) : option text := match be with
  | Cython =>
      if is_num (-1) 1 x then Some (TFlo 1 1 :: TSlash :: paren 60 b tb)
      else if half_eq && is_num 1 2 x then Some (call "sqrt" [tb])
      else match x with
           | Num p q => if (0 <? p) && Pos.eqb q 1 then Some (power (Z.to_nat p) (paren 60 b tb)) else Some (call "pow" [tb; tx])
           | _ => None
           end
  | Numpy => match x with
      | Num p q =>
          if Pos.eqb q 1 then if p <? 0 then Some (paren 60 b tb ++ TPow :: between [TMinus; TFlo (Z.abs p) 1])
                              else Some (power (Z.to_nat p) (paren 60 b tb))
          else if is_num 1 2 x then Some (call "numpy.sqrt" [tb])
          else if is_num (-1) 2 x then Some (TInt 1 :: TSlash :: call "numpy.sqrt" [tb])
          else Some (paren 60 b tb ++ TPow :: paren 60 x tx)
      | _ => Some (paren 60 b tb ++ TPow :: paren 60 x tx)
      end
  end.
(* CodePrinter._print_Mul *)
Definition is_den (f : sexp) : bool := match f with SPow _ (Num p _) => p <? 0 | _ => false end.
Definition is_mul (e : sexp) : bool := match e with SMul _ _ _ => true | _ => false end.
(* the base b of a factor b**(p/q), p < 0, in the denominator: b, or b**(-p/q) *)
Definition den_text (level : Z) (b : sexp) (tb : text) (p : Z) (q : positive) : option text :=
  if (p =? -1) && Pos.eqb q 1 then Some (let t := paren level b tb in if is_mul b then between t else t)
  else option_map (paren level (SPow b (Num (- p) q))) (pow_text b tb (Num (- p) q) (num_text (- p) q)).
Definition coefficient (p : Z) (q : positive) : list sexp := if (Z.abs p =? 1) && Pos.eqb q 1 then [] else [Num (Z.abs p) q].
Definition mul_text (neg : bool) (nums dens : list text) : text :=
  (if neg then [TMinus] else []) ++ join [TStar] nums ++
  match dens with [] => [] | [t] => TSlash :: t | _ => TSlash :: between (join [TStar] dens) end.
Definition num_level (level : Z) (neg : bool) (n : nat) : Z := if neg && (n =? 1)%nat then 55 else level.

Fixpoint print (e : sexp) : option text := match e with
  | Num p q => Some (num_text p q)
  | Sym x => Some [TId x]
  | Elem a ix => option_map (fun l => TId a :: TLB :: join [TComma] l ++ [TRB]) (all (map print ix))   (* cython.py 210-214; pycode.py 1063-1082 *)
  | Range lower upper => match print lower, print upper with Some l, Some u => Some (l ++ TColon :: u) | _, _ => None end
  | SAdd l => option_map add_text (all (map (fun t => option_map (pair (is_add t)) (print t)) l))
  | SMul p q l =>
      let neg := p <? 0 in
      let level := prec e in
      let kept := filter (fun f => negb (is_den f)) l in
      let a := match coefficient p q ++ kept with [] => [Num 1 1] | a => a end in
      let la := num_level level neg (length a) in
      let first := match coefficient p q with
                   | [] => match kept with [] => [[TInt 1]] | _ => [] end
                   | c :: _ => [paren la c (num_text (Z.abs p) q)]
                   end in
      match all (flat_map (fun f => if is_den f then [] else [option_map (paren la f) (print f)]) l),
            all (flat_map (fun f => match f with
                                    | SPow b (Num p q) => if p <? 0 then match print b with Some tb => [den_text level b tb p q] | None => [None] end else []
                                    | _ => []
                                    end) l) with
      | Some nums, Some dens => Some (mul_text neg (first ++ nums) dens)
      | _, _ => None
      end
  | SPow b x => match print b, print x with Some tb, Some tx => pow_text b tb x tx | _, _ => None end
  | SFn f l => option_map (call f) (all (map print l))
  end.
End Print.

(* cython.py 242-279, Piecewise in an expression: the syntax of C,
   "((c1) ? (e1) : ((c2) ? (e2) : (e3)))" *)
Fixpoint cython_piecewise (l : list (text * text)) (last : text) : text := match l with
  | [] => between last
  | (c, e) :: l => TLP :: between c ++ TQuest :: between e ++ TColon :: cython_piecewise l last ++ [TRP]
  end.
