(* Model of the text of the generated files: the statements and loops of the two printers
   (pylbm/generator/printing/cython.py, printing/pycode.py), indent_code, and the files of
   pylbm/generator/codegen.py, character by character.  The text of an expression is given. *)
From Coq Require Import String Ascii.
From Verif Require Import PyBase.
From Verif Require BoundaryModel.
Notation backend := BoundaryModel.backend.
Notation Cython := BoundaryModel.Cython.
Notation Numpy := BoundaryModel.Numpy.
Open Scope string_scope.
Open Scope Z_scope.

Definition nl : ascii := "010"%char.
Definition NL : string := String nl "".
Definition hash : ascii := "#"%char.

(* ---- Python's methods of str ---- *)
(* line.lstrip(" \t") *)
Definition is_blank (c : ascii) : bool := Ascii.eqb c " " || Ascii.eqb c "009".
Fixpoint lstrip (s : string) : string := match s with
  | String c r => if is_blank c then lstrip r else s
  | EmptyString => EmptyString
  end.
(* s.splitlines(True).  Simplification: the only separator is "\n" *)
Fixpoint lines_keep (s : string) : list string := match s with
  | EmptyString => []
  | String c r => if Ascii.eqb c nl then NL :: lines_keep r
                  else match lines_keep r with [] => [String c ""] | l :: ls => String c l :: ls end
  end.
(* s.splitlines() *)
Fixpoint chomp (s : string) : string := match s with
  | EmptyString => ""
  | String c r => if Ascii.eqb c nl then "" else String c (chomp r)
  end.
Definition lines (s : string) : list string := map chomp (lines_keep s).
(* s.endswith(t) *)
Fixpoint endswith (t s : string) : bool := String.eqb s t || match s with EmptyString => false | String _ r => endswith t r end.
(* "    " * level: the empty string for a negative level *)
Fixpoint spaces (n : nat) : string := match n with O => "" | S n => String " " (spaces n) end.
Definition tabs (level : Z) : string := spaces (4 * Z.to_nat level).

(* ---- indent_code ---- cython.py 379-410, pycode.py 1124-1152 (the same lines) *)
Definition increases (line : string) : bool := endswith ":" line || endswith (String ":" NL) line.
Definition decreases (line : string) : bool := endswith ("end" ++ NL) line.
Definition level_of (b : bool) : Z := if b then 1 else 0.
Fixpoint indent_from (level : Z) (code : list string) : list string := match code with
  | [] => []
  | line :: code =>
      if String.eqb line "" || String.eqb line NL then line :: indent_from level code
      else let level := level - level_of (decreases line) in
           (tabs level ++ line)%string :: indent_from (level + level_of (increases line)) code
  end.
Definition indent_list (code : list string) : list string := indent_from 0 (map lstrip code).
Definition indent_text (s : string) : string := String.concat "" (indent_list (lines_keep s)).

(* ---- the statements ---- an Assignment with the texts of its sides, a For of ast.py 858-925 with
   the texts label, lower, upper of its Idx.  Piecewise and matrix sides are left out. *)
Record loop := mkLoop { l_label : string; l_lower : string; l_upper : string }.
Inductive stmt := Assign (lhs rhs : string) | For (target : list loop) (body : list stmt).
(* cython.py 305 *)
Definition for_line (i : loop) : string := "for " ++ l_label i ++ " in range(" ++ l_lower i ++ ", " ++ l_upper i ++ "):".
(* doprint, cython.py 131-151, pycode.py 722-748: _print, then splitlines, then _format_code.
   The setting human is False (codegen.py 1152, 1286). *)
Definition format (text : string) : string := String.concat NL (indent_list (lines text)).
(* _print_For and _print_Assignment: cython.py 301-342; pycode.py 1086-1122 *)
Fixpoint print (be : backend) (s : stmt) : string := match s with
  | Assign lhs rhs => if String.eqb lhs rhs then "" else lhs ++ " = " ++ rhs
  | For target body =>
      let inner := (fix go (l : list stmt) : list string := match l with [] => [] | e :: l => format (print be e) :: go l end) body in
      String.concat NL (match be with
        | Cython => map for_line target ++ inner ++ map (fun _ => "#end") target
        | Numpy => inner
        end)
  end.

(* ---- the routines ---- *)
Record arg := mkArg { g_type : string; g_name : string; g_dims : nat }.
Inductive local := LIdx (name : string) | LSym (name : string) | LArr (name : string) (shape : list string).
Record routine := mkRoutine { r_name : string; r_args : list arg; r_locals : list local; r_stmts : list stmt }.
(* codegen.py 1074-1095; 1242.  The outputs which are scalars are left out: a kernel of pylbm
   writes in arrays. *)
Definition arg_text (be : backend) (a : arg) : string := match be with
  | Cython => match g_dims a with
              | O => g_type a ++ " " ++ g_name a
              | _ => g_type a ++ "[" ++ String.concat ", " (repeat ":" (g_dims a)) ++ ":1]" ++ " " ++ g_name a
              end
  | Numpy => g_name a
  end.
(* codegen.py 1053-1104; 1226-1247 *)
Definition opening (be : backend) (r : routine) : string :=
  "def " ++ r_name r ++ "(" ++ String.concat ", " (map (arg_text be) (r_args r)) ++ "):" ++ NL.
(* codegen.py 1112-1126; 1255-1256.  shape: the dimensions other than 1 *)
Definition local_text (l : local) : string := match l with
  | LIdx n => "cdef int " ++ n ++ NL
  | LSym n => "cdef double " ++ n ++ NL
  | LArr n sh => "cdef double " ++ n ++ "[" ++ String.concat "," sh ++ "]" ++ NL
  end.
Definition declare_locals (be : backend) (r : routine) : string := match be with
  | Cython => String.concat "" (map local_text (r_locals r))
  | Numpy => ""
  end.
(* codegen.py 1129-1161; 1273-1297, without the constants of SymPy (number_symbols) *)
Definition call_printer (be : backend) (r : routine) : string :=
  String.concat "" (map (fun s => format (print be s) ++ NL)%string (r_stmts r)).
(* codegen.py 971-985, empty is True; 1163-1164, 1258-1271 without results *)
Definition routine_text (be : backend) (r : routine) : string :=
  NL ++ opening be r ++ declare_locals be r ++ NL ++ call_printer be r ++ NL ++ "#end" ++ NL.
(* 987-993, with the header of 1030-1047 and 1195-1205, whose comments are left out *)
Definition header (be : backend) : string := match be with
  | Cython => "#!python" ++ NL ++ "#cython: language_level=3" ++ NL ++ "#cython: boundscheck=False" ++ NL ++ "#cython: wraparound=False" ++ NL ++
              "#cython: cdivision=True" ++ NL ++ "#cython: binding=True" ++ NL ++ "#import cython" ++ NL ++ "from libc.math cimport *" ++ NL ++ NL ++ NL
  | Numpy => "import numpy" ++ NL
  end.
Definition dump (be : backend) (rs : list routine) : string :=
  header be ++ indent_text (String.concat "" (map (routine_text be) rs)).
