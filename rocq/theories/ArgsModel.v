(* Model of the values which the generated kernels get for the symbols of the user:
   pylbm/algorithm/base.py 92-94, 123-155 (the symbols are replaced), 580-600 (local variables
   of one_time_step), 630-681 (_get_args, call_function), pylbm/generator/codegen.py 768-900
   (arguments of a routine), 1113-1128, 1253-1254 (declaration of the local variables),
   pylbm/symbolic.py 287-299 (call_genfunction). *)
From Coq Require Import String.
From Verif Require Import PyBase LinAlg BoundaryModel.
Open Scope string_scope.

Section Args.
Variable K : ring.

(* An expression of the user (equilibrium, relaxation parameter, relative velocity, source
   term) when the parameters of the dictionary are replaced (C59). *)
Inductive uexp :=
| UNum (c : K)
| USym (s : string)
| UUn (o : K -> K) (e : uexp)
| UBin (o : K -> K -> K) (e1 e2 : uexp).
(* The same in the code: element k of the moments, or a symbol. *)
Inductive cexp :=
| CNum (c : K)
| CMom (k : nat)
| CName (s : string)
| CUn (o : K -> K) (e : cexp)
| CBin (o : K -> K -> K) (e1 e2 : cexp).

Fixpoint position (s : string) (l : list string) : option nat := match l with
  | [] => None
  | x :: l => if String.eqb s x then Some O else option_map S (position s l)
  end.
(* scheme.py 192-200 (the default symbols), base.py 93 *)
Definition coord_names : list string := ["X"; "Y"; "Z"].
Definition local_names : list string := ["xx"; "yy"; "zz"].
(* subs_coords (123: the three of them in every dimension), then subs_moments (124-128); cons: the
   names of the conserved moments in the order of scheme.consm *)
Definition sub_coord (s : string) : string := match position s coord_names with Some d => nth d local_names "" | None => s end.
Definition sub_moment (cons : list string) (s : string) : cexp := match position s cons with Some k => CMom k | None => CName s end.
Fixpoint subst (cons : list string) (e : uexp) : cexp := match e with
  | UNum c => CNum c
  | USym s => sub_moment cons (sub_coord s)
  | UUn o e => CUn o (subst cons e)
  | UBin o e1 e2 => CBin o (subst cons e1) (subst cons e2)
  end.

Fixpoint names (e : cexp) : list string := match e with
  | CNum _ | CMom _ => []
  | CName s => [s]
  | CUn _ e => names e
  | CBin _ e1 e2 => names e1 ++ names e2
  end.
(* the name of a symbol in the text of the code: cython.py 291-295, reserved words of pycode.py 19-58 *)
Definition printed (s : string) : string := if String.eqb s "lambda" then "lambda_" else s.

(* A routine: its expressions and the local variables given by the user of make_routine (the
   indices of the loops and the arrays are left out: they are always there).
   Arguments: the free symbols which are not local (codegen.py 817-823). *)
Record routine := mkRoutine { r_exps : list cexp; r_locals : list string }.
Definition is_local (r : routine) (s : string) : bool := if position s (r_locals r) then true else false.
Definition arguments (r : routine) : list string := map printed (filter (fun s => negb (is_local r s)) (flat_map names (r_exps r))).
(* base.py 381-395, 404-437, 487-495: equilibrium, relaxation and source_term have no local
   variables; 580-600: those of one_time_step are the symbols of the coordinates (154) *)
Definition whole_routine (es : list cexp) : routine := mkRoutine es [].
Definition step_routine (dim : nat) (es : list cexp) : routine := mkRoutine es (firstn dim local_names).

(* ---- the values, base.py 630-667 ---- *)
(* a number, the coordinates along an axis, another object *)
Inductive pyval := VNum (x : K) | VCoords (d : nat) | VObj.
Definition lookup {A} (s : string) (l : list (string * A)) : option A :=
  match find (fun p => String.eqb (fst p) s) (rev l) with Some p => Some (snd p) | None => None end.
Variable isz : K -> bool.
(* 663-665: a dictionary with the texts of the symbols; "lambda" once more as "lambda_" *)
Definition extra_dict (extra : list (string * K)) : list (string * K) :=
  match lookup "lambda" extra with Some v => if isz v then extra else extra ++ [("lambda_", v)] | None => extra end.
(* the local variables of the function _get_args: with a value, without *)
Definition assigned (dim : nat) : list string :=
  ["self"; "simulation"; "m_user"; "f_user"; "kwargs"; "mm"; "m"; "dim"; "nx"; "X"; "f"; "fnew"; "t"; "dt"; "in_or_out"; "valin"; "local"; "extra"] ++
  (if (1 <? dim)%nat then ["ny"; "Y"] else []) ++ (if (2 <? dim)%nat then ["nz"; "Z"] else []).
Definition variables : list string := assigned 3.
Definition of_variable (t dt : K) (s : string) : pyval :=
  if String.eqb s "t" then VNum t else if String.eqb s "dt" then VNum dt else
  if String.eqb s "X" then VCoords 0 else if String.eqb s "Y" then VCoords 1 else if String.eqb s "Z" then VCoords 1 else VObj.
(* local = locals(); local.update(extra); return locals().  Up to Python 3.12 the function
   locals() gives each time the same dictionary, after writing the local variables which have
   a value and deleting the others; from Python 3.13 on (fresh) a new one. *)
Definition get_args (fresh : bool) (dim : nat) (t dt : K) (extra : list (string * K)) (s : string) : option pyval :=
  if position s variables then (if position s (assigned dim) then Some (of_variable t dt s) else None)
  else if fresh then None else option_map VNum (lookup s (extra_dict extra)).
(* call_function, 669-681: args.update(kwargs) *)
Definition all_args (fresh : bool) (dim : nat) (t dt : K) (extra kw : list (string * K)) (s : string) : option pyval :=
  match lookup s kw with Some v => Some (VNum v) | None => get_args fresh dim t dt extra s end.
(* call_genfunction: d = {k: args[k] for k in func_args}; false: KeyError *)
Definition call_ok (r : routine) (args : string -> option pyval) : bool := forallb (fun s => if args s then true else false) (arguments r).

(* The value of an expression of the routine at a cell where the moments are mom.  A local
   variable which is never assigned: "cdef double xx", some value (undef), in Cython; a
   NameError (None) in NumPy.  coords(), base.py 265-271, which would assign them, is not called
   (590, 593: comments).  A symbol which stands for an object that is not a number: an error. *)
Fixpoint value (be : backend) (r : routine) (args : string -> option pyval) (undef : string -> K) (mom : nat -> K) (e : cexp) : option K := match e with
  | CNum c => Some c
  | CMom k => Some (mom k)
  | CName s => if is_local r s then (match be with Numpy => None | Cython => Some (undef s) end)
               else match args (printed s) with Some (VNum x) => Some x | _ => None end
  | CUn o e => option_map o (value be r args undef mom e)
  | CBin o e1 e2 => match value be r args undef mom e1, value be r args undef mom e2 with Some x, Some y => Some (o x y) | _, _ => None end
  end.
(* the whole routine: None if the call or an expression raises an error *)
Definition run_routine be (r : routine) args undef mom : option (list K) :=
  if call_ok r args then
    fold_right (fun e acc => match value be r args undef mom e, acc with Some x, Some l => Some (x :: l) | _, _ => None end) (Some []) (r_exps r)
  else None.
End Args.
