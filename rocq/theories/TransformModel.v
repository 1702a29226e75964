(* Model of pylbm/algorithm/transform.py: the conserved moments of a source term
   are replaced by entries of the array m, on the list of tokens. *)
From Verif Require Import PyBase StorageModel.
From Coq Require Import String.
Open Scope string_scope.
Open Scope list_scope.

(* tokenize token types used by the code (lines 7-11); TOther: all other types. *)
Inductive tkind := NAME | NUMBER | OP | TOther.
Definition token : Type := tkind * string.

(* An entry of local_dict["default_index"] and the moment number (lines 55-65):
   IIdx: a sympy Idx printed as a name; INum: anything else, printed as a number.
   The text of the index ("%s" % index) is given. *)
Inductive index := IIdx (s : string) | INum (s : string).

(* The entries of local_dict read by the code.  consm maps a name to the text of
   its moment number.  sorder = []: None or empty (base.py 457-479). *)
Record env := mkEnv {
  e_consm : list (string * string);
  e_sorder : list nat;
  e_default : list index
}.

(* token[0] == NAME and token[1] in consm.keys()  (line 34) *)
Fixpoint lookup (c : list (string * string)) (s : string) : option string :=
  match c with
  | [] => None
  | (n, k) :: t => if String.eqb n s then Some k else lookup t s
  end.
Definition conserved (e : env) (t : token) : option string :=
  match fst t with NAME => lookup (e_consm e) (snd t) | _ => None end.
(* nextTok[0] == OP and nextTok[1] == "["  (line 35) *)
Definition is_open (t : token) : bool :=
  match fst t with OP => String.eqb (snd t) "[" | _ => false end.

(* Lines 41-49: the tokens of the index up to "]" (only the text is compared),
   cut at ",".  Result: the stacks, the closing token, the tokens after it.
   None: IndexError, no closing bracket.  cur is stacks[-1], reversed. *)
Fixpoint take_index (cur : list token) (ts : list token)
  : option (list (list token) * token * list token) :=
  match ts with
  | [] => None
  | t :: r =>
      if String.eqb (snd t) "]" then Some ([rev cur], t, r)
      else if String.eqb (snd t) "," then
        match take_index [] r with
        | Some (st, c, r') => Some (rev cur :: st, c, r')
        | None => None
        end
      else take_index (t :: cur) r
  end.

(* Lines 18-25, reorder. *)
Definition reorder (e : env) (stacks : list (list token)) : option (list token) :=
  match set_order stacks (e_sorder e) with
  | Some st => Some (flat_map (fun s => s ++ [(OP, ",")]) st)
  | None => None
  end.

(* Lines 60-65 *)
Definition index_token (i : index) : token :=
  match i with IIdx s => (NAME, s) | INum s => (NUMBER, s) end.

(* Lines 28-73, transform_expr; ts is tokens[l:], the result is what is appended
   from there on.  The fuel is the number of tokens. *)
Fixpoint transform_from (fuel : nat) (e : env) (ts : list token) : option (list token) :=
  match fuel with
  | O => Some ts
  | S fuel =>
    match ts with
    | t :: ((nxt :: r) as ts1) =>
        match conserved e t with
        | Some k =>
            if is_open nxt then
              match take_index [] r with
              | None => None
              | Some (st, close, r') =>
                  match reorder e ([(NUMBER, k)] :: st), transform_from fuel e r' with
                  | Some o, Some out => Some ((NAME, "m") :: nxt :: o ++ close :: out)
                  | _, _ => None
                  end
              end
            else
              match set_order (INum k :: e_default e) (e_sorder e), transform_from fuel e ts1 with
              | Some o, Some out =>
                  Some ((NAME, "m") :: (OP, "[")
                        :: flat_map (fun i => [index_token i; (OP, ",")]) o
                        ++ (OP, "]") :: out)
              | _, _ => None
              end
        | None =>
            match transform_from fuel e ts1 with
            | Some out => Some (t :: out)
            | None => None
            end
        end
    | _ => Some ts   (* lines 69-71: the last token is copied *)
    end
  end.
Definition transform_expr (e : env) (ts : list token) : option (list token) :=
  transform_from (List.length ts) e ts.

(* base.py 464-466, source_term_local: the space indices of the entry m[0], taken
   back from the storage order: [m[0].indices[s] for s in sorder[1:]].
   m0 is m[0].indices. *)
Definition source_indices (m0 : list index) (sorder : list nat) : option (list index) :=
  gather m0 (tl sorder).
