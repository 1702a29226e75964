(* Model of the validation of the dictionary (pylbm/validator.py) and of the way the constructors
   read a dictionary which has been accepted.  The semantics of the rules is the one of Cerberus
   1.3, transcribed from memory: the library is not in /repo. *)
From Coq Require Import String QArith.
From Verif Require Import PyBase.
Open Scope string_scope.
Open Scope Z_scope.

(* ---- the values ---- a Python object, as far as the tests of types see it.  PSymbol: Symbol or
   IndexedBase of SymPy (both are Expr too); PExpr: another Expr; PMatrix: a Matrix; PElem: an
   element with its dimension; PClass: a class, subclass of BoundaryMethod, of BaseAlgorithm;
   POther: any other object. *)
Inductive pv :=
| PNone | PBool (b : bool) | PInt (z : Z) | PFloat (q : Q) | PStr (s : string)
| PSymbol (s : string) | PExpr (s : string) | PMatrix (n m : nat) | PFun (n : nat) | PElem (dim : nat)
| PClass (name : string) (boundary algorithm : bool)
| PList (l : list pv) | PTuple (l : list pv) | PDict (l : list (pv * pv)) | POther.
Definition key_is (k : string) (x : pv) : bool := match x with PStr s => String.eqb s k | _ => false end.
(* k in d; d.get(k, None) with the difference between None and absent *)
Definition mem (k : string) (d : list (pv * pv)) : bool := existsb (fun p => key_is k (fst p)) d.
Definition get (k : string) (d : list (pv * pv)) : option pv := option_map snd (find (fun p => key_is k (fst p)) d).
Definition seq_of (v : pv) : option (list pv) := match v with PList l | PTuple l => Some l | _ => None end.

(* ---- the rules ---- *)
Inductive ty := TInteger | TNumber | TString | TBoolean | TList | TDict | TSymbol | TExpr | TMatrix | TElement | TFunction.
(* validator.py 24-37 and the types of Cerberus: a list is a Sequence which is not a string (a
   tuple is one); a Boolean is neither an integer nor a number *)
Definition has_type (t : ty) (v : pv) : bool := match t, v with
  | TInteger, PInt _ | TNumber, PInt _ | TNumber, PFloat _ | TString, PStr _ | TBoolean, PBool _ => true
  | TList, PList _ | TList, PTuple _ | TDict, PDict _ => true
  | TSymbol, PSymbol _ | TExpr, PSymbol _ | TExpr, PExpr _ | TMatrix, PMatrix _ _ | TElement, PElem _ | TFunction, PFun _ => true
  | _, _ => false
  end.
(* RSeq, RFields: the rule "schema", with the rules of the elements of a sequence or with the
   fields of a dictionary; anyof_type is an anyof. *)
Inductive rule :=
| RType (t : ty) | RAllowed (l : list pv) | RMin (z : Z) | RNullable | RRequired (b : bool) | RExcludes (f : string)
| RItems (l : list (list rule)) | RSeq (l : list rule) | RFields (l : list (string * list rule))
| RKeys (l : list rule) | RValues (l : list rule) | RAnyof (l : list (list rule)) | RIsBoundary | RIsAlgorithm.
(* Raise: an exception of Cerberus *)
Inductive outcome := Ok | Bad | Raise.
Definition of_bool (b : bool) : outcome := if b then Ok else Bad.
(* the errors are collected: the validation goes on after an error *)
Definition both (a b : outcome) : outcome := match a, b with
  | Raise, _ | _, Raise => Raise
  | Ok, Ok => Ok
  | _, _ => Bad
  end.
Definition every (l : list outcome) : outcome := fold_right both Ok l.
Definition some_ok (l : list outcome) : outcome :=
  if existsb (fun o => match o with Raise => true | _ => false end) l then Raise
  else of_bool (existsb (fun o => match o with Ok => true | _ => false end) l).
Definition same (v w : pv) : bool := match v, w with
  | PInt a, PInt b => Z.eqb a b
  | PStr a, PStr b => String.eqb a b
  | _, _ => false
  end.
Definition at_least (z : Z) (v : pv) : bool := match v with PInt a => z <=? a | PFloat q => Qle_bool (inject_Z z) q | _ => true end.
Definition nullable (rs : list rule) : bool := existsb (fun r => match r with RNullable => true | _ => false end) rs.
Definition types_ok (rs : list rule) (v : pv) : bool := forallb (fun r => match r with RType t => has_type t v | _ => true end) rs.
Definition required (rs : list rule) : bool := existsb (fun r => match r with RRequired b => b | _ => false end) rs.
Definition excluded (rs : list rule) : list string := flat_map (fun r => match r with RExcludes f => [f] | _ => [] end) rs.
(* _validate_excludes: a required field which is present makes the fields it excludes not required *)
Definition unrequired (fs : list (string * list rule)) (d : list (pv * pv)) (k : string) : bool :=
  existsb (fun p : string * list rule => mem (fst p) d && required (snd p) && existsb (String.eqb k) (excluded (snd p))) fs.
(* __validate_required_fields *)
Definition present (fs : list (string * list rule)) (d : list (pv * pv)) : bool :=
  forallb (fun p : string * list rule => negb (required (snd p)) || unrequired fs d (fst p) || mem (fst p) d) fs.

(* The rules of one value: None is refused unless nullable; then the type; then the other rules,
   which are dropped if the type is wrong.  Simplification: all the rules are dropped for None. *)
Definition run_with (check : rule -> pv -> outcome) (rs : list rule) (v : pv) : outcome := match v with
  | PNone => of_bool (nullable rs)
  | _ => if types_ok rs v then every (map (fun r => check r v) rs) else Bad
  end.
Fixpoint check (r : rule) (v : pv) {struct r} : outcome := match r with
  | RType t => of_bool (has_type t v)
  | RAllowed l => of_bool (existsb (same v) l)
  | RMin z => of_bool (at_least z v)
  | RNullable | RRequired _ | RExcludes _ => Ok
  | RItems l => match seq_of v with
      | Some vs => if Nat.eqb (length l) (length vs) then
                     (fix go (l : list (list rule)) (vs : list pv) : outcome := match l, vs with
                        | rs :: l, v :: vs => both (run_with check rs v) (go l vs)
                        | _, _ => Ok
                        end) l vs
                   else Bad
      | None => Raise
      end
  | RSeq rs => match seq_of v with Some vs => every (map (fun v => run_with check rs v) vs) | None => Ok end
  (* a sequence instead of the dictionary: the names of the fields are taken for rules, an exception *)
  | RFields fs => match v with
      | PDict d =>
          both (every (map (fun p : pv * pv =>
                   (fix go (l : list (string * list rule)) : outcome := match l with
                      | [] => Bad                                                   (* unknown field *)
                      | (key, rs) :: l => if key_is key (fst p) then both (run_with check rs (snd p)) (of_bool (forallb (fun f => negb (mem f d)) (excluded rs)))
                                          else go l
                      end) fs) d))
               (of_bool (present fs d))
      | PList (_ :: _) | PTuple (_ :: _) => Raise
      | _ => Ok
      end
  | RKeys rs => match v with PDict d => every (map (fun p => run_with check rs (fst p)) d) | _ => Ok end
  | RValues rs => match v with PDict d => every (map (fun p => run_with check rs (snd p)) d) | _ => Ok end
  | RAnyof l => some_ok (map (fun rs => run_with check rs v) l)
  | RIsBoundary => of_bool (match v with PClass _ b _ => b | _ => false end)        (* 50-57 *)
  | RIsAlgorithm => of_bool (match v with PClass _ _ a => a | _ => false end)       (* 59-66 *)
  end.
Definition run : list rule -> pv -> outcome := run_with check.

(* ---- the schema ---- validator.py 189-341 *)
Inductive class := CStencil | CDomain | CGeometry | CScheme | CSimulation.
Definition class_eqb (a b : class) : bool := match a, b with
  | CStencil, CStencil | CDomain, CDomain | CGeometry, CGeometry | CScheme, CScheme | CSimulation, CSimulation => true
  | _, _ => false
  end.
Definition among (l : list class) (c : class) : rule := RRequired (existsb (class_eqb c) l).
Definition expression : list rule := [RAnyof [[RType TNumber]; [RType TExpr]]].
Definition pair_rule : list rule := [RType TList; RItems [[RType TNumber]; [RType TNumber]]].
Definition scheme_schema (c : class) : list (string * list rule) :=
  [("velocities", [RType TList; RSeq [RType TInteger; RMin 0]; among [CDomain; CScheme; CSimulation; CStencil] c]);
   ("M", [RType TMatrix; among [CScheme; CSimulation] c; RExcludes "polynomials"]);
   ("polynomials", [RType TList; RSeq expression; among [CScheme; CSimulation] c; RExcludes "M"]);
   ("relaxation_parameters", [RType TList; RSeq expression; among [CScheme; CSimulation] c]);
   ("equilibrium", [RType TList; RSeq expression; RExcludes "feq"; among [CScheme; CSimulation] c]);
   ("feq", [RType TList; RItems [[RType TFunction]; [RType TList]]; RExcludes "equilibrium"; among [CScheme; CSimulation] c]);
   ("conserved_moments", [RAnyof [[RType TSymbol]; [RType TList; RSeq [RType TSymbol]]]; among [CScheme; CSimulation] c]);
   ("source_terms", [RType TDict; RKeys [RType TSymbol]; RValues [RAnyof [[RType TExpr]; [RType TNumber]]]])].
Definition boundary_schema : list (string * list rule) :=
  [("method", [RType TDict; RKeys [RType TInteger]; RValues [RIsBoundary]]);
   ("value", [RAnyof [[RType TFunction]; [RType TList; RItems [[RType TFunction]; [RType TList; RNullable]]]]]);
   ("time_bc", [RType TBoolean])].
Definition box_schema : list (string * list rule) :=
  [("x", pair_rule); ("y", pair_rule); ("z", pair_rule);
   ("label", [RAnyof [[RType TInteger]; [RType TList; RSeq [RType TInteger]]]])].
Definition schema (c : class) : list (string * list rule) :=
  [("dim", [RType TInteger; RAllowed [PInt 1; PInt 2; PInt 3]; RExcludes "box"; among [CStencil; CScheme] c]);
   ("box", [RType TDict; RFields box_schema; RExcludes "dim"; among [CDomain; CGeometry; CScheme; CSimulation; CStencil] c]);
   ("elements", [RType TList; RSeq [RType TElement]]);
   ("space_step", [RType TNumber; RMin 0; among [CDomain; CSimulation] c]);
   ("scheme_velocity", [RAnyof [[RType TNumber]; [RType TSymbol]]; among [CScheme; CSimulation] c]);
   ("schemes", [RType TList; RSeq [RType TDict; RFields (scheme_schema c)]; among [CDomain; CScheme; CSimulation; CStencil] c]);
   ("parameters", [RType TDict; RKeys [RType TSymbol]; RValues [RAnyof [[RType TExpr]; [RType TNumber]]]]);
   ("inittype", [RType TString; RAllowed [PStr "moments"; PStr "distributions"]]);
   ("init", [RType TDict; RKeys [RAnyof [[RType TSymbol]; [RType TNumber]]];
             RValues [RAnyof [[RType TNumber]; [RType TFunction]; [RType TList; RItems [[RType TFunction]; [RType TList]]]]]; among [CSimulation] c]);
   ("boundary_conditions", [RType TDict; RKeys [RType TInteger]; RValues [RFields boundary_schema]]);
   ("relative_velocity", [RType TList; RSeq expression]);
   ("generator", [RType TString; RAllowed [PStr "numpy"; PStr "cython"; PStr "loopy"]]);
   ("codegen_option", [RType TDict; RFields [("directory", [RType TString]); ("generate", [RType TBoolean])]]);
   ("lbm_algorithm", [RType TDict; RFields [("name", [RIsAlgorithm]); ("settings", [RType TDict])]]);
   ("show_code", [RType TBoolean])].
(* 343-344: v.validate(dico) *)
Definition verdict (c : class) (d : list (pv * pv)) : outcome := check (RFields (schema c)) (PDict d).

(* ---- the message ---- rec_list and rec_dict, 69-172, without errors: None is the IndexError of
   value[0].  The document is the dictionary (Cerberus adds time_bc to a copy). *)
Fixpoint shown (v : pv) : option unit := match v with
  | PDict d => (fix go (d : list (pv * pv)) : option unit := match d with
                  | [] => Some tt
                  | (_, w) :: d => match (match w with
                                          | PList [] => None
                                          | PList (PDict _ :: _) | PDict _ => shown w
                                          | _ => Some tt
                                          end) with Some _ => go d | None => None end
                  end) d
  | PList l => (fix go (l : list pv) : option unit := match l with
                  | [] => Some tt
                  | w :: l => match (match w with PList _ | PDict _ => shown w | _ => Some tt end) with Some _ => go l | None => None end
                  end) l
  | _ => Some tt
  end.
(* validate, 343-353.  Exits: sys.exit().  Simplification: the message of the errors is shown
   without exception. *)
Inductive answer := Returns | Exits | Raises.
Definition validate (c : class) (d : list (pv * pv)) : answer := match verdict c d with
  | Ok => match shown (PDict d) with Some _ => Returns | None => Raises end
  | Bad => Exits
  | Raise => Raises
  end.

(* ---- the constructors ---- what they read in the dictionary; None: an exception *)
Fixpoint all {A B : Type} (f : A -> option B) (l : list A) : option (list B) := match l with
  | [] => Some []
  | a :: l => match f a, all f l with Some b, Some bs => Some (b :: bs) | _, _ => None end
  end.
Definition entries (v : pv) : option (list (pv * pv)) := match v with PDict d => Some d | _ => None end.
Definition bind {A B : Type} (o : option A) (f : A -> option B) : option B := match o with Some a => f a | None => None end.
(* geometry.py 42-64: without "x" dim and bounds are not defined at the return *)
Definition get_box (d : list (pv * pv)) : option (Z * list pv) :=
  bind (get "box" d) (fun b => bind (entries b) (fun b => bind (get "x" b) (fun x =>
    Some (match get "y" b with
          | None => (1, [x])
          | Some y => match get "z" b with None => (2, [x; y]) | Some z => (3, [x; y; z]) end
          end)))).
(* stencil.py 700-709 *)
Definition extract_dim (d : list (pv * pv)) : option Z := match get "dim" d with
  | Some (PInt z) => if z =? 0 then option_map fst (get_box d) else Some z
  | _ => option_map fst (get_box d)
  end.
(* stencil.py 643-662, 684: np.max of the numbers of the velocities *)
Definition schemes_of (d : list (pv * pv)) : option (list (list (pv * pv))) := bind (get "schemes" d) (fun s => bind (seq_of s) (all entries)).
Definition integer (v : pv) : option Z := match v with PInt z => Some z | _ => None end.
Definition velocities_of (s : list (pv * pv)) : option (list Z) := bind (get "velocities" s) (fun v => bind (seq_of v) (all integer)).
Definition stencil (d : list (pv * pv)) : option (Z * list (list Z)) :=
  bind (extract_dim d) (fun dim => bind (schemes_of d) (fun ss => bind (all velocities_of ss) (fun vs =>
    match concat vs with [] => None | _ => Some (dim, vs) end))).
(* geometry.py 111-142: the labels of the box, and the dimension of the elements *)
Definition box_label (dim : Z) (b : list (pv * pv)) : option (list pv) := match get "label" b with
  | None => Some (repeat (PInt (-1)) (2 * Z.to_nat dim)%nat)
  | Some (PInt z) => Some (repeat (PInt z) (2 * Z.to_nat dim)%nat)
  | Some (PList l) => Some l
  | Some _ => None                                     (* log.error, then self.box_label: AttributeError *)
  end.
Definition elements_of (dim : Z) (d : list (pv * pv)) : option (list pv) := match get "elements" d with
  | None => Some []
  | Some v => bind (seq_of v) (all (fun e => match e with PElem n => if Z.of_nat n =? dim then Some e else None | _ => None end))
  end.
Definition geometry (d : list (pv * pv)) : option (Z * list pv * list pv * list pv) :=
  bind (get_box d) (fun db => bind (get "box" d) (fun b => bind (entries b) (fun b =>
  bind (box_label (fst db) b) (fun lab => bind (elements_of (fst db) d) (fun es => Some (fst db, snd db, lab, es)))))).
(* scheme.py 136-172: the scheme velocity, the relaxation parameters, then M or the polynomials *)
Definition list_at (k : string) (s : list (pv * pv)) : option (list pv) := bind (get k s) seq_of.
Inductive moments := GivenM (n m : nat) | Polynomials (l : list (list pv)).
Definition moments_of (ss : list (list (pv * pv))) : option moments := match ss with
  | [s] => match get "M" s with
           | Some (PMatrix n m) => Some (GivenM n m)
           | Some _ => None
           | None => option_map (fun p => Polynomials [p]) (list_at "polynomials" s)
           end
  | _ => option_map Polynomials (all (list_at "polynomials") ss)
  end.
Definition scheme (d : list (pv * pv)) : option (pv * list (list pv) * moments) :=
  bind (stencil d) (fun _ => bind (get "scheme_velocity" d) (fun la => bind (schemes_of d) (fun ss =>
  bind (all (list_at "relaxation_parameters") ss) (fun s => bind (moments_of ss) (fun m => Some (la, s, m)))))).
(* simulation.py 112-116 *)
Definition codegen (d : list (pv * pv)) : option (option pv * bool) := match get "codegen_option" d with
  | Some (PDict (p :: o)) => bind (get "directory" (p :: o)) (fun dir => Some (Some dir, match get "generate" (p :: o) with Some (PBool b) => b | _ => true end))
  | _ => Some (None, true)
  end.
(* simulation.py 295-306: the three cases; anything else is stored in the array as it is, which
   fails for a list with a function *)
Inductive start := SNumber (v : pv) | SCall (f : nat) (args : list pv).
Definition start_of (v : pv) : option start := match v with
  | PTuple [PFun f; PTuple args] => Some (SCall f args)
  | PTuple [PFun f] => Some (SCall f [])
  | PTuple _ => None                                   (* tuple(coords) + extraargs: TypeError, or f is not a function *)
  | PFun f => Some (SCall f [])
  | PInt _ | PFloat _ => Some (SNumber v)
  | _ => None
  end.
Definition init (d : list (pv * pv)) : option (list (pv * start)) := match get "init" d with
  | None => Some []
  | Some v => bind (entries v) (all (fun p => option_map (pair (fst p)) (start_of (snd p))))
  end.
(* boundary.py 92, 104-112: the labels of the domain other than -1 and -2 *)
Definition label_is (z : Z) (x : pv) : bool := match x with PInt a => a =? z | _ => false end.
Definition conditions (d : list (pv * pv)) (labels : list Z) : option (list (option pv * pv * pv)) :=
  let bcs := match get "boundary_conditions" d with None => Some [] | Some v => entries v end in
  bind bcs (fun bcs => all (fun l => bind (option_map snd (find (fun p => label_is l (fst p)) bcs)) (fun b => bind (entries b) (fun b =>
    bind (get "method" b) (fun m => Some (get "value" b, match get "time_bc" b with Some t => t | None => PBool false end, m)))))
  (filter (fun l => negb ((l =? -1) || (l =? -2))) labels)).
