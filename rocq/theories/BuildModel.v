(* Model of the construction of a scheme from its dictionary (pylbm/scheme.py 131-241, 468-531,
   575-607) up to the attributes of the algorithm (pylbm/algorithm/base.py 91-155). *)
From Verif Require Import PyBase LinAlg AlgoModel GlobalModel GenModel StepGenModel SchemeModel.

Section Build.
Variable K : ring.
Notation term := (term K).

(* One entry of dico["schemes"].  The symbols (conserved moments) are numbers; polynomials are
   terms whose variable d is the coordinate d.  Parameters are numbers (their replacement is
   the subject of C59), the symbols of space and time do not occur.
   sd_v: the velocities times the scheme velocity; sd_eq: "equilibrium", [] without the key;
   sd_feq: the value of feq[0](velocities, *feq[1]) with the key "feq"; sd_M: with the key "M". *)
Record sdict := mkSdict {
  sd_v : list (list K);
  sd_P : list term;
  sd_M : option (mat K);
  sd_s : list term;
  sd_eq : list term;
  sd_feq : option (list term);
  sd_cons : list nat;
  sd_src : list (nat * term)
}.
Definition nv (d : sdict) : nat := length (sd_v d).
Definition sizes (ds : list sdict) : list nat := map nv ds.

(* SymPy: the inverse of a matrix of size n (None: the matrix is not invertible, an exception)
   and simplify *)
Variable inv : nat -> mat K -> option (mat K).
Variable simp : term -> term.

Definition coord (x : list K) : vec K := fun d => nth d x 0%K.
(* l[ptr : ptr + n] *)
Definition slice {A : Type} (ptr n : nat) (l : list A) : list A := firstn n (skipn ptr l).

(* 482-491: the elementary matrices.  The list of all the polynomials is cut with nv_ptr; None:
   p[i] raises IndexError. *)
Fixpoint elementary (P : list term) (ptr : nat) (ds : list sdict) : option (list (nat * mat K)) :=
  match ds with
  | [] => Some []
  | d :: t =>
      let p := slice ptr (nv d) P in
      if Nat.ltb (length p) (nv d) then None
      else match elementary P (ptr + nv d) t with
           | None => None
           | Some Bs => Some ((nv d, fun i j => teval K (coord (nth j (sd_v d) [])) (nth i p (Num 0%K))) :: Bs)
           end
  end.
(* 501 *)
Fixpoint inverses (Bs : list (nat * mat K)) : option (list (nat * mat K)) :=
  match Bs with
  | [] => Some []
  | (n, B) :: t => match inv n B, inverses t with Some C, Some Cs => Some ((n, C) :: Cs) | _, _ => None end
  end.
(* 155-160: one scheme with the key "M" *)
Definition given (ds : list sdict) : option (mat K) := match ds with [d] => sd_M d | _ => None end.
(* 155-165, 468-526: the elementary matrices and their inverses *)
Definition moment_blocks (ds : list sdict) : option (list (nat * mat K) * list (nat * mat K)) :=
  match elementary (concat (map sd_P ds)) 0 ds with
  | Some Bs => match inverses Bs with Some Cs => Some (Bs, Cs) | None => None end
  | None => None
  end.
Definition matrices (ds : list sdict) : option (mat K * mat K) :=
  match given ds with
  | Some M => match inv (total (sizes ds)) M with Some N => Some (M, N) | None => None end
  | None => match moment_blocks ds with Some (Bs, Cs) => Some (assemble zerom Bs, assemble zerom Cs) | None => None end
  end.

Definition tadd : term -> term -> term := Bin (fun x y => (x + y)%K).
Definition tmul : term -> term -> term := Bin (fun x y => (x * y)%K).
Definition tsum (n : nat) (g : nat -> term) : term := fold_right (fun j t => tadd (g j) t) (Num 0%K) (seq 0 n).
(* 203-223: _get_equilibrium; None: sys.exit() (both keys), or the product of a matrix and a
   vector of another size *)
Fixpoint equilibrium (M : mat K) (ptr : nat) (ds : list sdict) : option (list term) :=
  match ds with
  | [] => Some []
  | d :: t =>
      match equilibrium M (ptr + nv d) t with
      | None => None
      | Some rest =>
          match sd_eq d, sd_feq d with
          | [], None => Some rest
          | [], Some l =>
              if Nat.eqb (length l) (nv d)
              then Some (map (fun i => simp (tsum (nv d) (fun j => tmul (Num (M (ptr + i) (ptr + j))%nat) (nth j l (Num 0%K))))) (seq 0 (nv d)) ++ rest)
              else None
          | meq, None => Some (meq ++ rest)
          | _, Some _ => None
          end
      end
  end.

(* an entry of EQ, compared with a symbol by leq.index (603, 606) *)
Definition eqexpr_of (t : term) : eqexpr K := match t with Var c => ESym c | _ => EFun (fun val => teval K val t) end.

(* 230-238: the swaps, on the rows and on the columns *)
Definition rows {A : Type} (ps : list (nat * nat)) (X : nat -> A) : nat -> A :=
  fold_left (fun X p => row_swap (fst p) (snd p) X) ps X.
Definition cols {A : Type} (ps : list (nat * nat)) (X : nat -> nat -> A) : nat -> nat -> A := fun r => rows ps (X r).

(* base.py 122-133: the conserved symbols become elements of mv.  A symbol which is not conserved
   stays in the generated code, where it is not defined: an index outside of mv. *)
Fixpoint rename (n : nat) (consm : list (nat * nat)) (t : term) : term :=
  match t with
  | Num c => Num c
  | Var c => Var (match odict_get consm c with Some i => i | None => n + c end)
  | Un o t => Un o (rename n consm t)
  | Bin o t1 t2 => Bin o (rename n consm t1) (rename n consm t2)
  end.
(* base.py 140-149: None: the key is not a conserved moment, lhs.i raises AttributeError *)
Fixpoint sources (n : nat) (consm : list (nat * nat)) (l : list (nat * term)) : option (list (nat * term)) :=
  match l with
  | [] => Some []
  | (c, g) :: t => match odict_get consm c, sources n consm t with
                   | Some i, Some r => Some ((i, rename n consm g) :: r)
                   | _, _ => None
                   end
  end.

(* 493-503: Mu and Tu = Mu * invM of each scheme, as expressions of the relative velocity u
   (the variables 0, 1, 2) *)
Fixpoint tsubst (s : nat -> term) (t : term) : term :=
  match t with
  | Num c => Num c
  | Var i => s i
  | Un o t => Un o (tsubst s t)
  | Bin o t1 t2 => Bin o (tsubst s t1) (tsubst s t2)
  end.
Definition tminus : term -> term -> term := Bin (fun x y => (x - y)%K).
Fixpoint rel_blocks (P : list term) (ptr : nat) (ds : list sdict) (Cs : list (nat * mat K)) : list (nat * (nat -> nat -> term)) :=
  match ds, Cs with
  | d :: t, (_, C) :: Cs' =>
      (nv d, fun i j => tsum (nv d) (fun l =>
         tmul (tsubst (fun c => tminus (Num (coord (nth l (sd_v d) []) c)) (Var c)) (nth i (slice ptr (nv d) P) (Num 0%K))) (Num (C l j))))
      :: rel_blocks P (ptr + nv d) t Cs'
  | _, _ => []
  end.
(* 505-519: the blocks of Tu are written over the identity *)
Fixpoint assemble_terms (blocks : list (nat * (nat -> nat -> term))) (r c : nat) : term :=
  match blocks with
  | [] => Num (idm r c)
  | (n, B) :: rest =>
      if Nat.ltb r n then (if Nat.ltb c n then B r c else Num 0%K)
      else if Nat.ltb c n then Num 0%K
      else assemble_terms rest (r - n) (c - n)
  end.
(* dico["relative_velocity"], the dimension and half of the time step *)
Variable rel : option (list term).
Variable dim : nat.
Variable hdt : K.
(* 158, 505-526: with the key "M" Tu is the identity *)
Definition translation (ds : list sdict) : nat -> nat -> term :=
  match given ds, rel, moment_blocks ds with
  | None, Some _, Some (_, Cs) => assemble_terms (rel_blocks (concat (map sd_P ds)) 0 ds Cs)
  | _, _, _ => fun i j => Num (idm i j)
  end.
(* 131-194 and base.py 91-155.  The sizes of the entries are
   compared with the stencil in _check_entry_size (243-258), which writes a message and goes on;
   the total sizes matter in the products of SymbolicVector (symbolic.py 56-75, ShapeError). *)
Record scheme_of := mkBuilt {
  b_n : nat;
  b_M : mat K;
  b_invM : mat K;
  b_EQ : list term;
  b_s : list term;
  b_consm : list (nat * nat)
}.
Definition before_swap (ds : list sdict) : option scheme_of :=
  let n := total (sizes ds) in
  let s := concat (map sd_s ds) in
  match matrices ds with
  | None => None
  | Some (M, N) =>
      match equilibrium M 0 ds with
      | None => None
      | Some EQ =>
          if Nat.eqb (length EQ) n && Nat.eqb (length s) n
          then match get_conserved (fun k => eqexpr_of (nth k EQ (Num 0%K))) 0 (sizes ds) (map sd_cons ds) [] with
               | None => None
               | Some consm => Some (mkBuilt n M N EQ s consm)
               end
          else None
      end
  end.
Definition build (ds : list sdict) : option (salgo K) :=
  match before_swap ds with
  | None => None
  | Some b =>
      let ps := permutations (b_consm b) in
      let consm := combine (map fst (b_consm b)) (seq 0 (length (b_consm b))) in       (* 240-241 *)
      match sources (b_n b) consm (concat (map sd_src ds)) with
      | None => None
      | Some src =>
          Some (mkSalgo K (b_n b) (length consm) dim (rows ps (b_M b)) (cols ps (b_invM b)) (cols ps (rows ps (translation ds)))
            (fun k => rename (b_n b) consm (rows ps (fun k => nth k (b_EQ b) (Num 0%K)) k))
            (fun k => rename (b_n b) consm (rows ps (fun k => nth k (b_s b) (Num 0%K)) k))
            (option_map (fun l j => rename (b_n b) consm (nth j l (Num 0%K))) rel) src hdt)
      end
  end.
(* With the key "M" the matrix of the dictionary is the attribute M (157), which row_swap (233)
   changes in place: the dictionary after the construction. *)
Definition after (ds : list sdict) : list sdict :=
  match before_swap ds, ds with
  | Some b, [d] => match sd_M d with
                   | Some _ => [mkSdict (sd_v d) (sd_P d) (Some (rows (permutations (b_consm b)) (b_M b))) (sd_s d) (sd_eq d) (sd_feq d) (sd_cons d) (sd_src d)]
                   | None => ds
                   end
  | _, _ => ds
  end.
End Build.
