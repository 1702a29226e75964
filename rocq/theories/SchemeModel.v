(* Model of pylbm/scheme.py: assembly of the matrices and placement of the
   conserved moments.  Numbers are the elements of a commutative ring. *)
From Verif Require Import PyBase LinAlg.

Section Scheme.
Variable K : ring.
Open Scope ring_scope'.

(* 480-500: M_[k][i,j] = P_i evaluated at la * v_j, Mu_[k][i,j] = P_i at
   la * v_j - u.  A polynomial is a function of a point (list of coordinates). *)
Definition point := list K.
Definition moment_matrix (P : nat -> point -> K) (v : nat -> point) : mat K := fun i j => P i (v j).
Definition shift_point (u x : point) : point :=
  map (fun p => (fst p - snd p)%K) (combine x u).
Definition rel_matrix (P : nat -> point -> K) (v : nat -> point) (u : point) : mat K :=
  fun i j => P i (shift_point u (v j)).

(* 504-519: the global matrices are block diagonal.  The double loop writes the
   entries of block k at the offset nv_ptr[k] in a matrix of zeros (d = 0), or of
   the identity for Tu (d = idm).  The model reads the result at (r, c). *)
Fixpoint assemble (d : mat K) (blocks : list (nat * mat K)) (r c : nat) : K :=
  match blocks with
  | [] => d r c
  | (n, B) :: rest =>
      if (r <? n)%nat then (if (c <? n)%nat then B r c else 0%K)
      else if (c <? n)%nat then 0%K
      else assemble d rest (r - n) (c - n)
  end.
Definition zerom : mat K := fun _ _ => 0%K.
Definition total (sizes : list nat) : nat := fold_right Nat.add 0%nat sizes.

(* 504-531: with a relative velocity the blocks of Tu are written over the
   identity; without it Tu stays the identity.  531: Tmu is Tu at -u. *)

(* An entry of the equilibrium: a symbol, or any other expression, which is a
   function of the values of the symbols. *)
Inductive eqexpr := ESym (c : nat) | EFun (g : (nat -> K) -> K).
Definition eval (e : eqexpr) (val : nat -> K) : K :=
  match e with ESym c => val c | EFun g => g val end.
Definition is_sym (e : eqexpr) (c : nat) : bool :=
  match e with ESym c' => Nat.eqb c c' | EFun _ => false end.

(* leq.index(c) where leq = EQ[ptr : ptr + n] (599, 603, 606); None: ValueError. *)
Fixpoint leq_index (EQ : nat -> eqexpr) (ptr n : nat) (c : nat) : option nat :=
  match n with
  | O => None
  | S n' => if is_sym (EQ ptr) c then Some 0%nat
            else match leq_index EQ (S ptr) n' c with Some i => Some (S i) | None => None end
  end.

(* OrderedDict: assignment keeps the place of an existing key. *)
Fixpoint odict_set (d : list (nat * nat)) (k v : nat) : list (nat * nat) :=
  match d with
  | [] => [(k, v)]
  | (k', v') :: t => if Nat.eqb k k' then (k, v) :: t else (k', v') :: odict_set t k v
  end.
Fixpoint odict_get (d : list (nat * nat)) (k : nat) : option nat :=
  match d with
  | [] => None
  | (k', v) :: t => if Nat.eqb k k' then Some v else odict_get t k
  end.

(* 601-606: the conserved moments of one scheme (a single symbol is a list of
   one symbol). *)
Fixpoint add_conserved (EQ : nat -> eqexpr) (ptr n : nat) (cs : list nat) (d : list (nat * nat)) :
    option (list (nat * nat)) :=
  match cs with
  | [] => Some d
  | c :: t => match leq_index EQ ptr n c with
              | Some i => add_conserved EQ ptr n t (odict_set d c (ptr + i))
              | None => None
              end
  end.
(* 575-607: _get_conserved_moments; a scheme without the key is an empty list. *)
Fixpoint get_conserved (EQ : nat -> eqexpr) (ptr : nat) (sizes : list nat) (cons : list (list nat))
    (d : list (nat * nat)) : option (list (nat * nat)) :=
  match sizes, cons with
  | n :: sizes', cs :: cons' =>
      match add_conserved EQ ptr n cs d with
      | Some d' => get_conserved EQ (ptr + n) sizes' cons' d'
      | None => None
      end
  | _, _ => Some d
  end.

Record scheme := mkScheme {
  sc_EQ : nat -> eqexpr;
  sc_s : vec K;
  sc_M : mat K;
  sc_invM : mat K;
  sc_Tu : mat K;
  sc_Tmu : mat K;
  sc_consm : list (nat * nat)          (* conserved symbol -> index *)
}.

(* SymPy row_swap / col_swap *)
Definition swapn (i j k : nat) : nat :=
  if Nat.eqb k i then j else if Nat.eqb k j then i else k.
Definition row_swap {A : Type} (i j : nat) (X : nat -> A) : nat -> A := fun k => X (swapn i j k).
Definition col_swap (i j : nat) (X : mat K) : mat K := fun r k => X r (swapn i j k).

(* 230-238, one pass of the loop *)
Definition swap_step (sc : scheme) (p : nat * nat) : scheme :=
  let '(i, j) := p in
  mkScheme (row_swap i j (sc_EQ sc)) (row_swap i j (sc_s sc))
    (row_swap i j (sc_M sc)) (col_swap i j (sc_invM sc))
    (col_swap i j (row_swap i j (sc_Tu sc))) (col_swap i j (row_swap i j (sc_Tmu sc)))
    (sc_consm sc).
(* 226-228 *)
Definition permutations (consm : list (nat * nat)) : list (nat * nat) :=
  combine (seq 0 (length consm)) (map snd consm).
(* 225-241 *)
Definition permute_consm_in_front (sc : scheme) : scheme :=
  let sc' := fold_left swap_step (permutations (sc_consm sc)) sc in
  mkScheme (sc_EQ sc') (sc_s sc') (sc_M sc') (sc_invM sc') (sc_Tu sc') (sc_Tmu sc')
    (combine (map fst (sc_consm sc)) (seq 0 (length (sc_consm sc)))).
End Scheme.
Arguments assemble {K}. Arguments zerom {K}.
Arguments ESym {K}. Arguments EFun {K}. Arguments eval {K}. Arguments is_sym {K}. Arguments leq_index {K}.
Arguments add_conserved {K}. Arguments get_conserved {K}.
Arguments mkScheme {K}. Arguments sc_EQ {K}. Arguments sc_s {K}. Arguments sc_M {K}. Arguments sc_invM {K}.
Arguments sc_Tu {K}. Arguments sc_Tmu {K}. Arguments sc_consm {K}.
Arguments col_swap {K}. Arguments swap_step {K}. Arguments permute_consm_in_front {K}.
Arguments moment_matrix {K}. Arguments rel_matrix {K}. Arguments shift_point {K}.
