(* Model of pylbm/symbolic.py, recursive_sub (278-286), and of the two ways in which
   algorithm/base.py replaces the parameters: a single subs for the matrices M, invM, Tu,
   Tmu (97-98, 105-106), recursive_sub for the equilibria, the relaxation parameters, the
   relative velocity and the sources (125-150).

   A SymPy expression is a tree; constants and operators are names, whose meaning is a
   parameter of eval.  SymPy rewrites expressions when it builds them; the model does
   not. *)
From Verif Require Import PyBase.

Inductive expr :=
  | EVar (x : nat)
  | ECst (c : nat)
  | EUn (f : nat) (a : expr)
  | EBin (f : nat) (a b : expr).

Fixpoint expr_eqb (s t : expr) : bool :=
  match s, t with
  | EVar x, EVar y => Nat.eqb x y
  | ECst c, ECst d => Nat.eqb c d
  | EUn f a, EUn g b => Nat.eqb f g && expr_eqb a b
  | EBin f a b, EBin g c d => Nat.eqb f g && expr_eqb a c && expr_eqb b d
  | _, _ => false
  end.

(* expr.subs(x, e) *)
Fixpoint subst (x : nat) (e t : expr) : expr :=
  match t with
  | EVar y => if Nat.eqb y x then e else t
  | ECst _ => t
  | EUn f a => EUn f (subst x e a)
  | EBin f a b => EBin f (subst x e a) (subst x e b)
  end.
(* expr.subs(sequence): SymPy applies the replacements of a sequence one after the other *)
Definition subs (l : list (nat * expr)) (t : expr) : expr :=
  fold_left (fun t p => subst (fst p) (snd p) t) l t.

(* 278-286; None: new_expr does not exist (UnboundLocalError) *)
Fixpoint rec_loop (n : nat) (l : list (nat * expr)) (t : expr) : expr :=
  match n with
  | O => t
  | S n' => let t' := subs l t in if expr_eqb t' t then t' else rec_loop n' l t'
  end.
Definition recursive_sub (t : expr) (l : list (nat * expr)) : option expr :=
  match l with [] => None | _ => Some (rec_loop (length l) l t) end.

(* base.py 97: self.M = scheme.M.subs(scheme.param.items()), an entry *)
Definition matrix_entry (t : expr) (param : list (nat * expr)) : expr := subs param t.
(* base.py 125-133: to_subs_full, and an entry of self.eq or self.s *)
Definition equilibrium_entry (t : expr) (coords param moments : list (nat * expr)) : option expr :=
  recursive_sub t (coords ++ param ++ moments).
