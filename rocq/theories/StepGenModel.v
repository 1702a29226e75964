(* Model of the statements written by pylbm/algorithm/base.py and pull.py as SymPy
   expressions, and of their printing with the Indexed of the arrays f, m and fnew: the link
   between the formulas of AlgoModel.v and the kernels of GenModel.v. *)
From Verif Require Import PyBase VelocityModel GridModel StorageModel LinAlg AlgoModel GlobalModel GenModel.
Open Scope Z_scope.

Section Sym.
Variable K : arith.

(* An expression of the scheme (equilibrium, relaxation parameter, relative velocity, source
   term, entry of Tu) in the symbols numbered 0, 1, ... (the elements of mv, base.py 98, or
   the components of the relative velocity). *)
Inductive term :=
| Num (c : K)
| Var (i : nat)
| Un (o : K -> K) (t : term)
| Bin (o : K -> K -> K) (t1 t2 : term).
Fixpoint teval (x : vec K) (t : term) : K := match t with
  | Num c => c
  | Var i => x i
  | Un o t => o (teval x t)
  | Bin o t1 t2 => o (teval x t1) (teval x t2)
  end.

(* An expression of a kernel: f[k] at x - v_k, fnew[k] at x, m[k] at x (the m given to the
   functions _local), mv[k] (the MatrixSymbol of the constructor, 98), rel_ux, rel_uy, rel_uz. *)
Inductive sym :=
| YNum (c : K)
| YOld (k : nat)
| YNew (k : nat)
| YMom (k : nat)
| YMv (k : nat)
| YVel (j : nat)
| YUn (o : K -> K) (e : sym)
| YBin (o : K -> K -> K) (e1 e2 : sym).
(* What the expression stands for at a cell. *)
Fixpoint seval (v : view K) (e : sym) : K := match e with
  | YNum c => c
  | YOld k => vf v k
  | YNew k => vfn v k
  | YMom k => vm v k
  | YMv k => vm v k
  | YVel j => vu v j
  | YUn o e => o (seval v e)
  | YBin o e1 e2 => o (seval v e1) (seval v e2)
  end.
(* expr.subs(list(zip(self.mv, m))) *)
Fixpoint tsub (s : nat -> sym) (t : term) : sym := match t with
  | Num c => YNum c
  | Var i => s i
  | Un o t => YUn o (tsub s t)
  | Bin o t1 t2 => YBin o (tsub s t1) (tsub s t2)
  end.
Definition sstmt := (target * sym)%type.

Definition yadd := YBin (fun x y => (x + y)%K).
Definition ymul := YBin (fun x y => (x * y)%K).
Definition ysub := YBin (fun x y => (x - y)%K).
(* the sums of the products of matrices *)
Definition ysum (n : nat) (g : nat -> sym) : sym := fold_right (fun j acc => yadd (g j) acc) (YNum 0%K) (seq 0 n).
Definition ymv (n : nat) (M : nat -> nat -> sym) (f : nat -> sym) (i : nat) : sym := ysum n (fun j => ymul (M i j) (f j)).
Definition ymm (n : nat) (M N : nat -> nat -> sym) (i k : nat) : sym := ysum n (fun j => ymul (M i j) (N j k)).

(* The attributes of the algorithm, base.py 91-155.  Tmu is Tu for the opposite velocity
   (scheme.py, as in AlgoModel.v).  Simplifications: the parameters of the scheme are
   numbers; nsimplify and together are left out (they keep the value); no source term reads
   a coordinate, the time or another cell. *)
Record salgo := mkSalgo {
  sa_n : nat;
  sa_nc : nat;
  sa_dim : nat;
  sa_M : mat K;
  sa_invM : mat K;
  sa_Tu : nat -> nat -> term;
  sa_eq : nat -> term;
  sa_s : nat -> term;
  sa_relvel : option (nat -> term);
  sa_source : list (nat * term);
  sa_hdt : K
}.
Variable a : salgo.
Notation n := (sa_n a).
Notation nc := (sa_nc a).

(* Eq of two vectors, one assignment for each entry (cython.py 334-342, pycode.py 1114-1122) *)
Definition sassign (t : nat -> target) (lo hi : nat) (e : nat -> sym) : list sstmt := map (fun k => (t k, e k)) (seq lo (hi - lo)).

Definition yM i j : sym := YNum (sa_M a i j).
Definition yinvM i j : sym := YNum (sa_invM a i j).
Definition yTu i j : sym := tsub YVel (sa_Tu a i j).
Definition yTmu i j : sym := tsub (fun j => YUn (fun x => (- x)%K) (YVel j)) (sa_Tu a i j).
(* 109-110 *)
Definition yMu := ymm n yTu yM.
Definition yinvMu := ymm n yinvM yTmu.
(* eq.subs(list(zip(self.mv, m))), 394, 412 *)
Definition yeq k : sym := tsub YMom (sa_eq a k).
(* self.s, 418: the symbols of mv are not replaced *)
Definition ys k : sym := tsub YMv (sa_s a k).

(* 273-287 *)
Definition stransport : list sstmt := sassign TFn 0 n YOld.
(* 298-334; src is f or fnew *)
Definition sf2m (src : nat -> sym) : list sstmt := match sa_relvel a with
  | None => sassign TM 0 n (ymv n yM src)
  | Some rel => sassign TM 0 nc (ymv n yM src) ++ sassign TU 0 (sa_dim a) (fun j => tsub YMom (rel j)) ++ sassign TM nc n (ymv n yMu src)
  end.
(* 346-369 *)
Definition sm2f : list sstmt := match sa_relvel a with
  | None => sassign TFn 0 n (ymv n yinvM YMom)
  | Some _ => sassign TFn 0 n (ymv n yinvMu YMom)
  end.
(* 381-395 *)
Definition sequilibrium : list sstmt := sassign TM 0 n yeq.
(* 404-428: (1 - s) * m + s * eq *)
Definition srelaxation : list sstmt :=
  sassign TM 0 n (fun k => yadd (ymul (ysub (YNum 1%K) (ys k)) (YMom k))
    (ymul (ys k) (match sa_relvel a with None => yeq k | Some _ => ymv n yTu yeq k end))).
(* 439-495, ode.py *)
Definition ssource_of (k : nat) : option term := match find (fun p => Nat.eqb (fst p) k) (rev (sa_source a)) with Some p => Some (snd p) | None => None end.
Definition ssource : list sstmt :=
  sassign TM 0 n (fun k => match ssource_of k with
    | Some g => yadd (YMom k) (ymul (YNum (sa_hdt a)) (tsub YMom g))
    | None => YMom k
    end).
(* 255-263 *)
Definition srestore : list sstmt := sassign TM 0 nc (ymv n yMu YOld).
(* "if self.source_eq" *)
Definition swith_source : list sstmt := match sa_source a with [] => [] | _ => ssource end.
(* base.py 506-549 *)
Definition sbase : list sstmt := stransport ++ sf2m YNew ++ swith_source ++ srelaxation ++ swith_source ++ sm2f.
(* pull.py 12-59 *)
Definition spull : list sstmt :=
  sf2m YOld ++ swith_source ++ srelaxation ++ (match sa_relvel a with None => [] | Some _ => srestore end) ++ swith_source ++ sm2f.

(* The algorithm of AlgoModel.v which the expressions stand for. *)
Definition algo_of : algo K :=
  mkAlgo n nc (sa_dim a) (sa_M a) (sa_invM a) (fun u i j => teval u (sa_Tu a i j)) (fun m k => teval m (sa_eq a k))
    (fun m k => teval m (sa_s a k)) (option_map (fun rel m j => teval m (rel j)) (sa_relvel a))
    (map (fun p => (fst p, fun m => teval m (snd p))) (sa_source a)) (sa_hdt a).

(* ---- one_time_step, base.py 551-600: the arrays f, m, fnew are 0, 1, 2 ---- *)
Variables (pos d ns : nat) (vel : nat -> list Z).
(* m_local (Cython): m is MatrixSymbol("m", ns, 1), which is equal to mv: YMom k and YMv k are
   printed "m[k]" (cython.py 288-289), a local array; the local variables 0 .. ns-1 are its
   elements, ns + j is the component j of the relative velocity. *)
Fixpoint cy_expr (e : sym) : expr K := match e with
  | YNum c => ENum c
  | YOld k => EGet (f_at pos vel k)
  | YNew k => EGet (fnew_at pos d k)
  | YMom k | YMv k => ELoc k
  | YVel j => ELoc (ns + j)
  | YUn o e => EUn o (cy_expr e)
  | YBin o e1 e2 => EBin o (cy_expr e1) (cy_expr e2)
  end.
Definition cy_stmt (s : sstmt) : GenModel.stmt K := match fst s with
  | TFn k => SSet (fnew_at pos d k) (cy_expr (snd s))
  | TM k => SLoc k (cy_expr (snd s))
  | TU j => SLoc (ns + j) (cy_expr (snd s))
  end.
(* NumPy: m is the array of the moments, Indexed at the cell; f and fnew are the same array
   (container.py, NumpyContainer: Fnew = F), here the number 0.  The element k of mv is
   printed "m[k, 0]" (StrPrinter of SymPy): two numbers as indices of the array m. *)
Fixpoint np_expr (e : sym) : expr K := match e with
  | YNum c => ENum c
  | YOld k => EGet (f_at pos vel k)
  | YNew k => EGet (here pos d 0 k)
  | YMom k => EGet (m_at pos d k)
  | YMv k => EGet (mkAcc 1 [ICst (Z.of_nat k); ICst 0])
  | YVel j => ELoc (ns + j)
  | YUn o e => EUn o (np_expr e)
  | YBin o e1 e2 => EBin o (np_expr e1) (np_expr e2)
  end.
Definition np_stmt (s : sstmt) : GenModel.stmt K := match fst s with
  | TFn k => SSet (here pos d 0 k) (np_expr (snd s))
  | TM k => SSet (m_at pos d k) (np_expr (snd s))
  | TU j => SLoc (ns + j) (np_expr (snd s))
  end.
End Sym.
Arguments Num {K}. Arguments Var {K}. Arguments Un {K}. Arguments Bin {K}.
Arguments YNum {K}. Arguments YOld {K}. Arguments YNew {K}. Arguments YMom {K}. Arguments YMv {K}. Arguments YVel {K}. Arguments YUn {K}. Arguments YBin {K}.

(* ---- a run on all the processes ---- simulation.py 396-420, container.py, as two_step and
   one_step of GlobalModel.v: F.update(), the generated kernel, the exchange of the storages.
   An array of a process has the component at the place pos (storage.py, C13); cell of an
   index q of the array. *)
Section Run.
Variable K : arith.
Variables (pos : nat) (axes : list axis).
Definition drop_at (q : list Z) : list Z := firstn pos q ++ skipn (S pos) q.
Definition array_of (f : field K (list Z)) : list Z -> K := fun q => f (drop_at q) (Z.to_nat (nth pos q 0)).
Definition field_of (A : list Z -> K) : field K (list Z) := fun x k => A (ins pos (Z.of_nat k) x).
Definition sizes_of (c : list nat) : list Z := map2 ax_size axes c.
Definition ranges_of (c : list nat) : ranges := inner_ranges (map ax_h axes) (sizes_of c).
Definition arrays3 (f m fnew : field K (list Z)) : arrays K := fun k => match k with O => array_of f | S O => array_of m | _ => array_of fnew end.
Definition zero_field : field K (list Z) := fun _ _ => 0%K.
(* Cython; the local variables have the values L0 before the loop *)
Definition gen_two (p : list (GenModel.stmt K)) (L0 : nat -> K) (st : fields K * fields K) : fields K * fields K :=
  let F1 := update axes (fst st) in
  ((fun c => field_of (fst (cython K p (nest (ranges_of c)) (arrays3 (F1 c) zero_field (snd st c), L0)) 2%nat)), F1).
(* NumPy; the arrays are unchanged if there is an error *)
Definition gen_one (ns : nat) (p : list (GenModel.stmt K)) (st : fields K * fields K) : fields K * fields K :=
  let F1 := update axes (fst st) in
  let res c := match numpy K (ranges_of c) (fun _ => ins pos (Z.of_nat ns) (sizes_of c)) p (arrays3 (F1 c) (snd st c) zero_field) with
    | Some (A, _) => A | None => arrays3 (F1 c) (snd st c) zero_field end in
  ((fun c => field_of (res c 0%nat)), (fun c => field_of (res c 1%nat))).
End Run.
