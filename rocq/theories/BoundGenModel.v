(* Model of the generated kernels of the boundary conditions (pylbm/boundary.py 322-376, 430-463,
   536-617, 646-677, 707-752, 787-817) on the buffers of the arrays, and of their accesses: the
   Cython files are compiled with boundscheck=False and wraparound=False (generator/codegen.py
   1041-1042), an index outside of the array is an undefined behaviour; NumPy counts the negative
   indices from the end and raises IndexError for the others. *)
From Verif Require Import PyBase VelocityModel StencilModel GridModel LinAlg StorageModel DomainModel BoundaryModel.
From Coq Require Import QArith.
Open Scope Z_scope.

(* ---- one access of an array in the order of C; None: undefined or IndexError ---- *)
Definition index1 (be : backend) (n i : Z) : option Z := match be with
  | Cython => if (0 <=? i) && (i <? n) then Some i else None
  | Numpy => if (0 <=? i) && (i <? n) then Some i else if (- n <=? i) && (i <? 0) then Some (i + n) else None
  end.
Fixpoint index_all (be : backend) (shape idx : list Z) : option (list Z) := match shape, idx with
  | [], [] => Some []
  | n :: shape', i :: idx' => match index1 be n i, index_all be shape' idx' with Some j, Some l => Some (j :: l) | _, _ => None end
  | _, _ => None
  end.
Definition access (be : backend) (shape idx : list Z) : option Z := option_map (rowmajor shape) (index_all be shape idx).

Section Kernel.
Variable K : ring.
(* the right sides: f or fcopy at iload[j], rhs[idx], dist[idx] *)
Inductive bexpr := BLoad (copy : bool) (j : nat) | BRhs | BDist | BOne | BNeg (e : bexpr) | BAdd (e1 e2 : bexpr) | BSub (e1 e2 : bexpr) | BMul (e1 e2 : bexpr).
(* generate: the right side of Eq(fstore, ...): 460-462, 603-616, 674-676, 740-752, 817 *)
Definition right_side (m : method) : bexpr := match m with
  | MBounceBack => BAdd (BLoad false 0) BRhs
  | MBouzidi => BAdd (BAdd (BMul BDist (BLoad true 0)) (BMul (BSub BOne BDist) (BLoad true 1))) BRhs
  | MAnti => BAdd (BNeg (BLoad false 0)) BRhs
  | MBouzidiAnti => BAdd (BAdd (BMul (BNeg BDist) (BLoad false 0)) (BMul (BSub BOne BDist) (BLoad false 1))) BRhs
  | MNeumann | MNeumannX | MNeumannY | MNeumannZ => BLoad false 0
  end.
(* the arguments: the arrays istore and iload after fix_iload (one row per point), rhs and dist *)
Record bargs := mkBargs { g_istore : list (list Z); g_iload : list (list (list Z)); g_rhs : list K; g_dist : list K }.
(* an entry f[...]: the indices of the row in the order of the storage (symbolic.indexed with priority) *)
Definition place (be : backend) (sorder : list nat) (shape : list Z) (row : list Z) : option Z :=
  match set_order row sorder with Some idx => access be shape idx | None => None end.
Fixpoint eval (be : backend) (sorder : list nat) (shape : list Z) (a : bargs) (f fcopy : Z -> K) (ix : nat) (e : bexpr) : option K :=
  let op2 (o : K -> K -> K) x y := match x, y with Some u, Some v => Some (o u v) | _, _ => None end in
  match e with
  | BLoad c j => match nth_error (g_iload a) j with
                 | Some t => match nth_error t ix with
                             | Some row => option_map (if c then fcopy else f) (place be sorder shape row)
                             | None => None
                             end
                 | None => None
                 end
  | BRhs => nth_error (g_rhs a) ix
  | BDist => nth_error (g_dist a) ix
  | BOne => Some r1
  | BNeg e => option_map ropp (eval be sorder shape a f fcopy ix e)
  | BAdd e1 e2 => op2 radd (eval be sorder shape a f fcopy ix e1) (eval be sorder shape a f fcopy ix e2)
  | BSub e1 e2 => op2 rsub (eval be sorder shape a f fcopy ix e1) (eval be sorder shape a f fcopy ix e2)
  | BMul e1 e2 => op2 rmul (eval be sorder shape a f fcopy ix e1) (eval be sorder shape a f fcopy ix e2)
  end.
Definition store_at (be : backend) (sorder : list nat) (shape : list Z) (a : bargs) (f : Z -> K) (ix : nat) (x : K) : option (Z -> K) :=
  match nth_error (g_istore a) ix with
  | Some row => match place be sorder shape row with Some o => Some (fun o' => if o' =? o then x else f o') | None => None end
  | None => None
  end.
Definition bind {A B : Type} (x : option A) (f : A -> option B) : option B := match x with Some y => f y | None => None end.
(* the loop of Cython: for ix in range(0, ncond) *)
Definition run_cython (sorder : list nat) (shape : list Z) (a : bargs) (e : bexpr) (fcopy : Z -> K) (f : Z -> K) : option (Z -> K) :=
  fold_left (fun acc ix => bind acc (fun f => bind (eval Cython sorder shape a f fcopy ix e) (store_at Cython sorder shape a f ix)))
    (seq 0 (length (g_istore a))) (Some f).
(* the statement of NumPy with 0:ncond: the right side at all the points, then the stores *)
Definition run_numpy (sorder : list nat) (shape : list Z) (a : bargs) (e : bexpr) (fcopy : Z -> K) (f : Z -> K) : option (Z -> K) :=
  bind (mapM (fun ix => eval Numpy sorder shape a f fcopy ix e) (seq 0 (length (g_istore a)))) (fun xs =>
  fold_left (fun acc p => bind acc (fun f => store_at Numpy sorder shape a f (fst p) (snd p))) (combine (seq 0 (length (g_istore a))) xs) (Some f)).

(* ---- the arrays of a method: set_iload, set_rhs, then fix_iload ---- *)
Variable qk : Q -> K.
Variable g : grid.
Variable vel : nat -> list Z.
Variable sym : nat -> nat.
Variable feq : blink -> nat -> K.
Definition row_of (p : nat * cell) : list Z := Z.of_nat (fst p) :: snd p.
Definition args_of (m : method) (l : list blink) : bargs :=
  mkBargs (map (fun b => row_of (b_k b, b_cell b)) l)
    (match m with
     | MBouzidi | MBouzidiAnti => [map (fun b => row_of (iload0 g vel sym m b)) l; map (fun b => row_of (iload1 g vel sym b)) l]
     | _ => [map (fun b => row_of (iload0 g vel sym m b)) l]
     end)
    (map (rhs K sym feq m) l) (map (fun b => qk (bz_s (b_dist b))) l).
(* update (338-352): the array f, and fcopy, its copy before the call (536-559) *)
Definition kernel (be : backend) (m : method) (l : list blink) (x : array (V := K)) : option array :=
  let shape := scatter 0 (a_ind x) (a_shape x) in
  option_map (mkArray (a_ind x) (a_shape x))
    (match be with Cython => run_cython | Numpy => run_numpy end (a_ind x) shape (args_of m l) (right_side m) (a_buf x) (a_buf x)).
(* simulation.py 387-390 *)
Definition kernels (be : backend) (ms : list (method * list blink)) (x : array (V := K)) : option array :=
  fold_left (fun acc ml => bind acc (kernel be (fst ml) (snd ml))) ms (Some x).
End Kernel.
