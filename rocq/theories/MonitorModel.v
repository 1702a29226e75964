(* Model of pylbm/monitoring.py.  Functions are numbered (the key built by
   Monitoring.information, 52-60); clock values (mpi.Wtime) are integers; lists
   of times are kept with the last entry first. *)
From Verif Require Import PyBase.

(* PerfMonitor, 23-27: total_time and self_time, last entry first. *)
Definition perf : Type := list Z * list Z.
(* Monitoring, 48-51: the dictionary func in insertion order, and the path of
   the current node of the tree: the field time of the node, of its parent, ...,
   of the root.  The names and sons of the nodes are never read. *)
Record mon := mkMon { m_func : list (nat * perf); m_path : list Z }.
Definition mon0 : mon := mkMon [] [0%Z].

Fixpoint dget (d : list (nat * perf)) (f : nat) : option perf :=
  match d with
  | [] => None
  | (g, p) :: t => if Nat.eqb g f then Some p else dget t f
  end.
Fixpoint dset (d : list (nat * perf)) (f : nat) (p : perf) : list (nat * perf) :=
  match d with
  | [] => []
  | (g, q) :: t => if Nat.eqb g f then (g, p) :: t else (g, q) :: dset t f p
  end.
(* register, 65-68 *)
Definition register (m : mon) (f : nat) : mon :=
  match dget (m_func m) f with
  | Some _ => m
  | None => mkMon (m_func m ++ [(f, ([], []))]) (m_path m)
  end.
(* start_timing, 70-74; None: KeyError *)
Definition start_timing (m : mon) (f : nat) (t : Z) : option mon :=
  match dget (m_func m) f with
  | Some (tot, own) => Some (mkMon (dset (m_func m) f (t :: tot, 0%Z :: own)) (0%Z :: m_path m))
  | None => None
  end.
(* stop_timing, 76-82; None: KeyError, IndexError, or AttributeError at the root *)
Definition stop_timing (m : mon) (f : nat) (t : Z) : option mon :=
  match dget (m_func m) f, m_path m with
  | Some (x :: tot, _ :: own), cur :: par :: up =>
      let d := (t - x)%Z in
      Some (mkMon (dset (m_func m) f (d :: tot, (d - cur)%Z :: own)) ((par + d)%Z :: up))
  | _, _ => None
  end.

(* monitor, 115-124: register and start before the call, stop after it.  A call
   that raises an exception has no Stop. *)
Inductive event := Start (f : nat) (t : Z) | Stop (f : nat) (t : Z).
Definition step (m : mon) (e : event) : option mon :=
  match e with
  | Start f t => start_timing (register m f) f t
  | Stop f t => stop_timing m f t
  end.
Fixpoint run (m : mon) (es : list event) : option mon :=
  match es with
  | [] => Some m
  | e :: r => match step m e with Some m' => run m' r | None => None end
  end.
(* print, 99-102: number of calls, sum of the total times, of the own times *)
Definition zsum (l : list Z) : Z := fold_right Z.add 0%Z l.
Definition data (m : mon) : list (nat * (nat * Z * Z)) :=
  map (fun p => (fst p, (length (fst (snd p)), zsum (fst (snd p)), zsum (snd (snd p))))) (m_func m).
