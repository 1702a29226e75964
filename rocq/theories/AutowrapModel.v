(* Model of the way the generated routines become a module (generator/generator.py 9-33,
   generator/autowrap.py 18-90 and 142-179, simulation.py 112-123): the directory, the file, the
   search of the module by Python. *)
From Coq Require Import String.
From Verif Require Import PyBase.
Open Scope Z_scope.

(* ---- the routines ---- a routine: its name and its text *)
Definition code := list (string * string).
(* an OrderedDict: a known key keeps its place *)
Fixpoint odict_set (k v : string) (d : code) : code := match d with
  | [] => [(k, v)]
  | (k', v') :: d' => if String.eqb k' k then (k, v) :: d' else (k', v') :: odict_set k v d'
  end.
(* generator.py 18-25 *)
Definition add_routine (d : code) (r : string * string) : code := odict_set (fst r) (snd r) d.
(* getattr(module, name) (base.py 677): the last definition of the file *)
Definition attribute (name : string) (m : code) : option string :=
  option_map snd (find (fun r => String.eqb (fst r) name) (rev m)).

(* ---- the directories ---- an absolute path, the last component at the end *)
Definition path := list string.
Definition path_dec : forall p q : path, {p = q} + {p <> q} := list_eq_dec string_dec.
(* what a directory has of wrapped_module_0: the source with the second of its last change; the
   compiled file of __pycache__, with the second and the size of the source it was made of *)
Record folder := mkFolder { source : option (code * Z); cache : option (code * Z * Z) }.
Record world := mkWorld { folders : list (path * folder); sys_path : list path; loaded : option code }.
Definition empty_folder : folder := mkFolder None None.
Definition at_path (p : path) (l : list (path * folder)) : option folder := option_map snd (find (fun e => if path_dec (fst e) p then true else false) l).
Definition delete (p : path) (l : list (path * folder)) : list (path * folder) := filter (fun e => if path_dec (fst e) p then false else true) l.
Definition put (p : path) (f : folder) (l : list (path * folder)) : list (path * folder) := (p, f) :: delete p l.
(* the number of characters of the file (its header has a constant size) *)
Definition size (c : code) : Z := fold_right (fun r s => Z.of_nat (String.length (snd r)) + s) 0 c.

(* ---- import_module (autowrap.py 65) ---- the first directory of sys.path with the module *)
Definition search (l : list (path * folder)) (ps : list path) : option path :=
  find (fun p => match at_path p l with Some (mkFolder (Some _) _) => true | _ => false end) ps.
(* the compiled file is used if the second and the size are those of the source (importlib of
   CPython), otherwise the source is compiled *)
Definition load (f : folder) : option (code * folder) := match source f with
  | None => None
  | Some (c, t) =>
    let compiled := (c, mkFolder (Some (c, t)) (Some (c, t, size c))) in
    Some (match cache f with
          | Some (c', t', n) => if (t' =? t) && (n =? size c) then (c', f) else compiled
          | None => compiled
          end)
  end.
Definition import_module (w : world) : option (code * world) :=
  match search (folders w) (sys_path w) with
  | None => None
  | Some p => match at_path p (folders w) with
    | None => None
    | Some f => match load f with
      | None => None
      | Some (c, f') => Some (c, mkWorld (put p f' (folders w)) (sys_path w) (Some c))
      end
    end
  end.

(* ---- wrap_code with the files of Python (autowrap.py 43-76) ---- filepath: the directory of the
   user; fresh: the directory which mkdtemp makes; now: the second.  The module counter of the
   new wrapper is 0.  None: an exception. *)
Fixpoint remove_first (p : path) (l : list path) : list path := match l with
  | [] => []
  | q :: l' => if path_dec q p then l' else q :: remove_first p l'
  end.
Definition parent (p : path) : path := removelast p.
Definition directory (filepath : option path) (fresh : path) (w : world) : option world := match filepath with
  | None => Some (mkWorld (put fresh empty_folder (folders w)) (sys_path w) (loaded w))
  | Some p => match at_path p (folders w), at_path (parent p) (folders w) with
    | Some _, _ => Some w
    | None, Some _ => Some (mkWorld (put p empty_folder (folders w)) (sys_path w) (loaded w))
    | None, None => None (* os.mkdir: the parent does not exist *)
    end
  end.
Definition write (p : path) (rs : code) (now : Z) (l : list (path * folder)) : list (path * folder) :=
  put p (mkFolder (Some (rs, now)) (match at_path p l with Some f => cache f | None => None end)) l.
Definition wrap (filepath : option path) (fresh : path) (now : Z) (generate : bool) (rs : code) (w : world) : world * option code :=
  match directory filepath fresh w with
  | None => (w, None)
  | Some w0 =>
    let workdir := match filepath with Some p => p | None => fresh end in
    let w1 := mkWorld (if generate then write workdir rs now (folders w0) else folders w0) (sys_path w0 ++ [workdir]) None in
    let r := import_module w1 in
    let w2 := match r with Some (_, w') => w' | None => w1 end in
    (mkWorld (match filepath with Some _ => folders w2 | None => delete fresh (folders w2) end)
             (remove_first workdir (sys_path w2)) (loaded w2),
     option_map fst r)
  end.

(* simulations of one process, one after the other: the directory, the one of mkdtemp, the second,
   generate, the calls of add_routine *)
Record build := mkBuild { b_path : option path; b_fresh : path; b_now : Z; b_generate : bool; b_routines : list (string * string) }.
Definition compile (b : build) (w : world) : world * option code :=
  wrap (b_path b) (b_fresh b) (b_now b) (b_generate b) (fold_left add_routine (b_routines b) []) w.
Fixpoint compiles (bs : list build) (w : world) : world * list (option code) := match bs with
  | [] => (w, [])
  | b :: bs' => let '(w1, m) := compile b w in let '(w2, ms) := compiles bs' w1 in (w2, m :: ms)
  end.
