(* Model of the processes which run without a common clock: storage.py 305-366, Array.update, with
   the messages of MPI one by one, and the computations of each process between two updates
   (simulation.py 374-420).  The sends and receives are those of StorageModel. *)
From Verif Require Import PyBase GridModel StorageModel.
Open Scope Z_scope.

Section Async.
Context {V M : Type}.
Variable axes : list axis.
Definition proc := list nat.
Definition proc_dec : forall c c' : proc, {c = c'} + {c <> c'} := list_eq_dec Nat.eq_dec.
Definition arr := list Z -> V.
(* the memory of a process: the array which is exchanged, and all the rest *)
Definition memory : Type := M * arr.
(* Exch d: the body of the loop of update for the axis d; Loc g: any computation of a process in
   its own memory *)
Inductive item := Exch (d : nat) | Loc (g : proc -> memory -> memory).

(* ---- all the processes at once, as in StorageModel ---- *)
Definition sync_item (S : proc -> memory) (it : item) : proc -> memory := match it with
  | Exch d => fun c => (fst (S c), exchange axes d (fun c' => snd (S c')) c)
  | Loc g => fun c => g c (S c)
  end.
Definition sync (prog : list item) (S : proc -> memory) : proc -> memory := fold_left sync_item prog S.

(* ---- each process at its own pace ---- pc: the position in the program; sent, got: the requests
   of the current exchange which are complete (0: low side, 1: high side); chan: the messages on
   their way, by source, destination and tag, in the order of the sends (MPI does not let a message
   overtake another one with the same source, destination and tag) *)
Record astate := mkA { mem : proc -> memory; pc : proc -> nat; sent : proc -> nat -> bool; got : proc -> nat -> bool;
                       chan : proc -> proc -> Z -> list arr }.
Definition at_proc {A : Type} (f : proc -> A) (c : proc) (x : A) : proc -> A := fun c' => if proc_dec c' c then x else f c'.
Definition set_flag (f : nat -> bool) (j : nat) : nat -> bool := fun j' => if (j' =? j)%nat then true else f j'.
Definition set_chan (f : proc -> proc -> Z -> list arr) (s c : proc) (t : Z) (l : list arr) : proc -> proc -> Z -> list arr :=
  fun s' c' t' => if proc_dec s' s then if proc_dec c' c then if t' =? t then l else f s' c' t' else f s' c' t' else f s' c' t'.
Definition no_flags : nat -> bool := fun _ => false.
Definition dmsg : msg := mkMsg 0 (-1) 0.
Definition ax (d : nat) : axis := nth d axes dax.
Definition send_msg (d : nat) (c : proc) (j : nat) : msg := nth j (sends d (ax d) (nth d c 0%nat)) dmsg.
Definition recv_msg (d : nat) (c : proc) (j : nat) : msg := nth j (recvs d (ax d) (nth d c 0%nat)) dmsg.
(* the process at the other end *)
Definition peer (d : nat) (c : proc) (m : msg) : proc := upd c d (m_peer m).
Definition in_slab (d : nat) (m : msg) (i : list Z) : bool := (m_start m <=? nth d i 0) && (nth d i 0 <? m_start m + ax_h (ax d)).
(* the slab of a message: the index along the axis d counts from the start of the slab *)
Definition slab (d : nat) (m : msg) (a : arr) : arr := fun i => a (upd i d (m_start m + nth d i 0)).
Definition write_slab (d : nat) (m : msg) (q a : arr) : arr := fun i => if in_slab d m i then q (upd i d (nth d i 0 - m_start m)) else a i.

(* ESend j: the data of the send j leave; ERecv j: the receive j is complete; ENext: Waitall
   returns, or the computation is done *)
Inductive event := ESend (j : nat) | ERecv (j : nat) | ENext.
Definition step (prog : list item) (st : astate) (c : proc) (e : event) : option astate :=
  match nth_error prog (pc st c), e with
  | Some (Exch d), ESend j =>
    if (j <? 2)%nat && negb (sent st c j) then
      let s := send_msg d c j in let p := peer d c s in
      Some (mkA (mem st) (pc st) (at_proc (sent st) c (set_flag (sent st c) j)) (got st)
                (set_chan (chan st) c p (m_tag s) (chan st c p (m_tag s) ++ [slab d s (snd (mem st c))])))
    else None
  | Some (Exch d), ERecv j =>
    if (j <? 2)%nat && negb (got st c j) then
      let r := recv_msg d c j in let p := peer d c r in
      match chan st p c (m_tag r) with
      | [] => None
      | q :: l => Some (mkA (at_proc (mem st) c (fst (mem st c), write_slab d r q (snd (mem st c)))) (pc st) (sent st)
                            (at_proc (got st) c (set_flag (got st c) j)) (set_chan (chan st) p c (m_tag r) l))
      end
    else None
  | Some (Exch d), ENext =>
    if sent st c 0%nat && sent st c 1%nat && got st c 0%nat && got st c 1%nat then
      Some (mkA (mem st) (at_proc (pc st) c (S (pc st c))) (at_proc (sent st) c no_flags) (at_proc (got st) c no_flags) (chan st))
    else None
  | Some (Loc g), ENext => Some (mkA (at_proc (mem st) c (g c (mem st c))) (at_proc (pc st) c (S (pc st c))) (sent st) (got st) (chan st))
  | _, _ => None
  end.
(* an execution: the events in the order in which they happen *)
Fixpoint execution (prog : list item) (st : astate) (es : list (proc * event)) : option astate := match es with
  | [] => Some st
  | (c, e) :: es' => match step prog st c e with Some st' => execution prog st' es' | None => None end
  end.
Definition start (S : proc -> memory) : astate := mkA S (fun _ => 0%nat) (fun _ => no_flags) (fun _ => no_flags) (fun _ _ _ => []).
End Async.
Arguments Exch {V M} d. Arguments Loc {V M} g.
