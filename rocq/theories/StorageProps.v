(* Property theorems C12, C13 and C51: ghost exchange, storage order, interior view. *)
From Verif Require Import PyBase VelocityModel GridModel GridProofs StorageModel StorageProofs ExchangeProofs.
From Coq Require Import Sorting.Permutation Sorting.Sorted.
Open Scope Z_scope.

(* ---- C12 ----
   ax_ok a: at least one process along the axis, ghost width >= 0, and every
     process owns at least as many cells as the ghost layer is wide;
   coords_ok axes c: c are the coordinates of a process of the grid;
   stored/inner axes c i: i is a local index of the process c, ghosts included /
     excluded;
   same_cell: the two local cells have global indices (first owned index - ghost
     width + local index) which are equal modulo the number of cells, on each axis. *)
Theorem C12_ghost_exchange : forall (V : Type) (axes : list axis) (A : pstate (V := V)),
  (length axes <= 3)%nat -> Forall ax_ok axes ->
  (forall c i, coords_ok axes c -> stored axes c i ->
     exists c' i', coords_ok axes c' /\ inner axes c' i' /\ same_cell axes c i c' i') /\
  (forall c i c' i', coords_ok axes c -> stored axes c i -> coords_ok axes c' -> inner axes c' i' ->
     same_cell axes c i c' i' -> update axes A c i = A c' i') /\
  (forall c i, coords_ok axes c -> inner axes c i -> update axes A c i = A c i).
Proof.
  intros V axes A Hd Ha. split; [|split].
  - intros c i. now apply owner_of_cell.
  - intros c i c' i'. now apply update_spec.
  - intros c i. now apply update_inner.
Qed.
Print Assumptions C12_ghost_exchange.

(* Every receive posted by a process has exactly one matching send (same tag,
   addressed to this process, posted by the process the receive names): the
   exchange does not wait for ever, even when both neighbours are one process. *)
Theorem C12_messages_match : forall d a c r, (d < 3)%nat -> ax_ok a -> (c < ax_p a)%nat ->
  In r (recvs d a c) ->
  (m_peer r < ax_p a)%nat /\
  exists s, matching d a c r s /\ forall s', matching d a c r s' -> s' = s.
Proof.
  intros d a c r Hd Ha Hc Hr. destruct (recv_matched d a c r Hd Ha Hc Hr) as (H & s & H1 & H2 & _). eauto.
Qed.
Print Assumptions C12_messages_match.

Theorem C12_update_twice : forall (V : Type) (axes : list axis) (A : pstate (V := V)) c i,
  (length axes <= 3)%nat -> Forall ax_ok axes -> coords_ok axes c -> stored axes c i ->
  update axes (update axes A) c i = update axes A c i.
Proof. intros. now apply update_idem. Qed.
Print Assumptions C12_update_twice.

(* The loo.py version agrees with the exchange for ghost layers of width one. *)
Theorem C12_loopy_width_one : forall (V : Type) (axes : list axis) (A : pstate (V := V)),
  (length axes <= 3)%nat -> Forall ax_ok axes -> Forall (fun a => ax_h a = 1 /\ ax_p a = 1%nat) axes ->
  forall c i, coords_ok axes c -> stored axes c i -> loopy_update axes A c i = update axes A c i.
Proof. intros. now apply loopy_eq. Qed.
Print Assumptions C12_loopy_width_one.

Definition axis_ex : axis := mkAxis 7 2 2.
Lemma axis_ex_ok : ax_ok axis_ex.
Proof.
  split; [cbn; lia|]. split; [cbn; lia|]. split; [cbn; lia|]. intros [|[|c]] Hc; cbn in Hc |- *; try lia;
  vm_compute; discriminate.
Qed.
Example C12_example :
  let A := fun (c : list nat) (i : list Z) => (c, i) in
  ax_ok axis_ex /\
  (* process (0,1) of a 2 x 2 grid, corner ghost (0,6): comes from process (1,0) *)
  update [axis_ex; axis_ex] A [0; 1]%nat [0; 6] = ([1; 0]%nat, [3; 3]) /\
  update [axis_ex; axis_ex] A [0; 1]%nat [3; 2] = ([0; 1]%nat, [3; 2]).
Proof. split; [exact axis_ex_ok|]. split; vm_compute; reflexivity. Qed.

(* With two ghost cells the loo.py version leaves wrong values in them. *)
Theorem C12_loopy_refuted : exists axes c i,
  (length axes <= 3)%nat /\ Forall ax_ok axes /\ Forall (fun a => ax_p a = 1%nat) axes /\
  coords_ok axes c /\ stored axes c i /\
  exists A : pstate (V := Z), loopy_update axes A c i <> update axes A c i.
Proof.
  exists [mkAxis 7 1 2], [0%nat], [0].
  split; [cbn; lia|]. split.
  { constructor; [|constructor]. split; [cbn; lia|]. split; [cbn; lia|]. split; [cbn; lia|].
    intros [|c] Hc; cbn in Hc |- *; [vm_compute; discriminate|lia]. }
  split; [constructor; [reflexivity|constructor]|].
  split; [constructor; [cbn; lia|constructor]|].
  split.
  { split; [reflexivity|]. intros [|d] Hd; cbn in Hd; [|lia]. vm_compute. split; [discriminate|reflexivity]. }
  exists (fun _ i => nth 0 i 0). vm_compute. discriminate.
Qed.
Print Assumptions C12_loopy_refuted.

(* When a process owns fewer cells than the ghost layer is wide, some ghosts do not
   receive the value of the owner: the condition in ax_ok is needed. *)
Theorem C12_thin_region_refuted : exists axes c i c' i',
  Forall (fun a => 0 <= ax_n a /\ (1 <= ax_p a)%nat /\ 0 <= ax_h a) axes /\
  coords_ok axes c /\ stored axes c i /\ coords_ok axes c' /\ inner axes c' i' /\
  same_cell axes c i c' i' /\ exists A : pstate (V := list nat * list Z), update axes A c i <> A c' i'.
Proof.
  exists [mkAxis 3 3 2], [0%nat], [0], [1%nat], [2].
  split; [constructor; [cbn; lia|constructor]|].
  split; [constructor; [cbn; lia|constructor]|].
  split.
  { split; [reflexivity|]. intros [|d] Hd; cbn in Hd; [|lia]. vm_compute. split; [discriminate|reflexivity]. }
  split; [constructor; [cbn; lia|constructor]|].
  split.
  { split; [reflexivity|]. intros [|d] Hd; cbn in Hd; [|lia]. vm_compute. split; [discriminate|reflexivity]. }
  split.
  { intros [|d] Hd; cbn in Hd; [|lia]. vm_compute. reflexivity. }
  exists (fun c i => (c, i)). vm_compute. discriminate.
Qed.
Print Assumptions C12_thin_region_refuted.

(* ---- C13 ----
   is_order ind n: ind is a permutation of 0 .. n-1.  hist: a sequence of writes
   (index, value) made through the array; spec_read: the last value written at
   this index, zero if there is none. *)
Theorem C13_storage_order_invisible : forall (V : Type) (zero : V) ind shape hist k,
  is_order ind (length shape) -> Forall (fun w => in_shape (fst w) shape) hist -> in_shape k shape ->
  getitem (run_writes (array_new zero ind shape) hist) k = spec_read zero hist k.
Proof. intros. now apply writes_read. Qed.
Print Assumptions C13_storage_order_invisible.

(* Each entry is inside the buffer, whose size is the product of the shape. *)
Theorem C13_offset_in_buffer : forall (V : Type) (x : array (V := V)) k,
  is_order (a_ind x) (length (a_shape x)) -> in_shape k (a_shape x) ->
  0 <= offset x k < fold_right Z.mul 1 (scatter 0 (a_ind x) (a_shape x)).
Proof.
  intros V x k H Hk. unfold offset, rowmajor.
  pose proof (rowmajor_range _ _ 0 (scatter_in_shape _ _ _ H Hk) ltac:(lia)). lia.
Qed.
Print Assumptions C13_offset_in_buffer.

Example C13_example :
  let x := run_writes (array_new 0 [2; 0; 1]%nat [9; 3; 4]) [([8; 2; 3], 5); ([0; 1; 2], 6); ([8; 2; 3], 7)] in
  is_order [2; 0; 1]%nat 3 /\ in_shape [8; 2; 3] [9; 3; 4] /\ getitem x [8; 2; 3] = 7 /\ getitem x [0; 1; 2] = 6 /\
  getitem x [0; 2; 1] = 0.
Proof.
  split; [|split; [repeat constructor; lia|split; [reflexivity|split; reflexivity]]].
  unfold is_order. cbn. apply perm_trans with [0; 2; 1]%nat; [apply perm_trans with [2; 0; 1]%nat; [reflexivity|apply perm_swap]|].
  constructor. apply perm_swap.
Qed.

(* The accesses of the generated kernels: for a storage order whose spatial part
   is increasing, the access generated for velocity number k with shift v is, for
   loop values x, the buffer entry which Array gives to the entry (k, x + v). *)
Theorem C13_generated_access_partial : forall sorder dim k v x,
  (1 <= dim <= 3)%nat -> is_order sorder (S dim) -> increasing (tl sorder) ->
  length v = dim -> length x = dim ->
  exists acc, indexed_velocity sorder k v = Some acc /\
    map (sidx_eval x) acc = scatter 0 sorder (k :: zip_add x v).
Proof. intros. now apply (access_increasing sorder dim). Qed.
Print Assumptions C13_generated_access_partial.

(* ... and only for those orders: the loop variable found in the access at the place
   of the space axis d is the one running over the range of axis d, for all axes,
   exactly when the spatial part of the order is increasing. *)
Theorem C13_generated_access_iff : forall sorder dim k v acc,
  (1 <= dim <= 3)%nat -> is_order sorder (S dim) -> length v = dim ->
  indexed_velocity sorder k v = Some acc ->
  ((forall d, (d < dim)%nat -> exists c, loop_of_axis sorder acc d = Some (SLoop d c)) <-> increasing (tl sorder)).
Proof. intros. now apply (loops_iff sorder dim k v). Qed.
Print Assumptions C13_generated_access_iff.

Theorem C13_generated_access_refuted : exists sorder dim k v x acc,
  (1 <= dim <= 3)%nat /\ is_order sorder (S dim) /\ length v = dim /\ length x = dim /\
  indexed_velocity sorder k v = Some acc /\ map (sidx_eval x) acc <> scatter 0 sorder (k :: zip_add x v).
Proof.
  exists [0; 2; 1]%nat, 2%nat, 0, [0; 0], [10; 3], [SVel 0; SLoop 0 0; SLoop 1 0].
  split; [lia|]. split; [constructor; apply perm_swap|]. split; [reflexivity|]. split; [reflexivity|].
  split; [reflexivity|]. vm_compute. discriminate.
Qed.
Print Assumptions C13_generated_access_refuted.

(* AOS in 2D and 3D (velocity last) and SOA (velocity first) are increasing. *)
Example C13_access_example :
  is_order [2; 0; 1]%nat 3 /\ increasing (tl [2; 0; 1]%nat) /\
  indexed_velocity [2; 0; 1]%nat 5 [1; -1] = Some [SLoop 0 1; SLoop 1 (-1); SVel 5].
Proof.
  split; [|split; [|reflexivity]].
  - unfold is_order. cbn. apply perm_trans with [0; 2; 1]%nat; [apply perm_swap|]. constructor. apply perm_swap.
  - unfold increasing. cbn. repeat constructor.
Qed.

(* ---- C51: the interior view is exactly the cells which are not ghosts ---- *)
Theorem C51_interior_view_partial : forall (A : Type) (l : list A) h,
  1 <= h -> 2 * h <= Z.of_nat (length l) ->
  in_slice l h = firstn (Z.to_nat (Z.of_nat (length l) - 2 * h)) (skipn (Z.to_nat h) l).
Proof. intros. now apply in_slice_spec. Qed.
Print Assumptions C51_interior_view_partial.

Theorem C51_no_ghost_refuted : forall (A : Type) (l : list A), in_slice l 0 = [].
Proof. intros. apply in_slice_zero. Qed.
Print Assumptions C51_no_ghost_refuted.

Example C51_example : in_slice [1; 2; 3; 4; 5; 6; 7] 2 = [3; 4; 5].
Proof. reflexivity. Qed.
