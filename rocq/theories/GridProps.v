(* Property theorems C09-C11: partition of the cells and coordinates. *)
From Verif Require Import PyBase GridModel GridProofs.
From Coq Require Import QArith Qabs.
Open Scope Z_scope.

Theorem C09_partition_axis : forall n p, 0 <= n -> (1 <= p)%nat ->
  (forall c, (exists r, region1 n p c = Some r) <-> (c < p)%nat) /\
  (exists b, region1 n p 0 = Some (0, b)) /\
  (exists a, region1 n p (p - 1) = Some (a, n)) /\
  (forall c a b, region1 n p c = Some (a, b) ->
     0 <= a <= b /\ b <= n /\
     b - a = n / Z.of_nat p + (if Z.of_nat c <? n mod Z.of_nat p then 1 else 0) /\
     ((S c < p)%nat -> exists b', region1 n p (S c) = Some (b, b') /\ b' - b <= b - a <= b' - b + 1)) /\
  (forall g, 0 <= g < n -> exists! c, exists a b, region1 n p c = Some (a, b) /\ a <= g < b).
Proof. exact C09_axis. Qed.
Print Assumptions C09_partition_axis.

(* All axes together: in_region g r says that index k of g is in the k-th
   interval of r. *)
Theorem C09_partition_exact : forall sizes split, length sizes = length split ->
  Forall (fun n => 0 <= n) sizes -> Forall (fun p => (1 <= p)%nat) split ->
  forall g, Forall2 (fun x n => 0 <= x < n) g sizes ->
  exists! coords, exists r, get_region sizes split coords = Some r /\ in_region g r.
Proof. exact C09_all. Qed.
Print Assumptions C09_partition_exact.

Example C09_example : region_indices 11 3 = [0; 4; 8; 11] /\
  get_region [11; 5] [3; 2]%nat [1; 1]%nat = Some [(4, 8); (3, 5)] /\ in_region [7; 3] [(4, 8); (3, 5)].
Proof. repeat split; repeat constructor; cbn; lia. Qed.

Theorem C10_coordinates_split_independent_partial : forall lo dx n p c h r0 r1,
  0 <= n -> (1 <= p)%nat -> 1 <= h -> region1 n p c = Some (r0, r1) ->
  Z.of_nat (length (coords1 lo dx r0 r1 h)) = r1 - r0 /\
  Z.of_nat (length (coords_halo1 lo dx r0 r1 h)) = r1 - r0 + 2 * h /\
  (forall g, r0 <= g < r1 ->
     exists x y, nth_error (coords1 lo dx r0 r1 h) (Z.to_nat (g - r0)) = Some x /\
       nth_error (coords1 lo dx 0 n h) (Z.to_nat g) = Some y /\
       (x == y)%Q /\ (x == lo + dx * (inject_Z g + (1 # 2)))%Q) /\
  (forall g, r0 - h <= g < r1 + h ->
     exists x, nth_error (coords_halo1 lo dx r0 r1 h) (Z.to_nat (g - (r0 - h))) = Some x /\
       (x == lo + dx * (inject_Z g + (1 # 2)))%Q).
Proof. exact C10_lemma. Qed.
Print Assumptions C10_coordinates_split_independent_partial.

Example C10_example : region1 11 3 1 = Some (4, 8) /\
  map Qred (coords_halo1 1 (1 # 2) 4 8 1) = [11 # 4; 13 # 4; 15 # 4; 17 # 4; 19 # 4; 21 # 4]%Q /\
  map Qred (coords1 1 (1 # 2) 4 8 1) = [13 # 4; 15 # 4; 17 # 4; 19 # 4]%Q.
Proof. repeat split. Qed.

(* With no halo (no velocity along this axis) the process keeps one coordinate. *)
Theorem C10_no_velocity_refuted : forall lo dx r0 r1,
  r0 + 2 <= r1 -> Z.of_nat (length (coords1 lo dx r0 r1 0)) <> r1 - r0.
Proof.
  intros lo dx r0 r1 H E. rewrite coords_zero in E by lia. cbn in E. lia.
Qed.
Print Assumptions C10_no_velocity_refuted.

Theorem C11_box_length_accepted : forall lo hi dx n, (0 < dx)%Q ->
  (global_size1 lo hi dx = Some n <->
   (hi - lo == dx * inject_Z n)%Q \/
   (n = py_round ((hi - lo) / dx) /\ (Qabs (dx * inject_Z n - (hi - lo)) < dx * dx)%Q)).
Proof. exact global_size_spec. Qed.
Print Assumptions C11_box_length_accepted.

(* Part of C11 which holds: an exact multiple is accepted with the right number of
   cells, and the length of an accepted box is wrong by less than dx * dx.
   Missing: a tolerance of the size of rounding errors (refuted below). *)
Theorem C11_box_length_partial : forall lo hi dx, (0 < dx)%Q ->
  (forall n, (hi - lo == dx * inject_Z n)%Q -> global_size1 lo hi dx = Some n) /\
  (forall n, global_size1 lo hi dx = Some n -> (Qabs (dx * inject_Z n - (hi - lo)) < dx * dx)%Q).
Proof.
  intros lo hi dx H. split; [intros n; now apply global_size_exact|].
  intros n Hn. apply (proj1 (global_size_spec lo hi dx n H)) in Hn. destruct Hn as [Hn|[_ Hn]]; [|exact Hn].
  rewrite Hn. setoid_replace (dx * inject_Z n - dx * inject_Z n)%Q with 0%Q by ring.
  change (Qabs 0) with 0%Q. setoid_replace 0%Q with (0 * dx)%Q by ring. now apply Qmult_lt_compat_r.
Qed.
Print Assumptions C11_box_length_partial.

Example C11_example : global_size1 (-1) 2 (3 # 7) = Some 7 /\ global_size1 0 1 (2 # 5) = None.
Proof. split; reflexivity. Qed.

(* A box of length 5/2 with space step 1 is accepted with two cells; a box of
   length 1/4 is accepted with no cell. *)
Theorem C11_box_length_refuted : exists lo hi dx n, (0 < dx)%Q /\
  global_size1 lo hi dx = Some n /\ (Qabs (dx * inject_Z n - (hi - lo)) == 1 # 2)%Q.
Proof. exists 0%Q, (5 # 2)%Q, 1%Q, 2. repeat split. Qed.
Print Assumptions C11_box_length_refuted.
Theorem C11_empty_box_refuted : exists lo hi dx, (0 < dx)%Q /\ (lo < hi)%Q /\ global_size1 lo hi dx = Some 0.
Proof. exists 0%Q, (1 # 4)%Q, 1%Q. repeat split. Qed.
Print Assumptions C11_empty_box_refuted.
