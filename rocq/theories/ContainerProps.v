(* Property theorems C97: the arrays of a simulation and the storage order given to the
   generated code. *)
From Verif Require Import PyBase VelocityModel GridModel GridProofs StencilProofs StorageModel StorageProofs ContainerModel.
From Coq Require Import ZifyBool Sorting.Permutation Sorting.Sorted.
Open Scope Z_scope.

(* The list of Python integers s means the order p of n axes: p is a permutation of
   0 .. n-1 and each entry of s is the one of p, counted from the start or from the end. *)
Definition means (n : nat) (z : Z) (j : nat) : Prop :=
  (j < n)%nat /\ (z = Z.of_nat j \/ z = Z.of_nat j - Z.of_nat n).
Definition order_of (n : nat) (s : list Z) (p : list nat) : Prop :=
  is_order p n /\ Forall2 (means n) s p.

Lemma py_index_spec n s j : py_index n s = Some j <-> means n s j.
Proof.
  unfold py_index, means. destruct ((0 <=? s) && (s <? Z.of_nat n)) eqn:E1.
  - split; [intros H; inversion H; subst; lia|intros H; f_equal; lia].
  - destruct ((- Z.of_nat n <=? s) && (s <? 0)) eqn:E2.
    + split; [intros H; inversion H; subst; lia|intros H; f_equal; lia].
    + split; [discriminate|intros H; lia].
Qed.
Lemma py_indices_spec n l : forall p, py_indices n l = Some p <-> Forall2 (means n) l p.
Proof.
  induction l as [|s l IH]; intros p; cbn.
  - split; [intros H; inversion H; constructor|intros H; inversion H; reflexivity].
  - split.
    + destruct (py_index n s) as [j|] eqn:E; [|discriminate].
      destruct (py_indices n l) as [r|] eqn:E2; [|discriminate]. intros H. inversion H; subst.
      constructor; [now apply py_index_spec|now apply IH].
    + intros H. inversion H as [|? j ? r H1 H2]; subst.
      apply py_index_spec in H1. apply IH in H2. now rewrite H1, H2.
Qed.
Lemma repeated_spec p : repeated p = false <-> NoDup p.
Proof.
  induction p as [|a p IH]; cbn; [split; [constructor|reflexivity]|].
  rewrite orb_false_iff, IH. split.
  - intros [H1 H2]. constructor; [|exact H2]. intros Hin.
    rewrite <- not_true_iff_false, existsb_exists in H1. apply H1. exists a. split; [exact Hin|apply Nat.eqb_refl].
  - intros H. inversion H; subst. split; [|assumption].
    apply not_true_iff_false. rewrite existsb_exists. intros (b & Hb & E). apply Nat.eqb_eq in E. now subst.
Qed.
Lemma means_lt n l p : Forall2 (means n) l p -> forall j, In j p -> (j < n)%nat.
Proof. induction 1 as [|s a l p H HF IH]; intros j Hj; [destruct Hj|]. destruct Hj as [<-|Hj]; [apply H|auto]. Qed.
Lemma transpose_axes_spec n s p : transpose_axes n s = Some p <-> order_of n s p.
Proof.
  unfold transpose_axes, order_of. destruct (Nat.eqb (length s) n) eqn:El.
  - apply Nat.eqb_eq in El. destruct (py_indices n s) as [q|] eqn:E.
    + apply py_indices_spec in E. assert (Hl : length s = length q) by (eapply Forall2_length; exact E).
      destruct (repeated q) eqn:Er.
      * split; [discriminate|]. intros [H1 H2]. apply py_indices_spec in H2. apply py_indices_spec in E.
        rewrite E in H2. inversion H2; subst. apply is_order_NoDup in H1. apply repeated_spec in H1. congruence.
      * apply repeated_spec in Er. split.
        -- intros H. inversion H; subst p. split; [|exact E]. apply NoDup_Permutation_bis; [exact Er|rewrite seq_length; lia|].
           intros j Hj. apply in_seq. pose proof (means_lt _ _ _ E j Hj). lia.
        -- intros [_ H2]. apply py_indices_spec in H2. apply py_indices_spec in E. congruence.
    + split; [discriminate|]. intros [_ H]. apply py_indices_spec in H. congruence.
  - split; [discriminate|]. intros [H1 H2]. assert (length s = length p) by (eapply Forall2_length; exact H2). apply is_order_length in H1.
    apply Nat.eqb_neq in El. lia.
Qed.

Lemma upd_len {A} (x : A) : forall l j, length (upd l j x) = length l.
Proof. induction l as [|a l IH]; intros [|j]; cbn; auto. Qed.
Lemma fill_spec n ind p : Forall2 (means n) ind p -> forall out l, length out = n -> length l = length p ->
  fill out ind l = Some (fold_left (fun out q => upd out (fst q) (snd q)) (combine p l) out).
Proof.
  induction 1 as [|s j ind p H HF IH]; intros out [|x l] Ho Hl; cbn in Hl; try discriminate; [reflexivity|].
  cbn [fill combine fold_left fst snd]. rewrite Ho. apply py_index_spec in H. rewrite H.
  apply IH; [now rewrite upd_len|lia].
Qed.

Section Init.
Context {V : Type} (zero : V).
Lemma array_init_spec shape s p : order_of (length shape) s p ->
  array_init zero shape (Some s) = Some (scatter 0 p shape, array_new zero p shape).
Proof.
  intros H. unfold array_init. destruct H as [H1 H2].
  rewrite (fill_spec (length shape) s p H2); [|apply repeat_length|symmetry; now apply is_order_length].
  rewrite (proj2 (transpose_axes_spec (length shape) s p)) by (split; assumption). reflexivity.
Qed.
Lemma array_init_inv shape s r : array_init zero shape (Some s) = Some r -> exists p, order_of (length shape) s p.
Proof.
  unfold array_init. destruct fill; [|discriminate]. destruct transpose_axes eqn:E; [|discriminate].
  intros _. eexists. apply transpose_axes_spec. exact E.
Qed.

Lemma forall2_seq n k m : (k + m <= n)%nat -> Forall2 (means n) (map Z.of_nat (seq k m)) (seq k m).
Proof. revert k. induction m as [|m IH]; intros k H; cbn; constructor; [unfold means; lia|apply IH; lia]. Qed.
Lemma soa_order_of dim : order_of (S dim) (soa_order dim) (seq 0 (S dim)).
Proof. unfold soa_order. replace (dim + 1)%nat with (S dim) by lia. split; [apply Permutation_refl|apply forall2_seq; lia]. Qed.
Lemma aos_order_of dim : order_of (S dim) (aos_order dim) (dim :: seq 0 dim).
Proof.
  split.
  - unfold is_order. rewrite seq_S. cbn. apply Permutation_cons_append.
  - constructor; [unfold means; lia|apply forall2_seq; lia].
Qed.
Definition default_axes (b : backend) (dim : nat) : list nat :=
  match b with NUMPY => seq 0 (S dim) | _ => dim :: seq 0 dim end.
Lemma default_order_of b dim : order_of (S dim) (default_order b dim) (default_axes b dim).
Proof. destruct b; [apply soa_order_of|apply aos_order_of|apply aos_order_of]. Qed.
Lemma set_sorder_is b dim : set_sorder b dim = default_order b dim.
Proof. now destruct b. Qed.

Lemma container_spec b shape s p : order_of (length shape) s p -> s <> [] ->
  container_init zero b shape (Some s) =
    Some (mkContainer (scatter 0 p shape, array_new zero p shape) (scatter 0 p shape, array_new zero p shape)
                      (scatter 0 p shape, array_new zero p shape) s).
Proof.
  intros H Hs. unfold container_init. destruct s as [|z s]; [congruence|]. cbv zeta beta iota.
  rewrite (array_init_spec _ _ _ H). now destruct b.
Qed.
Lemma container_default b shape sorder : sorder = None \/ sorder = Some [] -> shape <> [] ->
  let dim := (length shape - 1)%nat in
  let p := default_axes b dim in
  container_init zero b shape sorder =
    Some (mkContainer (scatter 0 p shape, array_new zero p shape) (scatter 0 p shape, array_new zero p shape)
                      (scatter 0 p shape, array_new zero p shape) (default_order b dim)).
Proof.
  intros H Hs dim p. unfold container_init.
  assert (E : match sorder with None | Some [] => None | Some s => Some s end = @None (list Z)) by (destruct H; now subst).
  rewrite E. cbv zeta.
  assert (HO : order_of (length shape) (default_order b (length shape - 1)) p).
  { replace (length shape) with (S dim) at 1 by (destruct shape; [congruence|]; unfold dim; cbn; lia). apply default_order_of. }
  pose proof (array_init_spec _ _ _ HO) as HI. pose proof (set_sorder_is b (length shape - 1)) as HS.
  cbv iota. rewrite HI. destruct b; cbv iota; [|change (set_sorder CYTHON (length shape - 1)) with (default_order CYTHON (length shape - 1))|change (set_sorder LOOPY (length shape - 1)) with (default_order LOOPY (length shape - 1))]; [|rewrite HI|rewrite HI]; reflexivity.
Qed.
End Init.

(* ---- C97 ---- *)
(* A storage order is accepted by a back end exactly when it has one entry for each axis
   and its entries, counted from the start or from the end, are the axes in some order. *)
Theorem C97_accepted : forall (V : Type) (zero : V) b shape s, s <> [] ->
  ((exists c, container_init zero b shape (Some s) = Some c) <-> exists p, order_of (length shape) s p).
Proof.
  intros V zero b shape s Hs. split.
  - intros [c H]. unfold container_init in H. destruct s as [|z s]; [congruence|]. cbv zeta iota in H.
    destruct (array_init zero shape (Some (z :: s))) as [r|] eqn:E; [|discriminate].
    now apply array_init_inv in E.
  - intros [p H]. eexists. now apply (container_spec zero b shape s p).
Qed.
Print Assumptions C97_accepted.

(* Without an order: velocity first for NumPy, velocity last for the other back ends. *)
Theorem C97_default : forall (V : Type) (zero : V) b nv size sorder, sorder = None \/ sorder = Some [] ->
  exists c, container_init zero b (nv :: size) sorder = Some c /\
    fst (c_F c) = (match b with NUMPY => nv :: size | _ => size ++ [nv] end) /\
    c_sorder c = map Z.of_nat (match b with NUMPY => seq 0 (S (length size)) | _ => length size :: seq 0 (length size) end).
Proof.
  intros V zero b nv size sorder H.
  eexists. split; [apply container_default; [exact H|discriminate]|]. cbn [c_F fst c_sorder length].
  replace (S (length size) - 1)%nat with (length size) by lia.
  destruct (aos_order_of (length size)) as [HA _]. destruct (soa_order_of (length size)) as [HB _].
  assert (EA : size ++ [nv] = scatter 0 (length size :: seq 0 (length size)) (nv :: size)).
  { apply scatter_unique; [exact HA|rewrite app_length; cbn; lia|].
    intros [|i] j E; cbn in E.
    - inversion E; subst j. rewrite nth_error_app2, Nat.sub_diag by lia. reflexivity.
    - assert (Hi : (i < length (seq 0 (length size)))%nat) by (apply nth_error_Some; congruence).
      rewrite seq_length in Hi. rewrite nth_error_seq in E by exact Hi. inversion E; subst j. cbn.
      now rewrite nth_error_app1 by lia. }
  assert (EB : nv :: size = scatter 0 (seq 0 (S (length size))) (nv :: size)).
  { apply scatter_unique; [exact HB|reflexivity|]. intros i j E.
    assert (Hi : (i < length (seq 0 (S (length size))))%nat) by (apply nth_error_Some; congruence).
    rewrite seq_length in Hi. rewrite nth_error_seq in E by exact Hi. now inversion E. }
  split.
  - destruct b; cbn [default_axes]; now symmetry.
  - destruct b; cbn [default_order]; unfold soa_order, aos_order; [now rewrite Nat.add_1_r| |]; reflexivity.
Qed.
Print Assumptions C97_default.

(* Whatever the order and after any number of steps (each one exchanges F and Fnew), the
   arrays m, F and Fnew have the same buffer shape and the same layout, the one meant by
   the order which the generated code was given. *)
Theorem C97_same_layout : forall (V : Type) (zero : V) b shape sorder c n, shape <> [] ->
  container_init zero b shape sorder = Some c ->
  let c' := Nat.iter n exchange c in
  exists p, order_of (length shape) (c_sorder c) p /\ c_sorder c' = c_sorder c /\
    forall x, In x [c_m c'; c_F c'; c_Fnew c'] ->
      a_ind (snd x) = p /\ a_shape (snd x) = shape /\ fst x = scatter 0 p shape /\ forall k, getitem (snd x) k = zero.
Proof.
  intros V zero b shape sorder c n Hs H.
  assert (HX : exists p, order_of (length shape) (c_sorder c) p /\
    c = mkContainer (scatter 0 p shape, array_new zero p shape) (scatter 0 p shape, array_new zero p shape)
                    (scatter 0 p shape, array_new zero p shape) (c_sorder c)).
  { destruct sorder as [[|z s]|].
    - rewrite (container_default zero b shape (Some []) (or_intror eq_refl) Hs) in H. inversion H.
      eexists. split; [|reflexivity]. cbn.
      replace (length shape) with (S (length shape - 1)) at 1 by (destruct shape; [congruence|cbn; lia]). apply default_order_of.
    - destruct (proj1 (C97_accepted V zero b shape (z :: s) ltac:(discriminate)) (ex_intro _ c H)) as [p Hp].
      rewrite (container_spec zero b shape _ p Hp) in H by discriminate. inversion H. eexists. split; [exact Hp|reflexivity].
    - rewrite (container_default zero b shape None (or_introl eq_refl) Hs) in H. inversion H.
      eexists. split; [|reflexivity]. cbn.
      replace (length shape) with (S (length shape - 1)) at 1 by (destruct shape; [congruence|cbn; lia]). apply default_order_of. }
  destruct HX as (p & Hp & E). intros c'. exists p. split; [exact Hp|].
  assert (E' : c' = c).
  { unfold c'. clear c' H. induction n as [|n IH]; [reflexivity|]. change (Nat.iter (S n) exchange c) with (exchange (Nat.iter n exchange c)). rewrite IH.
    rewrite E. reflexivity. }
  rewrite E'. split; [reflexivity|]. intros x Hx. rewrite E in Hx. cbn in Hx.
  destruct Hx as [<-|[<-|[<-|[]]]]; cbn; auto.
Qed.
Print Assumptions C97_same_layout.

Lemma indexed_nat p k v : indexed_velocity_z (map Z.of_nat p) k v = indexed_velocity p k v.
Proof.
  unfold indexed_velocity_z, indexed_velocity, space_idx_z, space_idx.
  assert (E : forall (A : Type) (a : list A) q, set_order_z a (map Z.of_nat q) = set_order a q) by (intros A a [|q0 q]; reflexivity).
  replace (tl (map Z.of_nat p)) with (map Z.of_nat (tl p)) by (now destruct p). rewrite E.
  destruct (set_order [0; 1; 2]%nat (tl p)); [|reflexivity]. destruct (add_shift l v); [|reflexivity]. apply E.
Qed.
Lemma means_nonneg n s p : Forall2 (means n) s p -> Forall (fun z => 0 <= z) s -> s = map Z.of_nat p.
Proof.
  induction 1 as [|z j s p H HF IH]; intros HN; [reflexivity|]. inversion HN; subst. cbn.
  f_equal; [unfold means in H; lia|auto].
Qed.

(* When no entry is negative and the space axes are in increasing order (as they are by
   default), the place of the access generated for the velocity k and the shift v is, in
   the buffer of F, of Fnew and of m, the one of the value k of the cell x + v. *)
Theorem C97_generated_access_partial : forall (V : Type) (zero : V) b shape sorder c n k v x arr,
  (2 <= length shape <= 4)%nat -> container_init zero b shape sorder = Some c ->
  (forall s, sorder = Some s -> Forall (fun z => 0 <= z) s /\ StronglySorted Z.lt (tl s)) ->
  length v = (length shape - 1)%nat -> length x = (length shape - 1)%nat ->
  let c' := Nat.iter n exchange c in In arr [c_m c'; c_F c'; c_Fnew c'] ->
  exists acc, indexed_velocity_z (c_sorder c') k v = Some acc /\
    rowmajor (fst arr) (map (sidx_eval x) acc) = offset (snd arr) (k :: zip_add x v).
Proof.
  intros V zero b shape sorder c n k v x arr Hd H Hso Hv Hx c' Harr.
  assert (Hs : shape <> []) by (destruct shape; cbn in Hd; [lia|discriminate]).
  destruct (C97_same_layout V zero b shape sorder c n Hs H) as (p & Hp & Ec & HA). fold c' in Ec, HA.
  destruct (HA arr Harr) as (A1 & A2 & A3 & _).
  assert (HN : Forall (fun z => 0 <= z) (c_sorder c) /\ StronglySorted Z.lt (tl (c_sorder c))).
  { destruct sorder as [[|z s]|].
    2: { destruct (proj1 (C97_accepted V zero b shape (z :: s) ltac:(discriminate)) (ex_intro _ c H)) as [q Hq].
         rewrite (container_spec zero b shape _ q Hq) in H by discriminate. inversion H. cbn [c_sorder]. now apply Hso. }
    all: [> rewrite (container_default zero b shape (Some []) (or_intror eq_refl) Hs) in H
          | rewrite (container_default zero b shape None (or_introl eq_refl) Hs) in H ]; inversion H; cbn [c_sorder];
      assert (HS : forall m k, StronglySorted Z.lt (map Z.of_nat (seq k m)))
        by (clear; induction m as [|m IH]; intros k; cbn; constructor; auto;
            apply Forall_forall; intros y Hy; apply in_map_iff in Hy; destruct Hy as (j & <- & Hj); apply in_seq in Hj; lia);
      assert (HP : forall l, Forall (fun z => 0 <= z) (map Z.of_nat l))
        by (clear; intros l; apply Forall_forall; intros y Hy; apply in_map_iff in Hy; destruct Hy as (j & <- & Hj); lia);
      (destruct b; unfold default_order, soa_order, aos_order; split;
        [apply HP|rewrite Nat.add_1_r; apply HS|constructor; [lia|apply HP]|apply HS|constructor; [lia|apply HP]|apply HS]). }
  destruct HN as [HN HI]. destruct Hp as [Hp1 Hp2]. pose proof (means_nonneg _ _ _ Hp2 HN) as Es.
  assert (HI2 : increasing (tl p)).
  { rewrite Es in HI. replace (tl (map Z.of_nat p)) with (map Z.of_nat (tl p)) in HI by (now destruct p).
    clear -HI. revert HI. generalize (tl p) as l. induction l as [|a l IH]; intros HI; [constructor|].
    cbn in HI. inversion HI; subst. constructor; [now apply IH|]. apply Forall_forall. intros j Hj.
    rewrite Forall_forall in H2. specialize (H2 (Z.of_nat j) (in_map _ _ _ Hj)). lia. }
  destruct (access_increasing p (length shape - 1) k v x) as (acc & E1 & E2); [lia| |exact HI2|exact Hv|exact Hx|].
  { now replace (S (length shape - 1)) with (length shape) by lia. }
  exists acc. split; [rewrite Ec, Es, indexed_nat; exact E1|].
  unfold offset. now rewrite A1, A2, A3, E2.
Qed.
Print Assumptions C97_generated_access_partial.

(* The order [-1, 0, 1] is accepted and means velocity last; np.argsort puts the velocity
   first in the generated accesses: some are outside the buffer. *)
Theorem C97_negative_refuted : exists b shape s (c : container (V := Z)) k x acc,
  container_init 0 b shape (Some s) = Some c /\ StronglySorted Z.lt (tl s) /\
  in_shape (k :: x) shape /\ indexed_velocity_z (c_sorder c) k [0; 0] = Some acc /\
  ~ in_shape (map (sidx_eval x) acc) (fst (c_F c)).
Proof.
  exists CYTHON, [3; 5; 4], [-1; 0; 1].
  eexists. exists 2, [4; 3]. eexists.
  split; [apply (container_spec 0 CYTHON [3; 5; 4] [-1; 0; 1] [2; 0; 1]%nat); [|discriminate]|].
  { apply transpose_axes_spec. reflexivity. }
  split; [repeat constructor|]. split; [repeat constructor; lia|].
  split; [vm_compute; reflexivity|]. cbn [c_F fst].
  vm_compute. intros H. inversion H as [|? ? ? ? H1 H2]; subst. inversion H2 as [|? ? ? ? [_ H3] H4]; subst. discriminate H3.
Qed.
Print Assumptions C97_negative_refuted.

Lemma rowmajor_app sh nv k : forall x u, length x = length sh ->
  rowmajor_from u (sh ++ [nv]) (x ++ [k]) = rowmajor_from u sh x * nv + k.
Proof.
  induction sh as [|n sh IH]; intros [|a x] u H; cbn in H; try discriminate; [reflexivity|].
  cbn. apply IH. lia.
Qed.
Lemma rowmajor_onto sh : Forall (fun n => 0 < n) sh -> forall u r,
  u * fold_right Z.mul 1 sh <= r < (u + 1) * fold_right Z.mul 1 sh ->
  exists x, in_shape x sh /\ rowmajor_from u sh x = r.
Proof.
  induction 1 as [|n sh Hn HF IH]; intros u r Hr; cbn in Hr.
  - exists []. split; [constructor|cbn; lia].
  - set (P := fold_right Z.mul 1 sh) in *.
    assert (HP : 0 < P) by (unfold P; clear -HF; induction HF; cbn; lia).
    set (a := (r - u * n * P) / P).
    assert (Ha : P * a <= r - u * n * P < P * a + P).
    { unfold a. pose proof (Z.mul_div_le (r - u * n * P) P HP). pose proof (Z.mul_succ_div_gt (r - u * n * P) P HP). lia. }
    assert (0 <= a < n) by nia.
    destruct (IH (u * n + a) r) as (x & Hx & E); [fold P; nia|].
    exists (a :: x). split; [constructor; assumption|exact E].
Qed.

(* AOS.reshape: the row of a cell holds the values of this cell in the order of the
   velocities, and each row is the one of exactly one cell. *)
Theorem C97_reshape : forall (V : Type) (x : array (V := V)) nv size,
  a_shape x = nv :: size -> a_ind x = (length size :: seq 0 (length size)) -> Forall (fun n => 0 < n) size ->
  (forall i k, in_shape i size -> aos_reshape x (rowmajor size i) k = getitem x (k :: i)) /\
  (forall r, 0 <= r < fold_right Z.mul 1 size -> exists i, in_shape i size /\ rowmajor size i = r /\
     forall j, in_shape j size -> rowmajor size j = r -> j = i).
Proof.
  intros V x nv size E1 E2 Hp. split.
  - intros i k Hi. assert (Hl : length i = length size) by (eapply Forall2_length; exact Hi). unfold aos_reshape, getitem, offset. rewrite E1, E2. cbn [tl hd].
    assert (HA : forall m l, length l = length size -> scatter 0 (length size :: seq 0 (length size)) (m :: l) = l ++ [m]).
    { intros m l Hm. symmetry. apply scatter_unique; [cbn [length]; rewrite Hm; apply aos_order_of|rewrite app_length; cbn; lia|].
      intros [|i0] j E; cbn in E.
      - inversion E; subst j. rewrite nth_error_app2, Hm, Nat.sub_diag by lia. reflexivity.
      - assert (H0 : (i0 < length (seq 0 (length size)))%nat) by (apply nth_error_Some; congruence).
        rewrite seq_length in H0. rewrite nth_error_seq in E by exact H0. inversion E; subst j. cbn.
        now rewrite nth_error_app1 by lia. }
    rewrite (HA nv size eq_refl), (HA k i Hl). unfold rowmajor. rewrite (rowmajor_app size nv k i 0 Hl). cbn. f_equal.
  - intros r Hr. destruct (rowmajor_onto size Hp 0 r) as (i & Hi & E); [lia|].
    exists i. split; [exact Hi|]. split; [exact E|]. intros j Hj Ej.
    destruct (rowmajor_inj size j i 0 0 Hj Hi) as [_ H]; [unfold rowmajor in *; congruence|exact H].
Qed.
Print Assumptions C97_reshape.

(* Two space axes, nine velocities: the accepted and refused orders, the layout and a
   row of the view. *)
Example C97_example :
  (exists c, container_init 0 CYTHON [9; 6; 5] None = Some c /\ fst (c_Fnew c) = [6; 5; 9] /\ c_sorder c = [2; 0; 1]) /\
  (exists c, container_init 0 NUMPY [9; 6; 5] None = Some c /\ fst (c_F c) = [9; 6; 5] /\ c_sorder c = [0; 1; 2]) /\
  (exists c, container_init 0 NUMPY [9; 6; 5] (Some [1; 2; 0]) = Some c /\ fst (c_F c) = [5; 9; 6]) /\
  container_init 0 CYTHON [9; 6; 5] (Some [1; 0]) = None /\
  container_init 0 CYTHON [9; 6; 5] (Some [0; 1; 2; 3]) = None /\
  container_init 0 CYTHON [9; 6; 5] (Some [0; 1; 1]) = None /\
  aos_reshape (setitem (array_new 0 [2; 0; 1]%nat [9; 6; 5]) [8; 3; 2] 7) 17 8 = 7.
Proof.
  split; [eexists; split; [reflexivity|split; reflexivity]|].
  split; [eexists; split; [reflexivity|split; reflexivity]|].
  split; [eexists; split; reflexivity|].
  repeat split.
Qed.
