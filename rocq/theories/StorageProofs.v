(* Proofs about the storage: layout (C13) and ghost exchange (C12). *)
From Verif Require Import PyBase VelocityModel GridModel GridProofs StencilProofs StorageModel.
From Coq Require Import ZifyBool Sorting.Sorted Sorting.Permutation.
Ltac Zify.zify_post_hook ::= Z.div_mod_to_equations.
Open Scope Z_scope.

(* ------------------------------------------------------ scatter --------- *)
Definition is_order (ind : list nat) (n : nat) : Prop := Permutation ind (seq 0 n).

Lemma is_order_length ind n : is_order ind n -> length ind = n.
Proof. intros H. apply Permutation_length in H. now rewrite seq_length in H. Qed.
Lemma is_order_lt ind n i : is_order ind n -> In i ind -> (i < n)%nat.
Proof. intros H Hi. apply (Permutation_in _ H) in Hi. apply in_seq in Hi. lia. Qed.
Lemma is_order_in ind n i : is_order ind n -> (i < n)%nat -> In i ind.
Proof. intros H Hi. apply Permutation_sym in H. apply (Permutation_in _ H). apply in_seq. lia. Qed.
Lemma is_order_NoDup ind n : is_order ind n -> NoDup ind.
Proof. intros H. apply Permutation_sym in H. eapply Permutation_NoDup; [exact H|]. apply seq_NoDup. Qed.

Lemma scatter_fold {A} (ps : list (nat * A)) : forall out,
  NoDup (map fst ps) -> (forall p, In p ps -> (fst p < length out)%nat) ->
  let r := fold_left (fun out p => upd out (fst p) (snd p)) ps out in
  length r = length out /\
  (forall p, In p ps -> nth_error r (fst p) = Some (snd p)) /\
  (forall j, ~ In j (map fst ps) -> nth_error r j = nth_error out j).
Proof.
  cbv zeta. induction ps as [|[i x] ps IH]; intros out HN Hr; cbn [fold_left fst snd].
  - repeat split; auto. intros p [].
  - cbn in HN. inversion HN as [|? ? Hi HN']; subst.
    destruct (IH (upd out i x) HN') as (H1 & H2 & H3).
    { intros p Hp. rewrite upd_length. apply Hr. now right. }
    rewrite upd_length in H1. split; [exact H1|]. split.
    + intros p [<-|Hp]; [|auto]. cbn [fst snd]. rewrite H3 by exact Hi. apply upd_nth_same.
      apply (Hr (i, x)). now left.
    + intros j Hj. cbn in Hj. rewrite H3 by tauto. apply upd_nth_other. tauto.
Qed.

Lemma combine_nth_error {A B} (l : list A) (m : list B) i a b :
  nth_error l i = Some a -> nth_error m i = Some b -> nth_error (combine l m) i = Some (a, b).
Proof.
  revert m i. induction l as [|x l IH]; intros [|y m] [|i] H1 H2; cbn in *; try discriminate; [congruence|auto].
Qed.
Lemma map_fst_combine {A B} (l : list A) (m : list B) : length l = length m -> map fst (combine l m) = l.
Proof. revert m. induction l as [|a l IH]; intros [|b m] H; cbn in *; try discriminate; [reflexivity|]. f_equal. auto. Qed.

Lemma scatter_spec {A} (d : A) ind l : is_order ind (length l) ->
  length (scatter d ind l) = length l /\
  forall i j, nth_error ind i = Some j -> nth_error (scatter d ind l) j = nth_error l i.
Proof.
  intros H. pose proof (is_order_length _ _ H) as Hl.
  destruct (scatter_fold (combine ind l) (repeat d (length l))) as (H1 & H2 & H3).
  - rewrite map_fst_combine by exact Hl. eapply is_order_NoDup; eauto.
  - intros [i x] Hp. rewrite repeat_length. cbn. apply in_combine_l in Hp. eapply is_order_lt; eauto.
  - rewrite repeat_length in H1. split; [exact H1|].
    intros i j Hij. destruct (nth_error l i) as [x|] eqn:E.
    + apply (H2 (j, x)). eapply nth_error_In. eapply combine_nth_error; eauto.
    + exfalso. apply nth_error_None in E. assert (i < length ind)%nat by (apply nth_error_Some; congruence). lia.
Qed.

Lemma nth_error_ext {A} (l m : list A) : length l = length m ->
  (forall j, (j < length l)%nat -> nth_error l j = nth_error m j) -> l = m.
Proof.
  revert m. induction l as [|a l IH]; intros [|b m] Hl H; cbn in *; try discriminate; [reflexivity|].
  f_equal; [specialize (H 0%nat ltac:(lia)); cbn in H; congruence|]. apply IH; [lia|].
  intros j Hj. apply (H (S j)). lia.
Qed.

(* characterisation *)
Lemma scatter_unique {A} (d : A) ind l r : is_order ind (length l) -> length r = length l ->
  (forall i j, nth_error ind i = Some j -> nth_error r j = nth_error l i) -> r = scatter d ind l.
Proof.
  intros H Hl Hr. destruct (scatter_spec d ind l H) as [H1 H2].
  apply nth_error_ext; [lia|]. intros j Hj.
  assert (Hin : In j ind) by (eapply is_order_in; eauto; lia).
  apply In_nth_error in Hin. destruct Hin as [i Hi]. rewrite (Hr i j Hi), (H2 i j Hi). reflexivity.
Qed.

Lemma scatter_inj {A} (d : A) ind l m : is_order ind (length l) -> length l = length m ->
  scatter d ind l = scatter d ind m -> l = m.
Proof.
  intros H Hl E. destruct (scatter_spec d ind l H) as [_ H2].
  rewrite Hl in H. destruct (scatter_spec d ind m H) as [_ H3]. rewrite <- Hl in H.
  apply nth_error_ext; [exact Hl|]. intros i Hi.
  destruct (nth_error ind i) as [j|] eqn:Ej; [|apply nth_error_None in Ej; rewrite (is_order_length _ _ H) in Ej; lia].
  rewrite <- (H2 i j Ej), <- (H3 i j Ej), E. reflexivity.
Qed.

(* ------------------------------------------------------ rowmajor -------- *)
Definition in_shape (k shape : list Z) : Prop := Forall2 (fun x n => 0 <= x < n) k shape.

Lemma rowmajor_inj shape : forall a b u v, in_shape a shape -> in_shape b shape ->
  rowmajor_from u shape a = rowmajor_from v shape b -> u = v /\ a = b.
Proof.
  induction shape as [|n shape IH]; intros a b u v Ha Hb E; inversion Ha; inversion Hb; subst; cbn in E.
  - auto.
  - destruct (IH _ _ _ _ H3 H8 E) as [E1 E2]. assert (u = v) by (destruct (Z.lt_trichotomy u v) as [F|[F|F]]; [nia|exact F|nia]).
    subst v. assert (x = x0) by lia. split; congruence.
Qed.
Lemma rowmajor_range shape : forall a u, in_shape a shape -> 0 <= u ->
  0 <= rowmajor_from u shape a < (u + 1) * fold_right Z.mul 1 shape.
Proof.
  induction shape as [|n shape IH]; intros a u Ha Hu; inversion Ha; subst; cbn; [lia|].
  specialize (IH l (u * n + x) H3 ltac:(nia)).
  assert (0 <= fold_right Z.mul 1 shape).
  { clear -H3. induction H3; cbn; nia. }
  nia.
Qed.

Lemma scatter_in_shape ind k shape : is_order ind (length shape) -> in_shape k shape ->
  in_shape (scatter 0 ind k) (scatter 0 ind shape).
Proof.
  intros H Hk. assert (Hl : length k = length shape) by (eapply Forall2_length; eauto).
  destruct (scatter_spec 0 ind shape H) as [L1 S1].
  assert (H' : is_order ind (length k)) by (rewrite Hl; exact H).
  destruct (scatter_spec 0 ind k H') as [L2 S2].
  unfold in_shape.
  assert (HG : forall (a b : list Z), length a = length b ->
    (forall j x y, nth_error a j = Some x -> nth_error b j = Some y -> 0 <= x < y) ->
    Forall2 (fun x n => 0 <= x < n) a b).
  { clear. induction a as [|x a IH]; intros [|y b] Hl HH; try discriminate; constructor.
    - apply (HH 0%nat); reflexivity.
    - apply IH; [cbn in Hl; lia|]. intros j. apply (HH (S j)). }
  apply HG; [lia|]. intros j x y Hx Hy.
  assert (Hj : (j < length shape)%nat) by (rewrite <- L1; apply nth_error_Some; congruence).
  destruct (In_nth_error _ _ (is_order_in _ _ _ H Hj)) as [i Hi].
  rewrite (S1 i j Hi) in Hy. rewrite (S2 i j Hi) in Hx.
  clear -Hk Hx Hy. revert i Hx Hy. induction Hk as [|a b l m H1 H2 IH]; intros [|i] Hx Hy; cbn in *; try discriminate.
  - inversion Hx; inversion Hy; subst; auto.
  - eauto.
Qed.

(* ------------------------------------------------------ C13 ------------- *)
(* specification: a history of writes; the value is the last one written *)
Definition spec_read {V} (zero : V) (hist : list (list Z * V)) (k : list Z) : V :=
  fold_left (fun r w => if list_eq_dec Z.eq_dec (fst w) k then snd w else r) hist zero.
Definition run_writes {V} (x : @array V) (hist : list (list Z * V)) : @array V :=
  fold_left (fun x w => setitem x (fst w) (snd w)) hist x.

Lemma run_writes_meta {V} hist : forall (x : @array V),
  a_ind (run_writes x hist) = a_ind x /\ a_shape (run_writes x hist) = a_shape x.
Proof. unfold run_writes. induction hist as [|w h IH]; intros x; cbn; [auto|]. destruct (IH (setitem x (fst w) (snd w))). auto. Qed.

Lemma offset_inj {V} (x : @array V) k k' : is_order (a_ind x) (length (a_shape x)) ->
  in_shape k (a_shape x) -> in_shape k' (a_shape x) -> offset x k = offset x k' -> k = k'.
Proof.
  intros H Hk Hk' E. unfold offset, rowmajor in E.
  destruct (rowmajor_inj _ _ _ _ _ (scatter_in_shape _ _ _ H Hk) (scatter_in_shape _ _ _ H Hk') E) as [_ E2].
  assert (L1 : length k = length (a_shape x)) by (eapply Forall2_length; eauto).
  assert (L2 : length k' = length (a_shape x)) by (eapply Forall2_length; eauto).
  eapply scatter_inj; [|congruence|exact E2]. now rewrite L1.
Qed.

Lemma writes_read {V} (zero : V) ind shape hist k : is_order ind (length shape) ->
  Forall (fun w => in_shape (fst w) shape) hist -> in_shape k shape ->
  getitem (run_writes (array_new zero ind shape) hist) k = spec_read zero hist k.
Proof.
  intros H Hh Hk. unfold spec_read.
  assert (HG : forall hist (x : @array V) v, a_ind x = ind -> a_shape x = shape ->
    Forall (fun w => in_shape (fst w) shape) hist -> getitem x k = v ->
    getitem (run_writes x hist) k =
    fold_left (fun r w => if list_eq_dec Z.eq_dec (fst w) k then snd w else r) hist v).
  { clear hist Hh. induction hist as [|w h IH]; intros x v E1 E2 Hh Hv; cbn [run_writes fold_left]; [exact Hv|].
    inversion Hh as [|? ? Hw Hh']; subst.
    apply IH; [reflexivity|reflexivity|exact Hh'|].
    assert (EG : getitem (setitem x (fst w) (snd w)) k =
                 if offset x k =? offset x (fst w) then snd w else getitem x k) by reflexivity.
    rewrite EG. destruct (list_eq_dec Z.eq_dec (fst w) k) as [E|NE].
    - subst k. now rewrite Z.eqb_refl.
    - destruct (offset x k =? offset x (fst w)) eqn:E; [|reflexivity].
      exfalso. apply NE. symmetry. apply (offset_inj x); auto. lia. }
  apply HG; auto.
Qed.

(* ------------------------------------------------------ set_order ------- *)
Lemma arginsert_perm key i l : Permutation (arginsert key i l) (i :: l).
Proof.
  induction l as [|j l IH]; cbn; [reflexivity|]. destruct (key i <=? key j); [reflexivity|].
  rewrite IH. apply perm_swap.
Qed.
Lemma argsort_perm p : Permutation (argsort p) (seq 0 (length p)).
Proof.
  unfold argsort. generalize (seq 0 (length p)) as l. induction l as [|i l IH]; cbn; [reflexivity|].
  rewrite arginsert_perm. now constructor.
Qed.
Lemma arginsert_sorted key i l : StronglySorted (fun a b => key a <= key b) l ->
  StronglySorted (fun a b => key a <= key b) (arginsert key i l).
Proof.
  induction 1 as [|j l H IH HF]; cbn; [repeat constructor|].
  destruct (key i <=? key j) eqn:E.
  - constructor; [constructor; assumption|]. constructor; [lia|].
    eapply Forall_impl; [|exact HF]. cbn. intros; lia.
  - constructor; [exact IH|]. apply Forall_forall. intros x Hx.
    apply (Permutation_in _ (arginsert_perm key i l)) in Hx. rewrite Forall_forall in HF.
    destruct Hx as [<-|Hx]; [lia|auto].
Qed.
Lemma argsort_sorted p : StronglySorted (fun a b => nth a p 0 <= nth b p 0) (argsort p).
Proof.
  unfold argsort. generalize (seq 0 (length p)) as l. induction l as [|i l IH]; cbn; [constructor|].
  now apply (arginsert_sorted (fun i => nth i p 0)).
Qed.

(* sorted permutation of 0..n-1 is 0..n-1 *)
Lemma sorted_seq l n : Permutation l (map Z.of_nat (seq 0 n)) -> StronglySorted Z.le l -> l = map Z.of_nat (seq 0 n).
Proof.
  intros HP HS.
  assert (HS2 : StronglySorted Z.le (map Z.of_nat (seq 0 n))).
  { clear. generalize 0%nat as s. induction n as [|n IH]; intros s; cbn; constructor; auto.
    apply Forall_forall. intros x Hx. apply in_map_iff in Hx. destruct Hx as (y & <- & Hy). apply in_seq in Hy. lia. }
  revert HP HS2. generalize (map Z.of_nat (seq 0 n)) as m. clear n.
  induction HS as [|x l HS IH HF]; intros m HP HS2.
  - apply Permutation_nil in HP. congruence.
  - inversion HS2 as [|y m' HS2' HF2]; subst.
    + apply Permutation_sym, Permutation_nil in HP. discriminate.
    + rewrite Forall_forall in HF, HF2.
      assert (x = y).
      { assert (In x (y :: m')) by (eapply Permutation_in; [exact HP|now left]).
        assert (In y (x :: l)) by (eapply Permutation_in; [apply Permutation_sym; exact HP|now left]).
        destruct H as [->|Hx]; [reflexivity|]. destruct H0 as [->|Hy]; [reflexivity|].
        apply HF2 in Hx. apply HF in Hy. lia. }
      subst y. f_equal. apply IH; [|exact HS2']. eapply Permutation_cons_inv; eauto.
Qed.

Lemma map_nth_seq (p : list Z) : map (fun i => nth i p 0) (seq 0 (length p)) = p.
Proof.
  apply nth_error_ext; [now rewrite map_length, seq_length|].
  intros j Hj. rewrite map_length, seq_length in Hj. rewrite nth_error_map, nth_error_seq by exact Hj. cbn.
  symmetry. now apply nth_error_nth'.
Qed.

Lemma argsort_order p n : is_order p n ->
  is_order (argsort (map Z.of_nat p)) n /\
  forall j s, nth_error (argsort (map Z.of_nat p)) j = Some s -> nth_error p s = Some j.
Proof.
  intros H. pose proof (is_order_length _ _ H) as Hl.
  pose proof (argsort_perm (map Z.of_nat p)) as HP. rewrite map_length, Hl in HP.
  split; [exact HP|].
  set (q := map Z.of_nat p) in *.
  assert (E : map (fun i => nth i q 0) (argsort q) = map Z.of_nat (seq 0 n)).
  { apply sorted_seq.
    - rewrite HP. replace n with (length q) at 1 by (unfold q; rewrite map_length; exact Hl).
      rewrite map_nth_seq. unfold q. now apply Permutation_map.
    - pose proof (argsort_sorted q) as HS. clear -HS. induction HS as [|a l HS IH HF]; cbn; constructor; auto.
      apply Forall_forall. intros x Hx. apply in_map_iff in Hx. destruct Hx as (y & <- & Hy).
      rewrite Forall_forall in HF. auto. }
  intros j s Hj.
  assert (Hs : (s < n)%nat).
  { apply nth_error_In in Hj. apply (Permutation_in _ HP) in Hj. apply in_seq in Hj. lia. }
  assert (Hjn : (j < n)%nat).
  { assert (j < length (argsort q))%nat by (apply nth_error_Some; congruence).
    rewrite (Permutation_length HP), seq_length in H0. exact H0. }
  assert (E2 : nth_error (map (fun i => nth i q 0) (argsort q)) j = Some (Z.of_nat j)).
  { rewrite E, nth_error_map, nth_error_seq by exact Hjn. reflexivity. }
  rewrite nth_error_map, Hj in E2. cbn in E2. inversion E2 as [E3].
  unfold q in E3. destruct (nth_error p s) as [y|] eqn:Ey; [|apply nth_error_None in Ey; lia].
  f_equal. apply (map_nth_error Z.of_nat) in Ey. apply (nth_error_nth _ _ 0) in Ey.
  rewrite Ey in E3. lia.
Qed.

Lemma gather_spec {A} (arr : list A) ps : (forall p, In p ps -> (p < length arr)%nat) ->
  exists r, gather arr ps = Some r /\ length r = length ps /\
    forall j p, nth_error ps j = Some p -> nth_error r j = nth_error arr p.
Proof.
  induction ps as [|p ps IH]; intros H; cbn.
  - exists []. repeat split. intros [|j]; discriminate.
  - destruct (nth_error arr p) as [x|] eqn:E; [|apply nth_error_None in E; specialize (H p (or_introl eq_refl)); lia].
    destruct IH as (r & -> & Hl & Hr); [intros; apply H; now right|].
    exists (x :: r). split; [reflexivity|]. split; [cbn; lia|].
    intros [|j] q Hq; cbn in *; [congruence|auto].
Qed.

Lemma set_order_scatter {A} (d : A) (arr : list A) p : p <> [] -> is_order p (length arr) ->
  set_order arr p = Some (scatter d p arr).
Proof.
  intros Hne H. unfold set_order. destruct p as [|p0 p']; [congruence|]. set (p := p0 :: p') in *.
  destruct (argsort_order p _ H) as [HO HS].
  destruct (gather_spec arr (argsort (map Z.of_nat p))) as (r & -> & Hl & Hr).
  { intros q Hq. eapply is_order_lt; eauto. }
  f_equal. apply scatter_unique; [exact H|rewrite Hl; eapply is_order_length; eauto|].
  intros i j Hij.
  assert (Hj : (j < length arr)%nat) by (apply (is_order_lt p _ j H); eapply nth_error_In; exact Hij).
  destruct (nth_error (argsort (map Z.of_nat p)) j) as [s|] eqn:Es.
  - rewrite (Hr j s Es). assert (s = i); [|congruence].
    apply HS in Es. apply (proj1 (NoDup_nth_error p) (is_order_NoDup _ _ H)); [|congruence].
    apply nth_error_Some. congruence.
  - apply nth_error_None in Es. rewrite (is_order_length _ _ HO) in Es. lia.
Qed.

(* ------------------------------------------------------ generated access - *)
(* The spatial part of a storage order is increasing. *)
Definition increasing (l : list nat) : Prop := StronglySorted lt l.

Lemma gather_incr_seq (m : nat) (p : list nat) : increasing p -> length p = m -> argsort (map Z.of_nat p) = seq 0 m.
Proof.
  intros HI Hl. subst m. unfold argsort. rewrite map_length.
  assert (HK : forall i j, (i < j < length p)%nat -> nth i (map Z.of_nat p) 0 < nth j (map Z.of_nat p) 0).
  { clear -HI. intros i j. revert i j. induction HI as [|a l HI IH HF]; intros i j Hij; cbn in Hij; [lia|].
    destruct j as [|j]; [lia|]. cbn. destruct i as [|i]; [|apply IH; lia].
    rewrite Forall_forall in HF. rewrite (nth_indep _ 0 (Z.of_nat 0)) by (rewrite map_length; lia).
    rewrite map_nth. specialize (HF (nth j l 0%nat) ltac:(apply nth_In; lia)). lia. }
  assert (HG : forall n s, (s + n <= length p)%nat ->
    fold_right (arginsert (fun i => nth i (map Z.of_nat p) 0)) [] (seq s n) = seq s n).
  { induction n as [|n IH]; intros s Hs; [reflexivity|]. cbn [seq fold_right]. rewrite IH by lia.
    destruct n as [|n]; [reflexivity|]. cbn [seq arginsert].
    pose proof (HK s (S s) ltac:(lia)). replace (_ <=? _) with true by lia. reflexivity. }
  apply HG. lia.
Qed.

(* The loop variable which walks along logical axis d in the generated accesses. *)
Definition loop_of_axis (sorder : list nat) (acc : list sidx) (d : nat) : option sidx :=
  match nth_error sorder (S d) with Some j => nth_error acc j | None => None end.

Lemma add_shift_spec si v : (length v <= length si)%nat -> exists r, add_shift si v = Some r /\
  length r = length v /\
  forall d s c, nth_error si d = Some s -> nth_error v d = Some c -> nth_error r d = Some (SLoop s c).
Proof.
  revert si. induction v as [|c v IH]; intros si Hl.
  - exists []. split; [reflexivity|]. split; [reflexivity|]. intros [|d] s c _ H; discriminate.
  - destruct si as [|s si]; [cbn in Hl; lia|]. cbn.
    destruct (IH si) as (r & -> & Hr & HH); [cbn in Hl; lia|].
    exists (SLoop s c :: r). split; [reflexivity|]. split; [cbn; lia|].
    intros [|d] s' c' H1 H2; cbn in *; [congruence|]. eapply HH; eauto.
Qed.

Lemma argsort_perm_in p i : In i (argsort p) <-> (i < length p)%nat.
Proof.
  split; intros H.
  - apply (Permutation_in _ (argsort_perm p)) in H. apply in_seq in H. lia.
  - apply (Permutation_in _ (Permutation_sym (argsort_perm p))). apply in_seq. lia.
Qed.

Lemma space_idx_spec sorder dim : (1 <= dim <= 3)%nat -> is_order sorder (S dim) ->
  space_idx sorder = Some (argsort (map Z.of_nat (tl sorder))).
Proof.
  intros Hd H. pose proof (is_order_length _ _ H) as Hl.
  destruct sorder as [|s0 [|s1 t]]; cbn in Hl; try lia.
  unfold space_idx, set_order. cbn [tl].
  set (p := argsort (map Z.of_nat (s1 :: t))).
  assert (Hp : forall q, In q p -> (q < dim)%nat).
  { intros q Hq. apply argsort_perm_in in Hq. rewrite map_length in Hq. cbn in Hq. lia. }
  destruct (gather_spec [0; 1; 2]%nat p) as (r & E & Hr & HH).
  { intros q Hq. apply Hp in Hq. cbn. lia. }
  change (argsort (map Z.of_nat (s1 :: t))) with p. rewrite E. f_equal.
  apply nth_error_ext; [exact Hr|]. intros j Hj. rewrite Hr in Hj.
  destruct (nth_error p j) as [q|] eqn:Eq; [|apply nth_error_None in Eq; lia].
  rewrite (HH j q Eq). assert (Hq : (q < 3)%nat) by (apply nth_error_In in Eq; apply Hp in Eq; lia).
  destruct q as [|[|[|q]]]; try lia; reflexivity.
Qed.

Lemma access_spec sorder dim k v : (1 <= dim <= 3)%nat -> is_order sorder (S dim) -> length v = dim ->
  exists l, length l = dim /\ indexed_velocity sorder k v = Some (scatter (SVel 0) sorder (SVel k :: l)) /\
    forall d c, nth_error v d = Some c ->
      exists s, nth_error (argsort (map Z.of_nat (tl sorder))) d = Some s /\ nth_error l d = Some (SLoop s c).
Proof.
  intros Hd H Hv. unfold indexed_velocity. rewrite (space_idx_spec _ dim Hd H).
  pose proof (is_order_length _ _ H) as Hl.
  assert (HLs : length (argsort (map Z.of_nat (tl sorder))) = dim).
  { rewrite (Permutation_length (argsort_perm _)), seq_length, map_length.
    destruct sorder; cbn in *; lia. }
  destruct (add_shift_spec (argsort (map Z.of_nat (tl sorder))) v) as (l & -> & Hll & HH); [lia|].
  exists l. split; [lia|]. split.
  - apply set_order_scatter; [destruct sorder; discriminate|]. cbn [length]. rewrite Hll, Hv. exact H.
  - intros d c Hc. assert (d < dim)%nat by (rewrite <- Hv; apply nth_error_Some; congruence).
    destruct (nth_error (argsort (map Z.of_nat (tl sorder))) d) as [s|] eqn:Es; [|apply nth_error_None in Es; lia].
    exists s. split; [reflexivity|]. eapply HH; eauto.
Qed.

(* value of a symbolic index, the loop variables being x *)
Definition sidx_eval (x : list Z) (i : sidx) : Z :=
  match i with SVel k => k | SLoop n s => nth n x 0 + s end.

Fixpoint zip_add (x v : list Z) : list Z :=
  match x, v with a :: x', b :: v' => (a + b) :: zip_add x' v' | _, _ => [] end.

Lemma map_scatter {A B} (f : A -> B) d ind l : is_order ind (length l) ->
  map f (scatter d ind l) = scatter (f d) ind (map f l).
Proof.
  intros H. destruct (scatter_spec d ind l H) as [H1 H2].
  apply scatter_unique; [now rewrite map_length|now rewrite !map_length|].
  intros i j Hij. now rewrite !nth_error_map, (H2 i j Hij).
Qed.

Lemma increasing_argsort p n : length p = n -> increasing p -> argsort (map Z.of_nat p) = seq 0 n.
Proof. intros. now apply gather_incr_seq. Qed.

Lemma access_increasing sorder dim k v x : (1 <= dim <= 3)%nat -> is_order sorder (S dim) ->
  increasing (tl sorder) -> length v = dim -> length x = dim ->
  exists acc, indexed_velocity sorder k v = Some acc /\
    map (sidx_eval x) acc = scatter 0 sorder (k :: zip_add x v).
Proof.
  intros Hd H HI Hv Hx. destruct (access_spec sorder dim k v Hd H Hv) as (l & Hl & E & HH).
  eexists. split; [exact E|]. rewrite map_scatter by (cbn [length]; rewrite Hl; exact H).
  cbn [sidx_eval map]. pose proof (is_order_length _ _ H) as Hso.
  assert (Hz : forall x v : list Z, length x = length v -> length (zip_add x v) = length v).
  { clear. induction x as [|a x IH]; intros [|b v] Hl; cbn in *; try lia. rewrite IH; lia. }
  assert (Hzn : forall x v d a b, nth_error x d = Some a -> nth_error v d = Some b -> nth_error (zip_add x v) d = Some (a + b)).
  { clear. induction x as [|a x IH]; intros [|b v] [|d] a' b' H1 H2; cbn in *; try discriminate; [congruence|eauto]. }
  assert (El : map (sidx_eval x) l = zip_add x v); [|now rewrite El].
  apply nth_error_ext; [rewrite map_length, Hz; lia|].
  intros d Hdl. rewrite map_length, Hl in Hdl. rewrite nth_error_map.
  destruct (nth_error v d) as [c|] eqn:Ec; [|apply nth_error_None in Ec; lia].
  destruct (nth_error x d) as [a|] eqn:Ea; [|apply nth_error_None in Ea; lia].
  destruct (HH d c Ec) as (s & Hs & ->). rewrite (increasing_argsort _ dim) in Hs by (auto; destruct sorder; cbn in *; lia).
  rewrite nth_error_seq in Hs by exact Hdl. inversion Hs; subst s. cbn.
  rewrite (Hzn x v d a c Ea Ec). now rewrite (nth_error_nth _ _ 0 Ea).
Qed.

(* the loop variable of each axis is the one with the bounds of this axis, for
   all axes, exactly when the spatial part of the order is increasing *)
Lemma loops_iff sorder dim k v acc : (1 <= dim <= 3)%nat -> is_order sorder (S dim) -> length v = dim ->
  indexed_velocity sorder k v = Some acc ->
  ((forall d, (d < dim)%nat -> exists c, loop_of_axis sorder acc d = Some (SLoop d c)) <-> increasing (tl sorder)).
Proof.
  intros Hd H Hv HE. destruct (access_spec sorder dim k v Hd H Hv) as (l & Hl & E & HH).
  rewrite E in HE. inversion HE; subst acc. clear HE.
  pose proof (is_order_length _ _ H) as Hso.
  assert (HS : is_order sorder (length (SVel k :: l))) by (cbn; rewrite Hl; exact H).
  destruct (scatter_spec (SVel 0) sorder (SVel k :: l) HS) as [_ HN].
  assert (HT : length (tl sorder) = dim) by (destruct sorder; cbn in *; lia).
  assert (HA : forall d, (d < dim)%nat -> exists s c,
     nth_error (argsort (map Z.of_nat (tl sorder))) d = Some s /\ nth_error v d = Some c /\
     loop_of_axis sorder (scatter (SVel 0) sorder (SVel k :: l)) d = Some (SLoop s c)).
  { intros d Hdd. destruct (nth_error v d) as [c|] eqn:Ec; [|apply nth_error_None in Ec; lia].
    destruct (HH d c Ec) as (s & Hs & Hls). exists s, c. split; [exact Hs|]. split; [reflexivity|].
    unfold loop_of_axis. destruct (nth_error sorder (S d)) as [j|] eqn:Ej; [|apply nth_error_None in Ej; lia].
    rewrite (HN (S d) j Ej). exact Hls. }
  split.
  - intros HL.
    assert (EA : argsort (map Z.of_nat (tl sorder)) = seq 0 dim).
    { apply nth_error_ext.
      - rewrite (Permutation_length (argsort_perm _)), map_length. now rewrite HT, !seq_length.
      - intros d Hdl. rewrite (Permutation_length (argsort_perm _)), seq_length, map_length, HT in Hdl.
        destruct (HA d Hdl) as (s & c & Hs & _ & HLo). destruct (HL d Hdl) as (c' & HLo').
        rewrite nth_error_seq by exact Hdl. rewrite Hs. f_equal. rewrite HLo in HLo'. inversion HLo'. reflexivity. }
    pose proof (argsort_sorted (map Z.of_nat (tl sorder))) as HSo. rewrite EA in HSo.
    assert (HND : NoDup (tl sorder)).
    { apply is_order_NoDup in H. destruct sorder; [constructor|]. now inversion H. }
    set (t := tl sorder) in *. clear -HSo HND HT.
    assert (HK : forall i j, (i < j < dim)%nat -> nth i (map Z.of_nat t) 0 <= nth j (map Z.of_nat t) 0).
    { intros i j Hij.
      assert (HG : forall n s i j, StronglySorted (fun a b => nth a (map Z.of_nat t) 0 <= nth b (map Z.of_nat t) 0) (seq s n) ->
         (s <= i < j)%nat -> (j < s + n)%nat -> nth i (map Z.of_nat t) 0 <= nth j (map Z.of_nat t) 0).
      { clear. induction n as [|n IH]; intros s i j HS Hi Hj; [lia|]. cbn in HS. inversion HS as [|? ? HS' HF]; subst.
        destruct (Nat.eq_dec i s) as [->|Hne].
        - rewrite Forall_forall in HF. apply HF. apply in_seq. lia.
        - apply (IH (S s)); auto; lia. }
      apply (HG dim 0%nat); auto; lia. }
    clear HSo. subst dim. unfold increasing. induction t as [|a t IH]; [constructor|].
    inversion HND as [|? ? Ha HND']; subst.
    constructor.
    + apply IH; [exact HND'|]. intros i j Hij. apply (HK (S i) (S j)). cbn. lia.
    + apply Forall_forall. intros b Hb. apply In_nth_error in Hb as Hb'. destruct Hb' as [j Hj].
      assert (Hjl : (j < length t)%nat) by (apply nth_error_Some; congruence).
      specialize (HK 0%nat (S j) ltac:(cbn; lia)). cbn in HK.
      apply (map_nth_error Z.of_nat) in Hj. apply (nth_error_nth _ _ 0) in Hj. rewrite Hj in HK.
      assert (a <> b) by (intros ->; contradiction). lia.
  - intros HI d Hdd. destruct (HA d Hdd) as (s & c & Hs & _ & HLo).
    rewrite (increasing_argsort _ dim) in Hs by auto. rewrite nth_error_seq in Hs by exact Hdd.
    inversion Hs; subst s. eauto.
Qed.
