(* Lemmas about the HDF5 file (C35, C36). *)
From Verif Require Import PyBase GridModel GridProofs StorageModel StorageProofs GlobalModel GlobalProofs Hdf5Model.
From Coq Require Import ZifyBool QArith.
Ltac Zify.zify_post_hook ::= Z.div_mod_to_equations.
Open Scope Z_scope.

(* ---- lists ---- *)
Lemma Forall2_rev' {A B} (R : A -> B -> Prop) l m : Forall2 R l m -> Forall2 R (rev l) (rev m).
Proof. induction 1; cbn; [constructor|]. apply Forall2_app; auto. Qed.
Lemma Forall2_rev_iff {A B} (R : A -> B -> Prop) l m : Forall2 R (rev l) (rev m) <-> Forall2 R l m.
Proof. split; intros H; apply Forall2_rev' in H; rewrite ?rev_involutive in H; auto. Qed.
Lemma map2_rev {A B C} (f : A -> B -> C) l m : length l = length m -> map2 f (rev l) (rev m) = rev (map2 f l m).
Proof.
  revert m. induction l as [|x l IH]; intros [|y m] H; try discriminate; [reflexivity|].
  cbn in H. cbn [rev]. unfold map2. cbn [combine map rev].
  assert (L : length (rev l) = length (rev m)) by (rewrite !rev_length; lia).
  fold (map2 f l m). rewrite <- IH by lia. unfold map2. rewrite <- map_app with (l' := [(x, y)]). f_equal.
  clear -L. revert L. generalize (rev l) (rev m). induction l0 as [|a l0 IH]; intros [|b m0] L; try discriminate; cbn; auto.
  f_equal. apply IH. cbn in L. lia.
Qed.
Lemma in_slices_iff sl i : in_slices sl i = true <-> Forall2 (fun s x => fst s <= x < snd s) sl i.
Proof.
  revert i. induction sl as [|[a b] sl IH]; intros [|x i]; cbn; split; intros H; try discriminate; try (now inversion H); auto.
  - apply andb_prop in H as [H1 H2]. apply andb_prop in H1 as [H0 H1]. constructor; [cbn; lia|]. now apply IH.
  - inversion H; subst. cbn in *. apply andb_true_intro. split; [lia|]. now apply IH.
Qed.
Lemma Forall2_swap {A B} (R : A -> B -> Prop) l m : Forall2 R l m <-> Forall2 (fun b a => R a b) m l.
Proof. split; induction 1; constructor; auto. Qed.

(* ---- ranks and process coordinates ---- *)
Lemma nprod_pos P : Forall (fun p => (1 <= p)%nat) P -> (1 <= nprod P)%nat.
Proof. induction 1 as [|p P Hp HP IH]; [cbn; lia|]. change (1 <= p * nprod P)%nat. nia. Qed.
Lemma cart_length P : forall r, length (cart_coords P r) = length P.
Proof. induction P; intros; cbn; auto. Qed.
Lemma cart_surj P : Forall (fun p => (1 <= p)%nat) P -> forall c, Forall2 (fun k p => (k < p)%nat) c P ->
  exists r, (r < nprod P)%nat /\ cart_coords P r = c.
Proof.
  induction 1 as [|p P Hp HP IH]; intros c Hc; inversion Hc as [|k p' c' P' Hk Hc']; subst.
  - exists 0%nat. cbn. split; [lia|reflexivity].
  - destruct (IH c' Hc') as (r & Hr & E). exists (k * nprod P + r)%nat. cbn [nprod fold_right]. fold (nprod P).
    split; [nia|]. cbn [cart_coords].
    replace ((k * nprod P + r) / nprod P)%nat with k.
    2:{ rewrite Nat.div_add_l by lia. rewrite Nat.div_small by lia. lia. }
    rewrite Nat.mod_small by lia. f_equal.
    rewrite Nat.add_comm, Nat.mod_add by lia. rewrite Nat.mod_small by lia. exact E.
Qed.
Lemma cart_inj P : Forall (fun p => (1 <= p)%nat) P -> forall r s, (r < nprod P)%nat -> (s < nprod P)%nat ->
  cart_coords P r = cart_coords P s -> r = s.
Proof.
  induction 1 as [|p P Hp HP IH]; intros r s Hr Hs E.
  - cbn in *. lia.
  - cbn [nprod fold_right] in Hr, Hs. fold (nprod P) in Hr, Hs. cbn [cart_coords] in E.
    assert (N := nprod_pos P HP).
    assert (DR : (r / nprod P < p)%nat) by (apply Nat.div_lt_upper_bound; nia).
    assert (DS : (s / nprod P < p)%nat) by (apply Nat.div_lt_upper_bound; nia).
    assert (E1 := f_equal (fun l => hd 0%nat l) E). assert (E2 := f_equal (fun l => tl l) E). cbn [hd tl] in E1, E2.
    rewrite !Nat.mod_small in E1 by lia. apply IH in E2; [|apply Nat.mod_upper_bound; lia|apply Nat.mod_upper_bound; lia].
    rewrite (Nat.div_mod r (nprod P)), (Nat.div_mod s (nprod P)) by lia. congruence.
Qed.
Lemma cart_lt P : Forall (fun p => (1 <= p)%nat) P -> forall r, Forall2 (fun k p => (k < p)%nat) (cart_coords P r) P.
Proof.
  induction 1 as [|p P Hp HP IH]; intros r; cbn [cart_coords]; constructor; auto. apply Nat.mod_upper_bound. lia.
Qed.

(* ---- the message ---- *)
Lemma rowmajor_acc shape : forall u a, in_shape a shape ->
  rowmajor_from u shape a = u * fold_right Z.mul 1 shape + rowmajor shape a.
Proof.
  unfold rowmajor. induction shape as [|n shape IH]; intros u a H; inversion H; subst; cbn; [lia|].
  rewrite IH by auto. rewrite (IH x) by auto. nia.
Qed.
Lemma zrange_length lo hi : length (zrange lo hi) = Z.to_nat (hi - lo).
Proof. unfold zrange. now rewrite map_length, seq_length. Qed.
Lemma nested_length shape : Forall (fun n => 0 <= n) shape ->
  Z.of_nat (length (nested (map (zrange 0) shape))) = fold_right Z.mul 1 shape.
Proof.
  induction 1 as [|n shape Hn H IH]; cbn [map nested fold_right]; [reflexivity|].
  assert (G : forall r, length (flat_map (fun x => map (cons x) (nested (map (zrange 0) shape))) r) =
                        (length r * length (nested (map (zrange 0) shape)))%nat).
  { induction r; cbn; auto. rewrite app_length, map_length, IHr. lia. }
  rewrite G, zrange_length. rewrite Nat2Z.inj_mul, IH. lia.
Qed.
Lemma nth_flat {A} (N : Z -> list A) (k : nat) (d : A) : forall (r : list Z) (i j : nat),
  (forall x, length (N x) = k) -> (i < length r)%nat -> (j < k)%nat ->
  nth (i * k + j) (flat_map N r) d = nth j (N (nth i r 0)) d.
Proof.
  induction r as [|x r IH]; intros i j HN Hi Hj; cbn in Hi; [lia|]. cbn [flat_map].
  destruct i as [|i].
  - rewrite app_nth1 by (rewrite HN; lia). reflexivity.
  - rewrite app_nth2 by (rewrite HN; lia). rewrite HN. cbn [nth].
    replace (S i * k + j - k)%nat with (i * k + j)%nat by lia. apply IH; auto. lia.
Qed.
Lemma nested_nth shape : Forall (fun n => 0 <= n) shape -> forall a, in_shape a shape ->
  nth (Z.to_nat (rowmajor shape a)) (nested (map (zrange 0) shape)) [] = a.
Proof.
  induction 1 as [|n shape Hn H IH]; intros a Ha; inversion Ha as [|x n' a' s' Hx Ha']; subst; [reflexivity|].
  cbn [map nested]. unfold rowmajor. cbn [rowmajor_from]. rewrite rowmajor_acc by auto.
  assert (NL := nested_length shape H). set (N := nested (map (zrange 0) shape)) in *.
  pose proof (rowmajor_range shape a' 0 Ha' ltac:(lia)) as RR. fold (rowmajor shape a') in RR.
  rewrite <- NL in *. rewrite Z2Nat.inj_add by nia. replace (0 * n + x) with x by lia.
  rewrite Z2Nat.inj_mul by lia. rewrite Nat2Z.id.
  rewrite (nth_flat (fun x => map (cons x) N) (length N)).
  - unfold zrange at 1. rewrite Z.sub_0_r.
    rewrite (nth_indep _ 0 (0 + Z.of_nat 0)) by (rewrite map_length, seq_length; lia).
    rewrite (map_nth (fun k : nat => 0 + Z.of_nat k)). rewrite seq_nth by lia.
    replace (0 + Z.of_nat (0 + Z.to_nat x)) with x by lia.
    rewrite (nth_indep _ [] (x :: [])) by (rewrite map_length; lia). rewrite (map_nth (cons x)). f_equal. now apply IH.
  - intros. now rewrite map_length.
  - rewrite zrange_length. lia.
  - lia.
Qed.
Lemma received_message {V} (u : V) (f : data V) j : Forall (fun n => 0 <= n) (t_shape f) ->
  in_shape j (rev (t_shape f)) -> received u (rev (t_shape f)) (message f) j = t_val f (rev j).
Proof.
  intros H Hj. unfold received, message.
  assert (H' : Forall (fun n => 0 <= n) (rev (t_shape f))) by now apply Forall_rev.
  assert (NL := nested_length _ H'). pose proof (rowmajor_range _ j 0 Hj ltac:(lia)) as RR. fold (rowmajor (rev (t_shape f)) j) in RR.
  rewrite (nth_indep _ u (transpose f [])) by (rewrite map_length; lia).
  rewrite (map_nth (transpose f)). unfold transpose. now rewrite nested_nth.
Qed.

(* ---- the regions ---- *)
Definition pieces_ok {X} (n : Z) (p : nat) (l : list (list X)) : Prop :=
  length l = p /\ forall c, (c < p)%nat ->
    exists a b, region1 n p c = Some (a, b) /\ zlen (nth c l []) = b - a.
Lemma cumulate_nth l : forall acc j, (j < length l)%nat ->
  nth j (cumulate acc l) 0 = acc + fold_right Z.add 0 (firstn (S j) l).
Proof.
  induction l as [|n l IH]; intros acc j H; cbn in H; [lia|]. cbn [cumulate].
  destruct j as [|j]; [cbn; lia|]. cbn [nth]. rewrite IH by lia. cbn [firstn fold_right]. lia.
Qed.
Lemma region_nth {X} n p (l : list (list X)) : 0 <= n -> (1 <= p)%nat -> pieces_ok n p l ->
  forall j, (j <= p)%nat -> nth j (region_of (map zlen l)) 0 = bound n (Z.of_nat p) (Z.of_nat j) /\
    fold_right Z.add 0 (firstn j (map zlen l)) = bound n (Z.of_nat p) (Z.of_nat j).
Proof.
  intros Hn Hp [L H].
  assert (S : forall j, (j <= p)%nat -> fold_right Z.add 0 (firstn j (map zlen l)) = bound n (Z.of_nat p) (Z.of_nat j)).
  { induction j as [|j IH]; intros Hj; [cbn; symmetry; apply bound_0; lia|].
    assert (A : firstn (S j) (map zlen l) = firstn j (map zlen l) ++ [zlen (nth j l [])]).
    { rewrite <- (firstn_skipn j (map zlen l)) at 1. rewrite firstn_app.
      rewrite (firstn_all2 (n := S j)) by (rewrite firstn_length; lia).
      rewrite firstn_length, map_length, Nat.min_l by lia. replace (S j - j)%nat with 1%nat by lia. f_equal.
      rewrite skipn_map. destruct (skipn j l) as [|c t] eqn:E.
      - apply (f_equal (@length _)) in E. rewrite skipn_length in E. cbn in E. lia.
      - cbn. f_equal. f_equal. rewrite <- (firstn_skipn j l) at 1. rewrite E.
        rewrite app_nth2 by (rewrite firstn_length; lia). rewrite firstn_length, Nat.min_l by lia. now rewrite Nat.sub_diag. }
    rewrite A, fold_right_app. cbn [fold_right].
    assert (G : forall m z, fold_right Z.add z m = fold_right Z.add 0 m + z) by (induction m; intros; cbn; [lia|rewrite IHm; lia]).
    rewrite G, IH by lia. destruct (H j ltac:(lia)) as (a & b & R & E). rewrite region1_eq in R by lia. inversion R; subst a b.
    rewrite E. replace (Z.of_nat (S j)) with (Z.of_nat j + 1) by lia. lia. }
  intros j Hj. split; [|now apply S]. destruct j as [|j]; [cbn; symmetry; apply bound_0; lia|].
  unfold region_of. cbn [nth]. rewrite cumulate_nth by (rewrite map_length; lia). rewrite S by lia. lia.
Qed.
Lemma regions_eq {X} ns P (pieces : list (list (list X))) :
  Forall (fun n => 0 <= n) ns -> Forall (fun p => (1 <= p)%nat) P -> length ns = length P -> length pieces = length P ->
  (forall d, (d < length P)%nat -> pieces_ok (nth d ns 0) (nth d P 0%nat) (nth d pieces [])) ->
  forall c, Forall2 (fun k p => (k < p)%nat) c P ->
  get_region ns P c = Some (map2 (fun reg c => (nth c reg 0, nth (S c) reg 0)) (map (fun l => region_of (map zlen l)) pieces) c)
  /\ map (fun l => fold_right Z.add 0 (map zlen l)) pieces = ns.
Proof.
  intros Hn HP. revert ns Hn pieces. induction HP as [|p P Hp HP IH]; intros [|n ns] Hn [|l pieces] L1 L2 OK c Hc; try discriminate.
  - inversion Hc; subst. split; reflexivity.
  - inversion Hc as [|k p' c' P' Hk Hc']; subst. inversion Hn as [|n' ns' Hn0 Hns]; subst. cbn in L1, L2.
    destruct (IH ns Hns pieces ltac:(lia) ltac:(lia) (fun d Hd => OK (S d) ltac:(cbn; lia)) c' Hc') as [E1 E2].
    pose proof (OK 0%nat ltac:(cbn; lia)) as OK0. cbn [nth] in OK0.
    pose proof (region_nth n p l Hn0 Hp OK0) as RN. split.
    + cbn [get_region]. rewrite E1. rewrite region1_eq by lia. cbn [map]. unfold map2 at 2. cbn [combine map fst snd].
      destruct (RN k ltac:(lia)) as [-> _]. destruct (RN (S k) ltac:(lia)) as [-> _].
      replace (Z.of_nat (S k)) with (Z.of_nat k + 1) by lia. reflexivity.
    + cbn [map]. f_equal; [|exact E2]. destruct (RN p ltac:(lia)) as [_ E]. rewrite bound_p in E by lia.
      rewrite firstn_all2 in E; [exact E|]. rewrite map_length. destruct OK0. lia.
Qed.

(* ---- writing ---- *)
Lemma write_other {V} sl suf (bl : list Z -> V) d i :
  in_slices sl (firstn (length sl) i) && list_eqb (skipn (length sl) i) suf = false -> d_val (write sl suf bl d) i = d_val d i.
Proof. intros E. unfold write. cbn [d_val]. now rewrite E. Qed.
Lemma write_here {V} sl suf (bl : list Z -> V) d i : length i = length sl -> in_slices sl i = true ->
  d_val (write sl suf bl d) (i ++ suf) = bl (map2 Z.sub i (map fst sl)).
Proof.
  intros L E. unfold write. cbn [d_val]. rewrite <- L. rewrite firstn_app, skipn_app, firstn_all, skipn_all, Nat.sub_diag.
  cbn [firstn skipn app]. rewrite app_nil_r. rewrite E. rewrite (proj2 (list_eqb_spec suf suf) eq_refl). reflexivity.
Qed.
(* the writes of the ranks of a list; slices sl r and blocks bl r *)
Lemma writes_skip {V} (sl : nat -> list (Z * Z)) suf (bl : nat -> list Z -> V) i : forall l d,
  (forall r, In r l -> in_slices (sl r) (firstn (length (sl r)) i) && list_eqb (skipn (length (sl r)) i) suf = false) ->
  d_val (fold_left (fun d r => write (sl r) suf (bl r) d) l d) i = d_val d i.
Proof.
  induction l as [|r l IH]; intros d H; [reflexivity|]. cbn [fold_left]. rewrite IH by (intros; apply H; now right).
  apply write_other. apply H. now left.
Qed.
Lemma writes_hit {V} (sl : nat -> list (Z * Z)) suf (bl : nat -> list Z -> V) i l r d :
  In r l -> (forall s, In s l -> length (sl s) = length i) -> in_slices (sl r) i = true ->
  (forall s, In s l -> in_slices (sl s) i = true -> s = r) ->
  d_val (fold_left (fun d r => write (sl r) suf (bl r) d) l d) (i ++ suf) = bl r (map2 Z.sub i (map fst (sl r))).
Proof.
  intros HIn L E U. revert d. induction l as [|s l IH]; intros d; [contradiction|]. cbn [fold_left].
  destruct (in_dec Nat.eq_dec r l) as [I|N].
  - apply IH; auto; intros; [apply L|apply U]; auto; now right.
  - destruct HIn as [->|]; [|contradiction]. rewrite writes_skip.
    + apply write_here; auto. symmetry. apply L. now left.
    + intros s Hs. rewrite (L s) by now right. rewrite firstn_app, firstn_all, Nat.sub_diag. cbn [firstn]. rewrite app_nil_r.
      destruct (in_slices (sl s) i) eqn:F; [|reflexivity]. exfalso. assert (s = r) by (apply U; auto; now right). subst. contradiction.
Qed.
Lemma writes_shape {V} (sl : nat -> list (Z * Z)) suf (bl : nat -> list Z -> V) l : forall d,
  d_shape (fold_left (fun d r => write (sl r) suf (bl r) d) l d) = d_shape d.
Proof. induction l as [|r l IH]; intros d; [reflexivity|]. cbn [fold_left]. now rewrite IH. Qed.
