(* Proofs about 3D velocity numbers (C03) and symmetric velocities (C04). *)
From Verif Require Import PyBase VelocityModel VelocityProofs PermuteProofs.
From Coq Require Import Sorting.Sorted Sorting.Permutation ZifyBool.
Open Scope Z_scope.

(* ------------------------------------------------------------ generic --- *)
Lemma NoDup_flat_map {A B} (f : A -> list B) l :
  NoDup l -> (forall a, In a l -> NoDup (f a)) ->
  (forall a b x, In a l -> In b l -> In x (f a) -> In x (f b) -> a = b) ->
  NoDup (flat_map f l).
Proof.
  induction 1 as [|a l Ha Hl IH]; intros H1 H2; cbn; [constructor|].
  assert (NoDup_app : forall (u v : list B), NoDup u -> NoDup v -> (forall x, In x u -> ~ In x v) -> NoDup (u ++ v)).
  { clear. induction u as [|x u IH]; intros v Hu Hv Hd; [exact Hv|]. inversion Hu; subst. cbn. constructor.
    - rewrite in_app_iff. intros [?|?]; [contradiction|]. apply (Hd x); cbn; auto.
    - apply IH; auto. intros y Hy. apply Hd. now right. }
  apply NoDup_app.
  - apply H1. now left.
  - apply IH.
    + intros; apply H1; now right.
    + intros b c x Hb Hc. apply H2; now right.
  - intros x Hx Hx'. apply in_flat_map in Hx'. destruct Hx' as (b & Hb & Hxb).
    apply Ha. rewrite (H2 a b x); auto; [now left|now right].
Qed.

Lemma index_of_nth {A} (eqb : A -> A -> bool) (Heq : forall x y, eqb x y = true <-> x = y) l x n :
  NoDup l -> (index_of eqb x l = Some n <-> nth_error l n = Some x).
Proof.
  intros Hl. revert n. induction Hl as [|a l Ha Hl IH]; intros n; cbn [index_of].
  - split; [discriminate|destruct n; discriminate].
  - destruct (eqb x a) eqn:E.
    + apply Heq in E. subst a. split.
      * intros H; inversion H; reflexivity.
      * destruct n as [|n]; [reflexivity|]. cbn. intros H. apply nth_error_In in H. contradiction.
    + assert (Hxa : x <> a) by (intros F; apply Heq in F; congruence).
      destruct n as [|n]; cbn [nth_error].
      * split; [destruct (index_of eqb x l); discriminate|intros H; inversion H; congruence].
      * rewrite <- IH. destruct (index_of eqb x l); split; intros H; inversion H; reflexivity.
Qed.

Lemma index_of_None {A} (eqb : A -> A -> bool) (Heq : forall x y, eqb x y = true <-> x = y) l x :
  index_of eqb x l = None <-> ~ In x l.
Proof.
  induction l as [|a l IH]; cbn [index_of In]; [tauto|].
  destruct (eqb x a) eqn:E.
  - apply Heq in E. split; [discriminate|]. intros H. exfalso; apply H; auto.
  - assert (x <> a) by (intros F; apply Heq in F; congruence).
    destruct (index_of eqb x l).
    + split; [discriminate|]. intros F. exfalso. destruct IH as [_ IH].
      assert (Some n = None) by (apply IH; tauto). discriminate.
    + split; [|reflexivity]. intros _ [?|?]; [congruence|]. now apply IH.
Qed.

Lemma triple_eqb_eq u v : triple_eqb u v = true <-> u = v.
Proof.
  destruct u as [[a b] c], v as [[x y] z]. cbn. rewrite !andb_true_iff, !Z.eqb_eq.
  split; [intros [[-> ->] ->]; reflexivity|intros H; inversion H; auto].
Qed.

Lemma zrange_in n x : In x (zrange n) <-> 0 <= x < Z.of_nat n.
Proof.
  unfold zrange. rewrite in_map_iff. split.
  - intros (k & <- & Hk). apply in_seq in Hk. lia.
  - intros H. exists (Z.to_nat x). split; [lia|]. apply in_seq. lia.
Qed.
Lemma zrange_NoDup n : NoDup (zrange n).
Proof.
  unfold zrange. apply FinFun.Injective_map_NoDup; [intros a b; lia|apply seq_NoDup].
Qed.

(* -------------------------------------------------------------- perms --- *)
Lemma length_words al n : length (words al n) = (length al ^ n)%nat.
Proof.
  induction n as [|n IH]; [reflexivity|]. cbn [words].
  assert (H : forall ws : list (list Z), length (flat_map (fun w => map (fun x => x :: w) al) ws) = (length al * length ws)%nat).
  { induction ws as [|w ws IH']; cbn; [lia|]. rewrite app_length, map_length, IH'. lia. }
  rewrite H, IH. cbn. lia.
Qed.
Lemma filter_length {A} (f : A -> bool) l : (length (filter f l) <= length l)%nat.
Proof. induction l as [|a l IH]; cbn; [lia|]. destruct (f a); cbn; lia. Qed.

Lemma perms3_spec k i j :
  NoDup (perms3 k i j) /\ forall m, In m (perms3 k i j) <-> Permutation m [k; i; j].
Proof.
  unfold perms3.
  destruct (permute_in_place 28 [k; i; j]) as [[ys lf]|] eqn:E.
  - destruct (permute_correct _ _ _ _ E) as (H1 & H2 & _). split; [|exact H2].
    clear - H1. induction H1 as [|a l H IH HF]; constructor; auto.
    intros Hin. rewrite Forall_forall in HF. apply HF in Hin. now apply lexlt_irrefl in Hin.
  - exfalso. unfold permute_in_place in E.
    assert (Hl : length (pysort [k; i; j]) = 3%nat) by apply sort_length.
    rewrite Hl in E. cbn [Nat.leb] in E.
    destruct (perm_loop 28 (pysort [k; i; j])) as [[? ?]|] eqn:F; [discriminate|].
    revert F. apply (perm_loop_terminates (pysort [k;i;j]) 3); auto.
    pose proof (filter_length (lexltb (pysort [k; i; j])) (words (pysort [k; i; j]) 3)) as H.
    rewrite length_words, Hl in H. change (3 ^ 3)%nat with 27%nat in H. lia.
Qed.

(* -------------------------------------------------------------- signs --- *)
Lemma signs_in kk s : 0 <= kk -> (In s (signs kk) <-> s = 1 \/ (s = -1 /\ 0 < kk)).
Proof.
  intros H. unfold signs. destruct (Z.eq_dec kk 0) as [->|Hk].
  - change (Z.to_nat (0 + 1)) with 1%nat. cbn [firstn In]. lia.
  - replace (Z.to_nat (kk + 1)) with (S (S (Z.to_nat (kk - 1)))) by lia.
    rewrite !firstn_cons, firstn_nil. cbn [In]. lia.
Qed.
Lemma signs_NoDup kk : 0 <= kk -> NoDup (signs kk).
Proof.
  intros H. unfold signs. destruct (Z.eq_dec kk 0) as [->|Hk].
  - change (Z.to_nat (0 + 1)) with 1%nat. cbn [firstn]. repeat constructor. intros [].
  - replace (Z.to_nat (kk + 1)) with (S (S (Z.to_nat (kk - 1)))) by lia.
    rewrite !firstn_cons, firstn_nil. repeat constructor; cbn; lia.
Qed.

Lemma sign_abs kk x : 0 <= kk -> (exists s, In s (signs kk) /\ x = s * kk) <-> (0 <= kk /\ Z.abs x = kk).
Proof.
  intros H. split.
  - intros (t & Ht & ->). apply signs_in in Ht; [|exact H]. split; [exact H|]. destruct Ht as [->|[-> ?]]; lia.
  - intros [_ Hx]. destruct (Z_le_gt_dec 0 x).
    + exists 1. split; [apply signs_in; lia|lia].
    + exists (-1). split; [apply signs_in; lia|lia].
Qed.

Lemma signed_in kk ii jj x y z : 0 <= kk -> 0 <= ii -> 0 <= jj ->
  (In (x, y, z) (signed [kk; ii; jj]) <-> Z.abs x = kk /\ Z.abs y = ii /\ Z.abs z = jj).
Proof.
  intros Hk Hi Hj. cbn [signed].
  pose proof (sign_abs kk x Hk) as Ex. pose proof (sign_abs ii y Hi) as Ey. pose proof (sign_abs jj z Hj) as Ez.
  rewrite in_flat_map. split.
  - intros (s & Hs & H). apply in_flat_map in H. destruct H as (t & Ht & H).
    apply in_map_iff in H. destruct H as (u & Hu & H). inversion Hu; subst.
    split; [|split].
    + apply Ex; eauto.
    + apply Ey; eauto.
    + apply Ez; eauto.
  - intros (H1 & H2 & H3).
    destruct Ex as [_ Ex]. destruct (Ex (conj Hk H1)) as (s & Hs & Hsx).
    destruct Ey as [_ Ey]. destruct (Ey (conj Hi H2)) as (t & Ht & Hty).
    destruct Ez as [_ Ez]. destruct (Ez (conj Hj H3)) as (u & Hu & Huz).
    exists s. split; [exact Hs|]. apply in_flat_map. exists t. split; [exact Ht|].
    apply in_map_iff. exists u. split; [congruence|exact Hu].
Qed.

Lemma sign_inj kk s t : 0 <= kk -> In s (signs kk) -> In t (signs kk) -> s * kk = t * kk -> s = t.
Proof.
  intros H Hs Ht E. apply signs_in in Hs; [|exact H]. apply signs_in in Ht; [|exact H].
  destruct Hs as [->|[-> ?]], Ht as [->|[-> ?]]; lia.
Qed.

Lemma signed_NoDup kk ii jj : 0 <= kk -> 0 <= ii -> 0 <= jj -> NoDup (signed [kk; ii; jj]).
Proof.
  intros Hk Hi Hj. cbn [signed].
  apply NoDup_flat_map; [now apply signs_NoDup| |].
  - intros s Hs. apply NoDup_flat_map; [now apply signs_NoDup| |].
    + intros t Ht.
      assert (H : forall l, NoDup l -> (forall u, In u l -> In u (signs jj)) ->
        NoDup (map (fun pmj => (s * kk, t * ii, pmj * jj)) l)).
      { induction 1 as [|u l Hu Hl IH]; intros Hin; cbn; [constructor|]. constructor.
        - intros F. apply in_map_iff in F. destruct F as (w & Hw & Hwl). inversion Hw.
          apply (sign_inj jj) in H0; auto; [|apply Hin; now right|apply Hin; now left]. congruence.
        - apply IH. intros; apply Hin; now right. }
      apply H; [now apply signs_NoDup|auto].
    + intros t t' v Ht Ht' Hv Hv'. apply in_map_iff in Hv, Hv'.
      destruct Hv as (u & Hu & _), Hv' as (u' & Hu' & _). rewrite <- Hu in Hu'. inversion Hu'.
      symmetry. now apply (sign_inj ii).
  - intros s s' v Hs Hs' Hv Hv'. apply in_flat_map in Hv, Hv'.
    destruct Hv as (t & _ & Hv), Hv' as (t' & _ & Hv'). apply in_map_iff in Hv, Hv'.
    destruct Hv as (u & Hu & _), Hv' as (u' & Hu' & _). rewrite <- Hu in Hu'. inversion Hu'.
    symmetry. now apply (sign_inj kk).
Qed.

(* ------------------------------------------------------------- shells --- *)
Definition maxabs (v : triple) : Z :=
  let '(x, y, z) := v in Z.max (Z.abs x) (Z.max (Z.abs y) (Z.abs z)).

Lemma perm3_abs k i j m : Permutation m [k; i; j] ->
  0 <= k -> 0 <= i -> 0 <= j -> exists a b c, m = [a; b; c] /\ 0 <= a /\ 0 <= b /\ 0 <= c.
Proof.
  intros H Hk Hi Hj. pose proof (Permutation_length H) as Hl.
  destruct m as [|a [|b [|c [|]]]]; try discriminate.
  exists a, b, c.
  assert (HF : Forall (fun x => 0 <= x) [k; i; j]) by (repeat constructor; assumption).
  apply Permutation_sym in H.
  pose proof (Permutation_Forall H HF) as HF'.
  inversion HF' as [|? ? ? HF2]; inversion HF2 as [|? ? ? HF3]; inversion HF3; auto.
Qed.

Lemma in_inner k i j v : 0 <= k -> 0 <= i -> 0 <= j ->
  (In v (flat_map signed (perms3 k i j)) <->
   let '(x, y, z) := v in Permutation [Z.abs x; Z.abs y; Z.abs z] [k; i; j]).
Proof.
  intros Hk Hi Hj. destruct v as [[x y] z]. destruct (perms3_spec k i j) as [_ HP].
  rewrite in_flat_map. split.
  - intros (m & Hm & Hv). apply HP in Hm.
    destruct (perm3_abs _ _ _ _ Hm Hk Hi Hj) as (a & b & c & -> & Ha & Hb & Hc).
    apply signed_in in Hv; auto. destruct Hv as (-> & -> & ->). exact Hm.
  - intros H. exists [Z.abs x; Z.abs y; Z.abs z]. split; [now apply HP|].
    apply signed_in; auto; lia.
Qed.

Lemma in_shell3 k v : In v (shell3 k) <-> maxabs v = Z.of_nat k.
Proof.
  unfold shell3. rewrite in_flat_map. destruct v as [[x y] z]. cbn [maxabs]. split.
  - intros (i & Hi & H). apply in_flat_map in H. destruct H as (j & Hj & H).
    apply zrange_in in Hi, Hj. rewrite in_inner in H by lia. cbn in H.
    assert (HA : Forall (fun t => t <= Z.of_nat k) [Z.abs x; Z.abs y; Z.abs z]).
    { apply Permutation_sym in H. eapply Permutation_Forall; [exact H|]. repeat constructor; lia. }
    assert (HI : In (Z.of_nat k) [Z.abs x; Z.abs y; Z.abs z]).
    { eapply Permutation_in; [apply Permutation_sym; exact H|]. now left. }
    inversion HA as [|? ? ? HA2]; inversion HA2 as [|? ? ? HA3]; inversion HA3; subst.
    cbn in HI. lia.
  - intros Hm.
    assert (HG : forall a b c k', 0 <= b <= k' -> 0 <= c <= k' -> k' = Z.of_nat k ->
       Permutation [Z.abs x; Z.abs y; Z.abs z] [a; b; c] -> a = k' ->
       exists i, In i (zrange (S k)) /\ In (x, y, z)
         (flat_map (fun j => flat_map signed (perms3 (Z.of_nat k) i j)) (zrange (S (Z.to_nat i))))).
    { intros a b c k' Hb Hc Hk' HP Ha. subst a k'.
      destruct (Z_le_gt_dec c b).
      - exists b. split; [apply zrange_in; lia|]. apply in_flat_map. exists c.
        split; [apply zrange_in; lia|]. apply in_inner; try lia. exact HP.
      - exists c. split; [apply zrange_in; lia|]. apply in_flat_map. exists b.
        split; [apply zrange_in; lia|]. apply in_inner; try lia. rewrite HP. constructor. constructor. }
    destruct (Z.eq_dec (Z.abs x) (Z.of_nat k)) as [Ex|Ex];
    [|destruct (Z.eq_dec (Z.abs y) (Z.of_nat k)) as [Ey|Ey]].
    + apply (HG (Z.abs x) (Z.abs y) (Z.abs z) (Z.of_nat k)); auto; lia.
    + apply (HG (Z.abs y) (Z.abs x) (Z.abs z) (Z.of_nat k)); auto; try lia. constructor.
    + apply (HG (Z.abs z) (Z.abs x) (Z.abs y) (Z.of_nat k)); auto; try lia.
      transitivity [Z.abs x; Z.abs z; Z.abs y]; [constructor; constructor|constructor].
Qed.

Lemma shell3_NoDup k : NoDup (shell3 k).
Proof.
  unfold shell3.
  assert (Hij : forall i j i' j' v, 0 <= i <= Z.of_nat k -> 0 <= j <= i -> 0 <= i' <= Z.of_nat k -> 0 <= j' <= i' ->
     In v (flat_map signed (perms3 (Z.of_nat k) i j)) -> In v (flat_map signed (perms3 (Z.of_nat k) i' j')) ->
     i = i' /\ j = j').
  { intros i j i' j' [[x y] z] Hi Hj Hi' Hj' H H'.
    rewrite in_inner in H, H' by lia. cbn in H, H'.
    rewrite H in H'. apply Permutation_cons_inv in H'. apply Permutation_length_2 in H'. lia. }
  apply NoDup_flat_map; [apply zrange_NoDup| |].
  - intros i Hi. apply zrange_in in Hi. apply NoDup_flat_map; [apply zrange_NoDup| |].
    + intros j Hj. apply zrange_in in Hj.
      destruct (perms3_spec (Z.of_nat k) i j) as [HN HP].
      apply NoDup_flat_map; [exact HN| |].
      * intros m Hm. apply HP in Hm.
        destruct (perm3_abs _ _ _ _ Hm) as (a & b & c & -> & Ha & Hb & Hc); try lia.
        now apply signed_NoDup.
      * intros m m' [[x y] z] Hm Hm' Hv Hv'. apply HP in Hm, Hm'.
        destruct (perm3_abs _ _ _ _ Hm) as (a & b & c & -> & Ha & Hb & Hc); try lia.
        destruct (perm3_abs _ _ _ _ Hm') as (a' & b' & c' & -> & Ha' & Hb' & Hc'); try lia.
        apply signed_in in Hv; auto. apply signed_in in Hv'; auto.
        destruct Hv as (<- & <- & <-), Hv' as (<- & <- & <-). reflexivity.
    + intros j j' v Hj Hj' Hv Hv'. apply zrange_in in Hj, Hj'.
      apply (Hij i j i j' v); auto; lia.
  - intros i i' v Hi Hi' Hv Hv'. apply zrange_in in Hi, Hi'.
    apply in_flat_map in Hv, Hv'. destruct Hv as (j & Hj & Hv), Hv' as (j' & Hj' & Hv').
    apply zrange_in in Hj, Hj'.
    apply (Hij i j i' j' v); auto; lia.
Qed.

(* -------------------------------------------------------- enumeration --- *)
Lemma maxabs_nonneg v : 0 <= maxabs v.
Proof. destruct v as [[x y] z]; cbn; lia. Qed.

Lemma in_enum3 N v : In v (enum3 N) <-> maxabs v < Z.of_nat N.
Proof.
  unfold enum3. rewrite in_flat_map. split.
  - intros (k & Hk & H). apply in_seq in Hk. apply in_shell3 in H. lia.
  - intros H. pose proof (maxabs_nonneg v). exists (Z.to_nat (maxabs v)). split.
    + apply in_seq. lia.
    + apply in_shell3. lia.
Qed.

Lemma enum3_NoDup N : NoDup (enum3 N).
Proof.
  unfold enum3. apply NoDup_flat_map; [apply seq_NoDup|intros; apply shell3_NoDup|].
  intros a b v _ _ Ha Hb. apply in_shell3 in Ha, Hb. lia.
Qed.

Lemma enum3_app N M : enum3 (N + M) = enum3 N ++ flat_map shell3 (seq N M).
Proof. unfold enum3. rewrite seq_app, flat_map_app. reflexivity. Qed.

(* The cube of half width N-1, listed naively. *)
Definition zsym (N : nat) : list Z := map (fun k => Z.of_nat k - (Z.of_nat N - 1)) (seq 0 (2 * N - 1)).
Definition cube (N : nat) : list triple := list_prod (list_prod (zsym N) (zsym N)) (zsym N).

Lemma zsym_in N x : In x (zsym N) <-> Z.abs x < Z.of_nat N.
Proof.
  unfold zsym. rewrite in_map_iff. split.
  - intros (k & <- & Hk). apply in_seq in Hk. lia.
  - intros H. exists (Z.to_nat (x + (Z.of_nat N - 1))). split; [lia|]. apply in_seq. lia.
Qed.
Lemma zsym_NoDup N : NoDup (zsym N).
Proof. unfold zsym. apply FinFun.Injective_map_NoDup; [intros a b; lia|apply seq_NoDup]. Qed.
Lemma NoDup_prod {A B} (l : list A) (m : list B) : NoDup l -> NoDup m -> NoDup (list_prod l m).
Proof.
  intros Hl Hm. assert (E : list_prod l m = flat_map (fun x => map (fun y => (x, y)) m) l).
  { clear. induction l as [|a l IH]; cbn; [reflexivity|now rewrite IH]. }
  rewrite E. apply NoDup_flat_map; [exact Hl| |].
  - intros a _. apply FinFun.Injective_map_NoDup; [intros x y Exy; inversion Exy; auto|exact Hm].
  - intros a b x _ _ Ha Hb. apply in_map_iff in Ha, Hb. destruct Ha as (u & <- & _), Hb as (w & Exy & _). now inversion Exy.
Qed.

Lemma enum3_length N : (1 <= N)%nat -> Z.of_nat (length (enum3 N)) = (2 * Z.of_nat N - 1) ^ 3.
Proof.
  intros HN.
  assert (HP : Permutation (enum3 N) (cube N)).
  { apply NoDup_Permutation; [apply enum3_NoDup|repeat apply NoDup_prod; apply zsym_NoDup|].
    intros [[x y] z]. rewrite in_enum3. unfold cube, triple. rewrite !in_prod_iff, !zsym_in. cbn. lia. }
  rewrite (Permutation_length HP). unfold cube, triple. rewrite !prod_length. unfold zsym. rewrite !map_length, !seq_length.
  rewrite !Nat2Z.inj_mul. replace (Z.of_nat (2 * N - 1)) with (2 * Z.of_nat N - 1) by lia. ring.
Qed.

Lemma num3_nth N v num :
  set_num3 N v = Some num <-> 0 <= num /\ nth_error (enum3 N) (Z.to_nat num) = Some v.
Proof.
  unfold set_num3. split.
  - destruct (index_of triple_eqb v (enum3 N)) as [n|] eqn:E; [|discriminate].
    cbn. intros H; inversion H; subst. apply (index_of_nth _ triple_eqb_eq) in E; [|apply enum3_NoDup].
    split; [lia|]. now rewrite Nat2Z.id.
  - intros [Hn H]. apply (index_of_nth _ triple_eqb_eq) in H; [|apply enum3_NoDup].
    rewrite H. cbn. f_equal. lia.
Qed.

Lemma num3_coord3 N v num : 0 <= num -> (set_num3 N v = Some num <-> set_coord3 N num = Some v).
Proof.
  intros Hn. rewrite num3_nth. unfold set_coord3. replace (num <? 0) with false by lia. tauto.
Qed.

Lemma num3_nonneg N v num : set_num3 N v = Some num -> 0 <= num.
Proof. rewrite num3_nth. tauto. Qed.

Lemma num3_defined N v : (exists num, set_num3 N v = Some num) <-> maxabs v < Z.of_nat N.
Proof.
  rewrite <- in_enum3. split.
  - intros [num H]. apply num3_nth in H. destruct H as [_ H]. eapply nth_error_In; eauto.
  - intros H. apply In_nth_error in H. destruct H as [n Hn]. exists (Z.of_nat n).
    apply num3_nth. rewrite Nat2Z.id. split; [lia|exact Hn].
Qed.

Lemma coord3_defined N num : (1 <= N)%nat ->
  ((exists v, set_coord3 N num = Some v) <-> 0 <= num < (2 * Z.of_nat N - 1) ^ 3).
Proof.
  intros HN. unfold set_coord3. destruct (num <? 0) eqn:E.
  - split; [intros [v Hv]; discriminate|lia].
  - rewrite <- (enum3_length N HN). split.
    + intros [v Hv]. assert (nth_error (enum3 N) (Z.to_nat num) <> None) by congruence.
      apply nth_error_Some in H. lia.
    + intros H. destruct (nth_error (enum3 N) (Z.to_nat num)) as [v|] eqn:F; [eauto|].
      apply nth_error_None in F. lia.
Qed.

(* Shell by shell. *)
Lemma num3_lt N k v num : (k <= N)%nat -> (1 <= k)%nat -> set_num3 N v = Some num ->
  (num < (2 * Z.of_nat k - 1) ^ 3 <-> maxabs v < Z.of_nat k).
Proof.
  intros Hk H1 H. rewrite <- (enum3_length k H1), <- in_enum3.
  apply num3_nth in H. destruct H as [Hn H].
  replace N with (k + (N - k))%nat in H by lia. rewrite enum3_app in H.
  split.
  - intros Hlt. rewrite nth_error_app1 in H by lia. eapply nth_error_In; eauto.
  - intros Hin. destruct (Z_lt_le_dec num (Z.of_nat (length (enum3 k)))) as [?|Hge]; [assumption|].
    exfalso. rewrite nth_error_app2 in H by lia. apply nth_error_In in H.
    apply in_flat_map in H. destruct H as (k' & Hk' & H). apply in_seq in Hk'. apply in_shell3 in H.
    apply in_enum3 in Hin. lia.
Qed.

Lemma num3_shell N k v num : (1 <= k)%nat -> set_num3 N v = Some num -> 
  (maxabs v = Z.of_nat k <-> (2 * Z.of_nat k - 1) ^ 3 <= num < (2 * Z.of_nat k + 1) ^ 3 ).
Proof.
  intros H1 H.
  assert (Hv : maxabs v < Z.of_nat N) by (apply num3_defined; eauto).
  assert (Hs : 2 * Z.of_nat k + 1 = 2 * Z.of_nat (S k) - 1) by lia.
  rewrite Hs.
  destruct (le_lt_dec (S k) N) as [Hk|Hk].
  - pose proof (num3_lt N k v num ltac:(lia) H1 H).
    pose proof (num3_lt N (S k) v num ltac:(lia) ltac:(lia) H). lia.
  - destruct (le_lt_dec k N) as [Hk'|Hk'].
    + assert (k = N) by lia. subst k. pose proof (num3_lt N N v num ltac:(lia) H1 H). lia.
    + assert (HN : (1 <= N)%nat) by (pose proof (maxabs_nonneg v); lia).
      pose proof (num3_lt N N v num ltac:(lia) HN H) as HH.
      split; [lia|]. intros [Hge _]. exfalso.
      assert ((2 * Z.of_nat N - 1) ^ 3 <= (2 * Z.of_nat k - 1) ^ 3) by (apply Z.pow_le_mono_l; lia).
      lia.
Qed.

(* --------------------------------------------------------- symmetries --- *)
(* Coordinates of a velocity as a list (property v of the class). *)
Definition vcoords (v : velocity) : list Z :=
  match vy v, vz v with
  | Some y, Some z => [vx v; y; z]
  | Some y, None => [vx v; y]
  | None, _ => [vx v]
  end.
(* A velocity object as the constructor makes it. *)
Definition wf_velocity (v : velocity) : Prop := vel_of_coord (vx v) (vy v) (vz v) = Some v.

Lemma vel_of_coord_wf x y z v : vel_of_coord x y z = Some v ->
  vx v = x /\ vy v = y /\ vz v = z /\ wf_velocity v.
Proof.
  intros H.
  assert (E : vx v = x /\ vy v = y /\ vz v = z).
  { unfold vel_of_coord in H. destruct z as [z|], y as [y|]; try discriminate;
    repeat match type of H with context [match ?t with _ => _ end] => destruct t; try discriminate end;
    inversion H; subst; cbn; auto. }
  destruct E as (E1 & E2 & E3). subst. unfold wf_velocity. auto.
Qed.

Lemma vel_of_num_wf d n v : 0 <= n -> vel_of_num d n = Some v ->
  wf_velocity v /\ vdim v = d /\ vnum v = n.
Proof.
  unfold vel_of_num, wf_velocity. intros Hn H.
  destruct (d =? 1) eqn:E1.
  { inversion H; subst; cbn. rewrite set_num1_coord1 by exact Hn. repeat split; lia. }
  destruct (d =? 2) eqn:E2.
  { destruct (set_coord2 n) as [[a b]|] eqn:E; [|discriminate]. inversion H; subst; cbn.
    rewrite (num2_coord2 _ _ _ Hn E). repeat split; lia. }
  destruct (d =? 3) eqn:E3; [|discriminate].
  destruct (set_coord3 100 n) as [[[a b] c]|] eqn:E; [|discriminate]. inversion H; subst.
  apply num3_coord3 in E; [|exact Hn]. unfold vel_of_coord, vx, vy, vz, vdim, vnum.
  rewrite E. repeat split; lia.
Qed.

(* Existence of the velocity only depends on absolute values. *)
Lemma vel_of_coord_abs x y z v x' y' z' : vel_of_coord x y z = Some v ->
  Z.abs x' = Z.abs x -> option_map Z.abs y' = option_map Z.abs y ->
  option_map Z.abs z' = option_map Z.abs z ->
  exists w, vel_of_coord x' y' z' = Some w /\ vdim w = vdim v.
Proof.
  intros H Hx Hy Hz. unfold vel_of_coord in *.
  destruct z as [z|], z' as [z'|]; try discriminate;
  destruct y as [y|], y' as [y'|]; try discriminate.
  - cbn in Hy, Hz. inversion Hy; inversion Hz.
    destruct (set_num3 100 (x, y, z)) as [n|] eqn:E; [|discriminate]. inversion H; subst.
    assert (Hd : exists num, set_num3 100 (x', y', z') = Some num).
    { apply num3_defined. assert (Hd : maxabs (x, y, z) < Z.of_nat 100) by (apply num3_defined; eauto).
      unfold maxabs in *. lia. }
    destruct Hd as [num ->]. eexists. split; reflexivity.
  - destruct (set_num2 x y) as [n|] eqn:E; [|discriminate]. inversion H; subst.
    destruct (set_num2_total x' y') as (num & -> & _). eexists. split; reflexivity.
  - inversion H; subst. eexists. split; reflexivity.
Qed.

(* Specification of the symmetry on coordinate lists. *)
Definition sym_coord (axis : option Z) (i : Z) (c : Z) : Z :=
  match axis with
  | None => - c
  | Some a => if a =? i then c else - c
  end.
Definition sym_coords (axis : option Z) (l : list Z) : list Z :=
  map (fun p => sym_coord axis (Z.of_nat (fst p)) (snd p)) (combine (seq 0 (length l)) l).

Definition bad_axis (v : velocity) (axis : option Z) : Prop :=
  exists a, axis = Some a /\ (a < 0 \/ vdim v <= a).

Lemma wf_dim v : wf_velocity v -> vdim v = Z.of_nat (length (vcoords v)) /\
  (vdim v = 1 \/ vdim v = 2 \/ vdim v = 3).
Proof.
  unfold wf_velocity, vel_of_coord, vcoords. intros H.
  destruct (vz v) as [z|], (vy v) as [y|]; try discriminate;
  repeat match type of H with context [match ?t with _ => _ end] => destruct t; try discriminate end;
  inversion H as [H']; rewrite <- H'; cbn; auto.
Qed.

Lemma opp_opt_abs o : option_map Z.abs (opp_opt o) = option_map Z.abs o.
Proof. destruct o as [a|]; cbn; [f_equal; lia|reflexivity]. Qed.

Lemma get_symmetric_err v axis : get_symmetric v axis = SymErr <-> bad_axis v axis.
Proof.
  unfold get_symmetric, bad_axis. destruct axis as [a|].
  - destruct ((vdim v <=? a) || (a <? 0)) eqn:E.
    + split; [|reflexivity]. intros _. exists a. split; [reflexivity|lia].
    + split.
      * unfold lift_vel. intros H. exfalso. revert H.
        repeat match goal with |- context [if ?t then _ else _] => destruct t end;
        repeat match goal with |- context [match ?t with _ => _ end] => destruct t end; discriminate.
      * intros (a' & Ha & H). inversion Ha; subst. lia.
  - unfold lift_vel. split.
    + destruct (vel_of_coord _ _ _); discriminate.
    + intros (a & Ha & _). discriminate.
Qed.

Lemma get_symmetric_ok v axis : wf_velocity v -> ~ bad_axis v axis ->
  exists w, get_symmetric v axis = SymOk w /\ wf_velocity w /\ vdim w = vdim v /\
    vcoords w = sym_coords axis (vcoords v).
Proof.
  intros Hw Hb. pose proof (wf_dim v Hw) as [Hd Hd3].
  assert (HG : forall x' y' z', Z.abs x' = Z.abs (vx v) ->
      option_map Z.abs y' = option_map Z.abs (vy v) -> option_map Z.abs z' = option_map Z.abs (vz v) ->
      exists w, vel_of_coord x' y' z' = Some w /\ vdim w = vdim v /\ wf_velocity w /\
        vx w = x' /\ vy w = y' /\ vz w = z').
  { intros x' y' z' H1 H2 H3. destruct (vel_of_coord_abs _ _ _ _ x' y' z' Hw H1 H2 H3) as (w & E & Edim).
    exists w. destruct (vel_of_coord_wf _ _ _ _ E) as (? & ? & ? & ?). auto 6. }
  unfold get_symmetric. destruct axis as [a|].
  - destruct ((vdim v <=? a) || (a <? 0)) eqn:E.
    { exfalso. apply Hb. exists a. split; [reflexivity|lia]. }
    destruct (a =? 0) eqn:E0; [|destruct (a =? 1) eqn:E1].
    + destruct (HG (vx v) (opp_opt (vy v)) (opp_opt (vz v))) as (w & Ew & H1 & H2 & H3 & H4 & H5);
        [lia|apply opp_opt_abs|apply opp_opt_abs|].
      exists w. rewrite Ew. repeat split; auto. unfold vcoords. rewrite H3, H4, H5.
      assert (a = 0) by lia. subst a.
      destruct (vy v), (vz v); reflexivity.
    + destruct (HG (- vx v) (vy v) (opp_opt (vz v))) as (w & Ew & H1 & H2 & H3 & H4 & H5);
        [lia|reflexivity|apply opp_opt_abs|].
      exists w. rewrite Ew. repeat split; auto. unfold vcoords. rewrite H3, H4, H5.
      assert (a = 1) by lia. subst a.
      destruct (vy v), (vz v); reflexivity.
    + destruct (HG (- vx v) (opp_opt (vy v)) (vz v)) as (w & Ew & H1 & H2 & H3 & H4 & H5);
        [lia|apply opp_opt_abs|reflexivity|].
      exists w. rewrite Ew. repeat split; auto. unfold vcoords. rewrite H3, H4, H5.
      assert (a = 2) by lia. subst a.
      destruct (vy v), (vz v); reflexivity.
  - destruct (HG (- vx v) (opp_opt (vy v)) (opp_opt (vz v))) as (w & Ew & H1 & H2 & H3 & H4 & H5);
      [lia|apply opp_opt_abs|apply opp_opt_abs|].
    exists w. rewrite Ew. repeat split; auto. unfold vcoords. rewrite H3, H4, H5.
    destruct (vy v), (vz v); reflexivity.
Qed.

(* Coordinates determine the velocity. *)
Lemma wf_coords_inj v w : wf_velocity v -> wf_velocity w -> vcoords v = vcoords w -> v = w.
Proof.
  intros Hv Hw E.
  assert (E' : vx v = vx w /\ vy v = vy w /\ vz v = vz w).
  { unfold wf_velocity, vel_of_coord, vcoords in *.
    destruct (vy v), (vz v), (vy w), (vz w); try discriminate; inversion E; auto. }
  destruct E' as (E1 & E2 & E3). unfold wf_velocity in *. rewrite E1, E2, E3 in Hv. congruence.
Qed.

Lemma sym_coord_invol axis i c : sym_coord axis i (sym_coord axis i c) = c.
Proof. unfold sym_coord. destruct axis as [a|]; [destruct (a =? i)|]; lia. Qed.

Lemma sym_coords_invol axis l : sym_coords axis (sym_coords axis l) = l.
Proof.
  assert (H : forall s, map (fun p => sym_coord axis (Z.of_nat (fst p)) (snd p))
     (combine (seq s (length l)) (map (fun p => sym_coord axis (Z.of_nat (fst p)) (snd p)) (combine (seq s (length l)) l))) = l).
  { induction l as [|a l IH]; intros s; [reflexivity|]. cbn. rewrite sym_coord_invol. f_equal. apply IH. }
  unfold sym_coords. rewrite map_length, combine_length, seq_length, Nat.min_id. apply H.
Qed.

Lemma get_symmetric_invol v axis w : wf_velocity v -> get_symmetric v axis = SymOk w ->
  get_symmetric w axis = SymOk v.
Proof.
  intros Hv H.
  assert (Hb : ~ bad_axis v axis).
  { intros Hb. apply get_symmetric_err in Hb. congruence. }
  destruct (get_symmetric_ok v axis Hv Hb) as (w' & E & Hw' & Hd & Hc).
  assert (w' = w) by congruence. subst w'.
  assert (Hb' : ~ bad_axis w axis) by (unfold bad_axis in *; rewrite Hd; exact Hb).
  destruct (get_symmetric_ok w axis Hw' Hb') as (u & Eu & Hu & Hdu & Hcu).
  rewrite Eu. f_equal. apply wf_coords_inj; auto. rewrite Hcu, Hc. apply sym_coords_invol.
Qed.

(* A number found in a smaller cube is the number in the cube of the code. *)
Lemma index_of_app {A} (eqb : A -> A -> bool) l m x n :
  index_of eqb x l = Some n -> index_of eqb x (l ++ m) = Some n.
Proof.
  revert n. induction l as [|a l IH]; intros n; cbn; [discriminate|].
  destruct (eqb x a); [auto|]. destruct (index_of eqb x l) as [k|]; [|discriminate].
  now rewrite (IH k eq_refl).
Qed.
Lemma set_num3_mono N M v n : (N <= M)%nat -> set_num3 N v = Some n -> set_num3 M v = Some n.
Proof.
  intros Hle. unfold set_num3. replace M with (N + (M - N))%nat by lia. rewrite enum3_app.
  destruct (index_of triple_eqb v (enum3 N)) as [k|] eqn:E; [|discriminate].
  now rewrite (index_of_app _ _ _ _ _ E).
Qed.

(* ---------------------------------------------------- summary lemmas ---- *)
Lemma C01_lemma :
  (forall x, 0 <= set_num1 x /\ set_coord1 (set_num1 x) = x) /\
  (forall num, 0 <= num -> set_num1 (set_coord1 num) = num) /\
  (forall x y, set_num1 x = set_num1 y -> x = y).
Proof.
  repeat split; [apply set_num1_nonneg|apply set_coord1_num1|apply set_num1_coord1|apply set_num1_inj].
Qed.

Lemma C02_lemma :
  (forall x y, exists num, set_num2 x y = Some num /\ 0 <= num /\ set_coord2 num = Some (x, y)) /\
  (forall num, 0 <= num -> exists x y, set_coord2 num = Some (x, y) /\ set_num2 x y = Some num) /\
  (forall num, num < 0 -> set_coord2 num = None) /\
  (forall x y num n, set_num2 x y = Some num -> 1 <= n ->
     (Z.max (Z.abs x) (Z.abs y) = n <-> (2 * n - 1) ^ 2 <= num <= (2 * n + 1) ^ 2 - 1)).
Proof.
  repeat split.
  - intros x y. destruct (set_num2_total x y) as (num & E & Hn). exists num.
    repeat split; auto. now apply coord2_num2.
  - intros num Hn. destruct (coord2_total num Hn) as (x & y & E). exists x, y. split; [exact E|].
    now apply num2_coord2.
  - intros num Hn. unfold set_coord2. now replace (num <? 0) with true by lia.
  - eapply ring_numbers; eauto.
  - eapply ring_numbers; eauto.
  - eapply ring_numbers; eauto.
Qed.

Lemma C03_lemma :
  (forall v, (exists num, set_num3 100 v = Some num) <-> maxabs v < 100) /\
  (forall v num, set_num3 100 v = Some num -> 0 <= num < 199 ^ 3 /\ set_coord3 100 num = Some v) /\
  (forall num, 0 <= num < 199 ^ 3 <-> exists v, set_coord3 100 num = Some v) /\
  (forall num v, set_coord3 100 num = Some v -> set_num3 100 v = Some num) /\
  (forall v num k, 1 <= k -> set_num3 100 v = Some num ->
     (maxabs v = k <-> (2 * k - 1) ^ 3 <= num < (2 * k + 1) ^ 3)).
Proof.
  split; [|split; [|split; [|split]]].
  - intros v. apply (num3_defined 100).
  - intros v num H. pose proof (num3_nonneg _ _ _ H) as Hn.
    apply num3_coord3 in H; [|exact Hn]. split; [|exact H].
    pose proof (coord3_defined 100 num ltac:(lia)) as HD.
    change (2 * Z.of_nat 100 - 1) with 199 in HD. apply HD. eauto.
  - intros num. pose proof (coord3_defined 100 num ltac:(lia)) as HD.
    change (2 * Z.of_nat 100 - 1) with 199 in HD. symmetry. exact HD.
  - intros num v H.
    assert (Hn : 0 <= num).
    { unfold set_coord3 in H. destruct (num <? 0) eqn:E; [discriminate|lia]. }
    now apply num3_coord3.
  - intros v num k Hk H. pose proof (num3_shell 100 (Z.to_nat k) v num ltac:(lia) H) as HS.
    rewrite Z2Nat.id in HS by lia. exact HS.
Qed.

Lemma C04_lemma :
  (forall x y z v, vel_of_coord x y z = Some v -> wf_velocity v) /\
  (forall d n v, 0 <= n -> vel_of_num d n = Some v -> wf_velocity v /\ vdim v = d /\ vnum v = n) /\
  (forall v axis, get_symmetric v axis = SymErr <-> bad_axis v axis) /\
  (forall v axis, wf_velocity v -> ~ bad_axis v axis ->
     exists w, get_symmetric v axis = SymOk w /\ wf_velocity w /\ vdim w = vdim v /\
       vcoords w = sym_coords axis (vcoords v) /\ get_symmetric w axis = SymOk v).
Proof.
  split; [|split; [|split]].
  - intros x y z v H. now apply vel_of_coord_wf in H.
  - apply vel_of_num_wf.
  - apply get_symmetric_err.
  - intros v axis Hv Hb. destruct (get_symmetric_ok v axis Hv Hb) as (w & E & H1 & H2 & H3).
    exists w. repeat split; auto. now apply get_symmetric_invol.
Qed.
