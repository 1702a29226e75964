(* Proofs about the partition and the coordinates (C09, C10, C11). *)
From Verif Require Import PyBase GridModel.
From Coq Require Import ZifyBool QArith Qround Qabs Lqa.
Ltac Zify.zify_post_hook ::= Z.div_mod_to_equations.
Open Scope Z_scope.

(* ------------------------------------------------------ partition ------- *)
(* closed form: i blocks of n/p cells, the first n mod p blocks have one more *)
Definition bound (n p i : Z) : Z := i * (n / p) + Z.min i (n mod p).

Lemma region_loop_nth n p : 0 < p -> forall k i j, 0 <= i -> (j < k)%nat ->
  nth_error (region_loop n p i k (bound n p i)) j = Some (bound n p (i + 1 + Z.of_nat j)).
Proof.
  intros Hp. induction k as [|k IH]; intros i j Hi Hj; [lia|].
  cbn [region_loop].
  assert (E : bound n p i + n / p + (if n mod p >? i then 1 else 0) = bound n p (i + 1)).
  { unfold bound. destruct (n mod p >? i) eqn:F; rewrite Z.mul_add_distr_r; lia. }
  rewrite E. destruct j as [|j]; cbn [nth_error].
  - f_equal. f_equal. lia.
  - rewrite IH by lia. f_equal. f_equal. lia.
Qed.

Lemma region_loop_length n p : forall k i acc, length (region_loop n p i k acc) = k.
Proof. induction k as [|k IH]; intros i acc; cbn; auto. Qed.

Lemma region_indices_length n p : length (region_indices n p) = S p.
Proof. unfold region_indices. cbn. now rewrite region_loop_length. Qed.

Lemma region_indices_nth n p i : (1 <= p)%nat -> (i <= p)%nat ->
  nth_error (region_indices n p) i = Some (bound n (Z.of_nat p) (Z.of_nat i)).
Proof.
  intros Hp Hi. assert (E0 : 0 = bound n (Z.of_nat p) 0) by (unfold bound; lia).
  unfold region_indices. destruct i as [|i]; cbn [nth_error].
  - f_equal. exact E0.
  - rewrite E0 at 2. rewrite region_loop_nth by lia. f_equal. f_equal. lia.
Qed.

Lemma region1_eq n p c : (1 <= p)%nat -> (c < p)%nat ->
  region1 n p c = Some (bound n (Z.of_nat p) (Z.of_nat c), bound n (Z.of_nat p) (Z.of_nat c + 1)).
Proof.
  intros Hp Hc. unfold region1. rewrite !region_indices_nth by lia.
  f_equal. f_equal. f_equal. lia.
Qed.

Lemma region1_none n p c : (p <= c)%nat -> region1 n p c = None.
Proof.
  intros Hc. unfold region1. destruct (nth_error (region_indices n p) c); [|reflexivity].
  replace (nth_error (region_indices n p) (S c)) with (@None Z); [reflexivity|].
  symmetry. apply nth_error_None. rewrite region_indices_length. lia.
Qed.

Lemma bound_step n p i : 0 <= i -> 0 < p ->
  bound n p (i + 1) = bound n p i + n / p + (if i <? n mod p then 1 else 0).
Proof. intros. unfold bound. rewrite Z.mul_add_distr_r. destruct (i <? n mod p) eqn:E; lia. Qed.

Lemma bound_mono n p i j : 0 <= n -> 0 < p -> 0 <= i <= j -> bound n p i <= bound n p j.
Proof.
  intros Hn Hp Hij. unfold bound. assert (0 <= n / p) by (apply Z.div_pos; lia). nia.
Qed.
Lemma bound_0 n p : 0 < p -> bound n p 0 = 0.
Proof. intros. unfold bound. lia. Qed.
Lemma bound_p n p : 0 < p -> bound n p p = n.
Proof. intros. unfold bound. assert (0 <= n mod p < p) by (apply Z.mod_pos_bound; lia).
  rewrite Z.min_r by lia. rewrite (Z.div_mod n p) at 3 by lia. lia. Qed.

(* Every cell has exactly one owner. *)
Lemma owner_exists n p g : 0 < p -> 0 <= g < n ->
  exists c, 0 <= c < p /\ bound n p c <= g < bound n p (c + 1).
Proof.
  intros Hp Hg.
  assert (H : forall k, 0 <= k -> k <= p -> g < bound n p k ->
    exists c, 0 <= c < k /\ bound n p c <= g < bound n p (c + 1)).
  { intros k Hk. pattern k. apply natlike_ind; [| |exact Hk].
    - intros _ H. rewrite bound_0 in H; lia.
    - intros x Hx IH Hxp H. unfold Z.succ in *.
      destruct (Z_lt_le_dec g (bound n p x)) as [Hlt|Hge].
      + destruct (IH ltac:(lia) Hlt) as (c & Hc & Hb). exists c. split; [lia|exact Hb].
      + exists x. split; [lia|]. lia. }
  apply (H p); [lia|lia|]. rewrite bound_p; lia.
Qed.
Lemma owner_unique n p g c d : 0 <= n -> 0 < p -> 0 <= c -> 0 <= d ->
  bound n p c <= g < bound n p (c + 1) -> bound n p d <= g < bound n p (d + 1) -> c = d.
Proof.
  intros Hn Hp Hc Hd H1 H2. destruct (Z.lt_trichotomy c d) as [H|[H|H]]; [|exact H|]; exfalso.
  - pose proof (bound_mono n p (c + 1) d Hn Hp ltac:(lia)). lia.
  - pose proof (bound_mono n p (d + 1) c Hn Hp ltac:(lia)). lia.
Qed.

Lemma C09_axis n p : 0 <= n -> (1 <= p)%nat ->
  (forall c, (exists r, region1 n p c = Some r) <-> (c < p)%nat) /\
  (exists b, region1 n p 0 = Some (0, b)) /\
  (exists a, region1 n p (p - 1) = Some (a, n)) /\
  (forall c a b, region1 n p c = Some (a, b) ->
     0 <= a <= b /\ b <= n /\
     b - a = n / Z.of_nat p + (if Z.of_nat c <? n mod Z.of_nat p then 1 else 0) /\
     ((S c < p)%nat -> exists b', region1 n p (S c) = Some (b, b') /\ b' - b <= b - a <= b' - b + 1)) /\
  (forall g, 0 <= g < n -> exists! c, exists a b, region1 n p c = Some (a, b) /\ a <= g < b).
Proof.
  intros Hn Hp.
  split; [|split; [|split; [|split]]].
  - intros c. split.
    + intros [r Hr]. destruct (le_lt_dec p c) as [H|H]; [|exact H].
      rewrite region1_none in Hr by exact H. discriminate.
    + intros Hc. rewrite region1_eq by lia. eauto.
  - rewrite region1_eq by lia. cbn [Z.of_nat]. rewrite bound_0 by lia. eauto.
  - rewrite region1_eq by lia. eexists. f_equal. f_equal.
    replace (Z.of_nat (p - 1) + 1) with (Z.of_nat p) by lia. apply bound_p. lia.
  - intros c a b H.
    assert (Hc : (c < p)%nat).
    { destruct (le_lt_dec p c) as [F|F]; [|exact F]. rewrite region1_none in H by exact F. discriminate. }
    rewrite region1_eq in H by lia. inversion H; subst a b.
    assert (0 <= n / Z.of_nat p) by (apply Z.div_pos; lia).
    pose proof (bound_step n (Z.of_nat p) (Z.of_nat c) ltac:(lia) ltac:(lia)) as E.
    pose proof (bound_mono n (Z.of_nat p) 0 (Z.of_nat c) Hn ltac:(lia) ltac:(lia)) as M0.
    pose proof (bound_mono n (Z.of_nat p) (Z.of_nat c + 1) (Z.of_nat p) Hn ltac:(lia) ltac:(lia)) as M1.
    rewrite bound_0 in M0 by lia. rewrite bound_p in M1 by lia.
    assert (Hif : forall b : bool, 0 <= (if b then 1 else 0) <= 1) by (intros []; lia).
    pose proof (Hif (Z.of_nat c <? n mod Z.of_nat p)).
    split; [lia|]. split; [lia|]. split; [lia|].
    intros HS. rewrite region1_eq by lia. eexists. split.
    + f_equal. f_equal. f_equal. lia.
    + replace (Z.of_nat (S c)) with (Z.of_nat c + 1) by lia.
      rewrite (bound_step n (Z.of_nat p) (Z.of_nat c + 1)) by lia. rewrite E.
      destruct (Z.of_nat c <? n mod Z.of_nat p) eqn:F1; destruct (Z.of_nat c + 1 <? n mod Z.of_nat p) eqn:F2; lia.
  - intros g Hg. destruct (owner_exists n (Z.of_nat p) g ltac:(lia) Hg) as (c & Hc & Hb).
    exists (Z.to_nat c). split.
    + exists (bound n (Z.of_nat p) c), (bound n (Z.of_nat p) (c + 1)). split; [|lia].
      rewrite region1_eq by lia. rewrite Z2Nat.id by lia. reflexivity.
    + intros c' (a & b & Hr & Hab).
      assert (Hc' : (c' < p)%nat).
      { destruct (le_lt_dec p c') as [F|F]; [|exact F]. rewrite region1_none in Hr by exact F. discriminate. }
      rewrite region1_eq in Hr by lia. inversion Hr; subst a b.
      assert (c = Z.of_nat c'); [|lia].
      eapply owner_unique with (n := n) (p := Z.of_nat p) (g := g); lia.
Qed.

(* Several axes: cell g (list of indices) belongs to region r. *)
Definition in_region (g : list Z) (r : list (Z * Z)) : Prop :=
  Forall2 (fun x ab => fst ab <= x < snd ab) g r.

Lemma C09_all sizes split : length sizes = length split ->
  Forall (fun n => 0 <= n) sizes -> Forall (fun p => (1 <= p)%nat) split ->
  forall g, Forall2 (fun x n => 0 <= x < n) g sizes ->
  exists! coords, exists r, get_region sizes split coords = Some r /\ in_region g r.
Proof.
  revert split. induction sizes as [|n ns IH]; intros [|p ps] Hlen Hn Hp g Hg; try discriminate.
  - inversion Hg; subst. exists []. split; [exists []; split; [reflexivity|constructor]|].
    intros [|c cs] (r & Hr & _); [reflexivity|discriminate].
  - inversion Hg as [|x n' g' ns' Hx Hg']; subst. inversion Hn; inversion Hp; subst.
    destruct (C09_axis n p) as (_ & _ & _ & _ & HO); [assumption|assumption|].
    destruct (HO x Hx) as (c & (a & b & Hr & Hab) & Hu).
    destruct (IH ps ltac:(cbn in Hlen; lia) ltac:(assumption) ltac:(assumption) g' Hg') as (cs & (rs & Hrs & Hin) & Hus).
    exists (c :: cs). split.
    + exists ((a, b) :: rs). split; [cbn; now rewrite Hr, Hrs|]. constructor; assumption.
    + intros [|c' cs'] (r & Hr' & Hin'); [discriminate|]. cbn in Hr'.
      destruct (region1 n p c') as [[a' b']|] eqn:E1; [|discriminate].
      destruct (get_region ns ps cs') as [rs'|] eqn:E2; [|discriminate].
      inversion Hr'; subst r. inversion Hin'; subst.
      f_equal; [apply Hu; eauto|apply Hus; eauto].
Qed.

(* ------------------------------------------------------ coordinates ----- *)
(* centre of the global cell g *)
Definition centre (lo dx : Q) (g : Z) : Q := (lo + dx * (inject_Z g + (1 # 2)))%Q.

Lemma linspace_length a b num : length (linspace a b num) = Z.to_nat num.
Proof. unfold linspace. now rewrite map_length, seq_length. Qed.

Lemma nth_error_seq s n i : (i < n)%nat -> nth_error (seq s n) i = Some (s + i)%nat.
Proof.
  revert s i. induction n as [|n IH]; intros s i H; [lia|]. destruct i as [|i]; cbn; [f_equal; lia|].
  rewrite IH by lia. f_equal. lia.
Qed.

Lemma coords_halo_length lo dx r0 r1 h : length (coords_halo1 lo dx r0 r1 h) = Z.to_nat (r1 - r0 + 2 * h).
Proof. apply linspace_length. Qed.

Lemma coords_halo_nth lo dx r0 r1 h i : (i < Z.to_nat (r1 - r0 + 2 * h))%nat ->
  exists x, nth_error (coords_halo1 lo dx r0 r1 h) i = Some x /\
    (x == centre lo dx (r0 - h + Z.of_nat i))%Q.
Proof.
  intros Hi. unfold coords_halo1, linspace. rewrite nth_error_map, nth_error_seq by exact Hi.
  eexists. split; [reflexivity|]. unfold centre.
  set (num := r1 - r0 + 2 * h) in *. rewrite Nat.add_0_l.
  destruct (num =? 1) eqn:E.
  - assert (i = 0%nat) by lia. subst i. cbn [Z.of_nat]. rewrite Z.add_0_r.
    unfold Z.sub. rewrite inject_Z_plus, inject_Z_opp. ring.
  - assert (Hz : ~ (inject_Z (num - 1) == 0)%Q).
    { intros F. unfold Qeq, inject_Z in F. cbn in F. lia. }
    assert (E2 : (inject_Z r1 == inject_Z (num - 1) + 1 + inject_Z r0 - 2 * inject_Z h)%Q).
    { unfold inject_Z, Qeq, Qminus, Qopp, Qmult, Qplus. cbn [Qnum Qden Pos.mul]. subst num. lia. }
    rewrite E2. replace (r0 - h + Z.of_nat i) with (r0 + - h + Z.of_nat i) by lia.
    rewrite !inject_Z_plus, inject_Z_opp.
    field. exact Hz.
Qed.

Lemma nth_error_skipn {A} (l : list A) n i : nth_error (skipn n l) i = nth_error l (n + i).
Proof. revert l. induction n as [|n IH]; intros [|a l]; cbn; [reflexivity|reflexivity|now destruct i|apply IH]. Qed.
Lemma nth_error_firstn {A} (l : list A) n i : (i < n)%nat -> nth_error (firstn n l) i = nth_error l i.
Proof. revert n i. induction l as [|a l IH]; intros [|n] [|i] H; cbn; try reflexivity; try lia. apply IH; lia. Qed.

Lemma coords_eq lo dx r0 r1 h : 1 <= h -> r0 <= r1 ->
  length (coords1 lo dx r0 r1 h) = Z.to_nat (r1 - r0) /\
  forall i, (i < Z.to_nat (r1 - r0))%nat ->
    nth_error (coords1 lo dx r0 r1 h) i = nth_error (coords_halo1 lo dx r0 r1 h) (Z.to_nat h + i).
Proof.
  intros Hh Hr. unfold coords1, py_slice. rewrite coords_halo_length.
  replace (h >? 0) with true by lia. unfold norm_slice.
  replace (h <? 0) with false by lia. replace (- h <? 0) with true by lia.
  rewrite Z2Nat.id by lia.
  replace (Z.min h (r1 - r0 + 2 * h)) with h by lia.
  replace (Z.max 0 (r1 - r0 + 2 * h + - h) - h) with (r1 - r0) by lia.
  split.
  - rewrite firstn_length, skipn_length, coords_halo_length. lia.
  - intros i Hi. rewrite nth_error_firstn by exact Hi. apply nth_error_skipn.
Qed.

Lemma C10_halo lo dx r0 r1 h : 0 <= h -> r0 <= r1 ->
  Z.of_nat (length (coords_halo1 lo dx r0 r1 h)) = r1 - r0 + 2 * h /\
  forall g, r0 - h <= g < r1 + h ->
    exists x, nth_error (coords_halo1 lo dx r0 r1 h) (Z.to_nat (g - (r0 - h))) = Some x /\ (x == centre lo dx g)%Q.
Proof.
  intros Hh Hr. split; [rewrite coords_halo_length; lia|].
  intros g Hg. destruct (coords_halo_nth lo dx r0 r1 h (Z.to_nat (g - (r0 - h)))) as (x & H1 & H2); [lia|].
  exists x. split; [exact H1|]. rewrite H2. replace (r0 - h + Z.of_nat (Z.to_nat (g - (r0 - h)))) with g by lia.
  reflexivity.
Qed.

Lemma C10_inner lo dx r0 r1 h : 1 <= h -> r0 <= r1 ->
  Z.of_nat (length (coords1 lo dx r0 r1 h)) = r1 - r0 /\
  forall g, r0 <= g < r1 ->
    exists x, nth_error (coords1 lo dx r0 r1 h) (Z.to_nat (g - r0)) = Some x /\ (x == centre lo dx g)%Q.
Proof.
  intros Hh Hr. destruct (coords_eq lo dx r0 r1 h Hh Hr) as [H1 H2]. split; [lia|].
  intros g Hg. rewrite H2 by lia.
  destruct (C10_halo lo dx r0 r1 h) as [_ H]; [lia|lia|].
  destruct (H g) as (x & Hx & E); [lia|]. exists x. split; [|exact E]. rewrite <- Hx. f_equal. lia.
Qed.

Lemma coords_zero lo dx r0 r1 : r0 + 1 <= r1 -> length (coords1 lo dx r0 r1 0) = 1%nat.
Proof.
  intros H. unfold coords1, py_slice. rewrite coords_halo_length. cbn [Z.gtb Z.compare].
  unfold norm_slice. replace (0 <? 0) with false by lia. replace (1 <? 0) with false by lia.
  rewrite firstn_length, skipn_length, coords_halo_length. lia.
Qed.

(* ------------------------------------------------------ box length ------ *)
Lemma Qeq_bool_false a b : Qeq_bool a b = false <-> ~ (a == b)%Q.
Proof. rewrite <- Qeq_bool_iff. destruct (Qeq_bool a b); split; congruence. Qed.

Lemma is_integer_spec q : is_integer q = true <-> exists n, (q == inject_Z n)%Q.
Proof.
  unfold is_integer. rewrite Qeq_bool_iff. split; [eauto|]. intros [n Hn]. rewrite Hn at 2.
  rewrite Qfloor_Z. exact Hn.
Qed.

Lemma Qltb_spec a b : Qltb a b = true <-> (a < b)%Q.
Proof.
  unfold Qltb. rewrite negb_true_iff. split.
  - intros H. apply Qnot_le_lt. intros F. apply Qle_bool_iff in F. congruence.
  - intros H. destruct (Qle_bool b a) eqn:E; [|reflexivity]. apply Qle_bool_iff in E. lra.
Qed.

(* round is the nearest integer *)
Lemma py_round_near q : (Qabs (inject_Z (py_round q) - q) <= 1 # 2)%Q.
Proof.
  unfold py_round. pose proof (Qfloor_le q) as H1. pose proof (Qlt_floor q) as H2.
  rewrite inject_Z_plus in H2. change (inject_Z 1) with 1%Q in H2.
  set (f := Qfloor q) in *.
  destruct (Qle_bool (q - inject_Z f) (1 # 2)) eqn:E.
  - apply Qle_bool_iff in E.
    destruct (Qeq_bool (q - inject_Z f) (1 # 2)) eqn:E2; [apply Qeq_bool_iff in E2; destruct (Z.even f)|];
    rewrite ?inject_Z_plus; change (inject_Z 1) with 1%Q; apply Qabs_case; intros; lra.
  - assert (E' : (1 # 2 < q - inject_Z f)%Q).
    { apply Qnot_le_lt. intros F. apply Qle_bool_iff in F. congruence. }
    rewrite ?inject_Z_plus; change (inject_Z 1) with 1%Q; apply Qabs_case; intros; lra.
Qed.
Lemma py_round_eq q n : (q == inject_Z n)%Q -> py_round q = n.
Proof.
  intros H. pose proof (py_round_near q) as N.
  revert N. generalize (py_round q) as m. intros m N. rewrite H in N.
  assert (HZ : Z.abs (m - n) <= 0 \/ 1 <= Z.abs (m - n)) by lia. destruct HZ as [HZ|HZ]; [lia|].
  exfalso. assert (HQ : (1 <= inject_Z (Z.abs (m - n)))%Q).
  { change 1%Q with (inject_Z 1). rewrite <- Zle_Qle. exact HZ. }
  assert (HE : (inject_Z (Z.abs (m - n)) == Qabs (inject_Z m - inject_Z n))%Q).
  { unfold Qabs, Qminus, inject_Z, Qplus, Qopp, Qeq. cbn. f_equal. f_equal. lia. }
  rewrite HE in HQ. lra.
Qed.

Lemma global_size_exact lo hi dx n : (0 < dx)%Q -> (hi - lo == dx * inject_Z n)%Q ->
  global_size1 lo hi dx = Some n.
Proof.
  intros Hdx H. assert (E : ((hi - lo) / dx == inject_Z n)%Q).
  { rewrite H. field. intros F; lra. }
  unfold global_size1. replace (is_integer ((hi - lo) / dx)) with true.
  - f_equal. rewrite E. apply Qfloor_Z.
  - symmetry. apply is_integer_spec. eauto.
Qed.

Lemma global_size_spec lo hi dx n : (0 < dx)%Q ->
  (global_size1 lo hi dx = Some n <->
   (hi - lo == dx * inject_Z n)%Q \/
   (n = py_round ((hi - lo) / dx) /\ (Qabs (dx * inject_Z n - (hi - lo)) < dx * dx)%Q)).
Proof.
  intros Hdx.
  assert (Hd : ~ (dx == 0)%Q) by (intros F; lra).
  assert (HQ : forall m, (Qabs (dx * inject_Z m - (hi - lo)) == dx * Qabs (inject_Z m - (hi - lo) / dx))%Q).
  { intros m. rewrite <- (Qabs_pos dx) at 2 by lra. rewrite <- Qabs_Qmult. apply Qabs_wd. field. exact Hd. }
  assert (HL : forall m, (Qabs (dx * inject_Z m - (hi - lo)) < dx * dx <-> Qabs (inject_Z m - (hi - lo) / dx) < dx)%Q).
  { intros m. rewrite HQ. split; intros H; [|nra].
    apply Qnot_le_lt. intros F. nra. }
  split.
  - unfold global_size1. destruct (is_integer ((hi - lo) / dx)) eqn:E.
    + intros H. assert (n = Qfloor ((hi - lo) / dx)) as -> by congruence. left. apply is_integer_spec in E. destruct E as [m Hm].
      rewrite (Qfloor_comp _ _ Hm), Qfloor_Z. rewrite <- Hm. field. exact Hd.
    + destruct (Qltb _ _) eqn:F; [|discriminate]. intros H. assert (n = py_round ((hi - lo) / dx)) as -> by congruence. right.
      split; [reflexivity|]. apply HL. now apply Qltb_spec.
  - intros [H|[H1 H2]]; [now apply global_size_exact|].
    unfold global_size1. destruct (is_integer ((hi - lo) / dx)) eqn:E.
    + apply is_integer_spec in E. destruct E as [m Hm]. f_equal. rewrite (Qfloor_comp _ _ Hm), Qfloor_Z, H1.
      symmetry. now apply py_round_eq.
    + replace (Qltb _ _) with true; [now f_equal|]. symmetry. apply Qltb_spec. apply HL.
      rewrite <- H1. exact H2.
Qed.

Lemma region_one n : 0 <= n -> region1 n 1 0 = Some (0, n).
Proof.
  intros H. rewrite region1_eq by lia. cbn [Z.of_nat Z.add]. f_equal.
  rewrite bound_0 by lia. f_equal. apply bound_p. lia.
Qed.

Lemma C10_lemma lo dx n p c h r0 r1 : 0 <= n -> (1 <= p)%nat -> 1 <= h -> region1 n p c = Some (r0, r1) ->
  Z.of_nat (length (coords1 lo dx r0 r1 h)) = r1 - r0 /\
  Z.of_nat (length (coords_halo1 lo dx r0 r1 h)) = r1 - r0 + 2 * h /\
  (forall g, r0 <= g < r1 ->
     exists x y, nth_error (coords1 lo dx r0 r1 h) (Z.to_nat (g - r0)) = Some x /\
       nth_error (coords1 lo dx 0 n h) (Z.to_nat g) = Some y /\
       (x == y)%Q /\ (x == lo + dx * (inject_Z g + (1 # 2)))%Q) /\
  (forall g, r0 - h <= g < r1 + h ->
     exists x, nth_error (coords_halo1 lo dx r0 r1 h) (Z.to_nat (g - (r0 - h))) = Some x /\
       (x == lo + dx * (inject_Z g + (1 # 2)))%Q).
Proof.
  intros Hn Hp Hh Hr. destruct (C09_axis n p Hn Hp) as (_ & _ & _ & HA & _).
  destruct (HA c r0 r1 Hr) as (H1 & H2 & _).
  destruct (C10_inner lo dx r0 r1 h Hh ltac:(lia)) as [L1 I1].
  destruct (C10_halo lo dx r0 r1 h ltac:(lia) ltac:(lia)) as [L2 I2].
  destruct (C10_inner lo dx 0 n h Hh ltac:(lia)) as [L3 I3].
  repeat split; auto.
  intros g Hg. destruct (I1 g Hg) as (x & Hx & Ex). destruct (I3 g ltac:(lia)) as (y & Hy & Ey).
  exists x, y. rewrite Z.sub_0_r in Hy. repeat split; auto. rewrite Ex, Ey. reflexivity.
Qed.
