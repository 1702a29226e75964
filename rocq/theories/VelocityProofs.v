(* Proofs about velocity numbers in dimension 1 and 2 (C01, C02). *)
From Verif Require Import PyBase VelocityModel.
From Coq Require Import ZifyBool.
Ltac Zify.zify_post_hook ::= Z.div_mod_to_equations.
Open Scope Z_scope.

(* ---------------------------------------------------------------- 1D ---- *)
Lemma quot2_even a : Z.quot (2 * a) 2 = a.
Proof. rewrite Z.mul_comm. apply Z.quot_mul. lia. Qed.

Lemma set_coord1_num1 x : set_coord1 (set_num1 x) = x.
Proof.
  unfold set_coord1, set_num1.
  destruct (0 <? x) eqn:E.
  - replace (2 * Z.abs x - 1 + 1) with (2 * x) by lia.
    replace ((2 * x) mod 2) with 0 by lia.
    replace ((1 - 2 * 0) * (2 * x)) with (2 * x) by lia. apply quot2_even.
  - replace (2 * Z.abs x - 0 + 1) with (2 * (- x) + 1) by lia.
    replace ((2 * (- x) + 1) mod 2) with 1 by lia.
    replace ((1 - 2 * 1) * (2 * - x + 1)) with (- (2 * (- x) + 1)) by lia.
    rewrite Z.quot_opp_l by lia. rewrite Z.quot_div_nonneg by lia. lia.
Qed.

Lemma set_num1_coord1 n : 0 <= n -> set_num1 (set_coord1 n) = n.
Proof.
  intros Hn. unfold set_coord1, set_num1.
  destruct (Z.eq_dec ((n + 1) mod 2) 0) as [E|E].
  - rewrite E. replace ((1 - 2 * 0) * (n + 1)) with (n + 1) by lia.
    rewrite Z.quot_div_nonneg by lia.
    destruct (0 <? (n + 1) / 2) eqn:F; lia.
  - replace ((n + 1) mod 2) with 1 by lia.
    replace ((1 - 2 * 1) * (n + 1)) with (- (n + 1)) by lia.
    rewrite Z.quot_opp_l by lia. rewrite Z.quot_div_nonneg by lia.
    destruct (0 <? - ((n + 1) / 2)) eqn:F; lia.
Qed.

Lemma set_num1_nonneg x : 0 <= set_num1 x.
Proof. unfold set_num1. destruct (0 <? x) eqn:E; lia. Qed.

Lemma set_num1_inj x y : set_num1 x = set_num1 y -> x = y.
Proof.
  intros H. rewrite <- (set_coord1_num1 x), <- (set_coord1_num1 y). congruence.
Qed.

(* ---------------------------------------------------------------- 2D ---- *)
(* Position r of the pair (x,y) inside the ring of radius n >= 1. *)
Inductive ring2 (n : Z) : Z -> Z -> Z -> Prop :=
| ring_a0 : ring2 n 0 n 0
| ring_a1 : ring2 n 1 0 n
| ring_a2 : ring2 n 2 (- n) 0
| ring_a3 : ring2 n 3 0 (- n)
| ring_d4 : ring2 n 4 n n
| ring_d5 : ring2 n 5 (- n) n
| ring_d6 : ring2 n 6 (- n) (- n)
| ring_d7 : ring2 n 7 n (- n)
| ring_g0 j : 0 < j < n -> ring2 n (8 * j) n j
| ring_g1 j : 0 < j < n -> ring2 n (8 * j + 1) j n
| ring_g2 j : 0 < j < n -> ring2 n (8 * j + 2) (- j) n
| ring_g3 j : 0 < j < n -> ring2 n (8 * j + 3) (- n) j
| ring_g4 j : 0 < j < n -> ring2 n (8 * j + 4) (- n) (- j)
| ring_g5 j : 0 < j < n -> ring2 n (8 * j + 5) (- j) (- n)
| ring_g6 j : 0 < j < n -> ring2 n (8 * j + 6) j (- n)
| ring_g7 j : 0 < j < n -> ring2 n (8 * j + 7) n (- j).

Ltac pycmp_tac :=
  unfold pycmp, b2z;
  repeat match goal with
  | |- context [?a <? ?b] =>
      first [ replace (a <? b) with true by lia | replace (a <? b) with false by lia ]
  end.

Lemma ring2_bounds n r x y : 1 <= n -> ring2 n r x y -> 0 <= r < 8 * n.
Proof. intros Hn H; destruct H; lia. Qed.

Lemma ring2_max n r x y : 1 <= n -> ring2 n r x y -> Z.max (Z.abs x) (Z.abs y) = n.
Proof. intros Hn H; destruct H; lia. Qed.

Lemma ring2_num n r x y : 1 <= n -> ring2 n r x y ->
  set_num2 x y = Some ((2 * n - 1) * (2 * n - 1) + r).
Proof.
  intros Hn H. unfold set_num2. cbv zeta. rewrite (ring2_max _ _ _ _ Hn H).
  destruct H; pycmp_tac;
  match goal with |- context [R2_get ?a ?b ?c] =>
    let v := eval vm_compute in (R2_get a b c) in change (R2_get a b c) with v end;
  cbv iota beta; f_equal; lia.
Qed.

Lemma ring2_exists x y : (x <> 0 \/ y <> 0) ->
  exists r, ring2 (Z.max (Z.abs x) (Z.abs y)) r x y.
Proof.
  intros H.
  destruct (Z.lt_trichotomy x 0) as [Hx|[Hx|Hx]];
  destruct (Z.lt_trichotomy y 0) as [Hy|[Hy|Hy]];
  destruct (Z.lt_trichotomy (Z.abs x) (Z.abs y)) as [Hc|[Hc|Hc]]; try lia.
  all: first
   [ replace (Z.max (Z.abs x) (Z.abs y)) with x by lia
   | replace (Z.max (Z.abs x) (Z.abs y)) with y by lia
   | replace (Z.max (Z.abs x) (Z.abs y)) with (- x) by lia
   | replace (Z.max (Z.abs x) (Z.abs y)) with (- y) by lia ].
  all: try (assert (y = x) by lia; subst y).
  all: try (assert (y = - x) by lia; subst y).
  all: try subst x; try subst y.
  all: rewrite ?Z.opp_involutive.
  - exists (8 * (- x) + 5). rewrite <- (Z.opp_involutive x) at 2. rewrite <- (Z.opp_involutive y) at 2. constructor. lia.
  - exists 6. rewrite <- (Z.opp_involutive x) at 2 3. constructor.
  - exists (8 * (- y) + 4). rewrite <- (Z.opp_involutive x) at 2. rewrite <- (Z.opp_involutive y) at 2. constructor. lia.
  - exists 2. rewrite <- (Z.opp_involutive x) at 2. constructor.
  - exists (8 * (- x) + 2). rewrite <- (Z.opp_involutive x) at 2. constructor. lia.
  - exists 5. rewrite <- (Z.opp_involutive x) at 2. constructor.
  - exists (8 * y + 3). rewrite <- (Z.opp_involutive x) at 2. constructor. lia.
  - exists 3. rewrite <- (Z.opp_involutive y) at 2. constructor.
  - exists 1. constructor.
  - exists (8 * x + 6). rewrite <- (Z.opp_involutive y) at 2. constructor. lia.
  - exists 7. constructor.
  - exists (8 * (- y) + 7). rewrite <- (Z.opp_involutive y) at 2. constructor. lia.
  - exists 0. constructor.
  - exists (8 * x + 1). constructor. lia.
  - exists 4. constructor.
  - exists (8 * y). constructor. lia.
Qed.

Lemma ring2_get n r : 1 <= n -> 0 <= r < 8 * n -> exists x y, ring2 n r x y.
Proof.
  intros Hn Hr.
  destruct (Z_lt_le_dec r 8) as [H8|H8].
  - assert (E : r = 0 \/ r = 1 \/ r = 2 \/ r = 3 \/ r = 4 \/ r = 5 \/ r = 6 \/ r = 7) by lia.
    repeat destruct E as [E|E]; subst r; do 2 eexists; econstructor.
  - assert (Hq : 0 < r / 8 < n) by lia.
    assert (E : r = 8 * (r/8) \/ r = 8 * (r/8) + 1 \/ r = 8 * (r/8) + 2 \/ r = 8 * (r/8) + 3
     \/ r = 8 * (r/8) + 4 \/ r = 8 * (r/8) + 5 \/ r = 8 * (r/8) + 6 \/ r = 8 * (r/8) + 7) by lia.
    repeat destruct E as [E|E]; rewrite E; do 2 eexists; econstructor; exact Hq.
Qed.

Lemma sqrt_ring n r : 1 <= n -> 0 <= r < 8 * n ->
  (Z.sqrt ((2 * n - 1) * (2 * n - 1) + r) + 1) / 2 = n.
Proof.
  intros Hn Hr. set (m := (2 * n - 1) * (2 * n - 1) + r).
  assert (H1 : 2 * n - 1 <= Z.sqrt m).
  { apply Z.sqrt_le_square; unfold m; nia. }
  assert (H2 : Z.sqrt m < 2 * n + 1).
  { apply Z.sqrt_lt_square; unfold m; nia. }
  lia.
Qed.

Lemma quot8 a : Z.quot (8 * a) 8 = a.
Proof. rewrite Z.mul_comm. apply Z.quot_mul. lia. Qed.
Lemma quot8r j s : 0 <= j -> 0 <= s < 8 -> Z.quot (8 * j + s) 8 = j.
Proof. intros. rewrite Z.quot_div_nonneg by lia. lia. Qed.
Lemma quot8o a b : Z.quot a 8 = b -> Z.quot (- a) 8 = - b.
Proof. intros <-. apply Z.quot_opp_l. lia. Qed.

Lemma ring2_coord n r x y : 1 <= n -> ring2 n r x y ->
  set_coord2 ((2 * n - 1) * (2 * n - 1) + r) = Some (x, y).
Proof.
  intros Hn H. pose proof (ring2_bounds _ _ _ _ Hn H) as Hr.
  unfold set_coord2.
  replace ((2 * n - 1) * (2 * n - 1) + r <? 0) with false by nia.
  rewrite (sqrt_ring n r Hn Hr).
  replace ((2 * n - 1) * (2 * n - 1) + r - (2 * n - 1) * (2 * n - 1)) with r by ring.
  assert (Hgen : forall j s (u : Z * Z), 0 < j < n -> r = 8 * j + s -> 0 <= s < 8 ->
     match
      match py_index [n; 0; j; 0] 0 with Some _ => 
        match py_index [8*n; r; - r; - (8*n); - (8*n); - r; r; 8*n] s,
            py_index [r; 8*n; 8*n; r; - r; - (8*n); - (8*n); - r] s with
      | Some a, Some b => Some (a, b) | _, _ => None end | None => None end with
      | Some (a, b) => Some (Z.quot a 8, Z.quot b 8) | None => None end = Some u ->
     (if r <? 4 then
        match py_index [n; 0; - n; 0] r with
        | Some a => match py_index [0; n; 0; - n] r with Some b => Some (a, b) | None => None end
        | None => None end
      else if r <? 8 then
        match py_index [n; - n; - n; n] (r - 4) with
        | Some a => match py_index [n; n; - n; - n] (r - 4) with Some b => Some (a, b) | None => None end
        | None => None end
      else
        match
          match py_index [8 * n; r; - r; - (8 * n); - (8 * n); - r; r; 8 * n] (r mod 8) with
          | Some a =>
              match py_index [r; 8 * n; 8 * n; r; - r; - (8 * n); - (8 * n); - r] (r mod 8) with
              | Some b => Some (a, b) | None => None end
          | None => None end
        with
        | Some (a, b) => Some (Z.quot a 8, Z.quot b 8)
        | None => None end) = Some u).
  { intros j s u Hj Hrs Hs Hu.
    replace (r <? 4) with false by lia. replace (r <? 8) with false by lia.
    replace (r mod 8) with s by lia. exact Hu. }
  destruct H; try reflexivity;
  [ apply (Hgen j 0) | apply (Hgen j 1) | apply (Hgen j 2) | apply (Hgen j 3)
  | apply (Hgen j 4) | apply (Hgen j 5) | apply (Hgen j 6) | apply (Hgen j 7) ];
  try lia; cbv -[Z.mul Z.quot Z.add Z.opp];
  repeat first [ rewrite Z.quot_opp_l by lia | rewrite quot8 | rewrite quot8r by lia ];
  reflexivity.
Qed.

Lemma num2_zero : set_num2 0 0 = Some 0.
Proof. reflexivity. Qed.
Lemma coord2_zero : set_coord2 0 = Some (0, 0).
Proof. reflexivity. Qed.

Lemma ring_of_num num : 1 <= num ->
  exists n r, 1 <= n /\ 0 <= r < 8 * n /\ num = (2 * n - 1) * (2 * n - 1) + r.
Proof.
  intros H. set (s := Z.sqrt num).
  pose proof (Z.sqrt_spec num ltac:(lia)) as [Hs1 Hs2]. fold s in Hs1, Hs2.
  assert (1 <= s) by (apply Z.sqrt_le_square; lia).
  set (n := (s + 1) / 2).
  assert (Hn : 2 * n = s + 1 \/ 2 * n = s) by (unfold n; lia).
  exists n, (num - (2 * n - 1) * (2 * n - 1)).
  split; [lia|]. split; [|ring].
  unfold Z.succ in Hs2. destruct Hn; nia.
Qed.

Lemma set_num2_total x y : exists num, set_num2 x y = Some num /\ 0 <= num.
Proof.
  destruct (Z.eq_dec x 0) as [Hx|Hx]; [destruct (Z.eq_dec y 0) as [Hy|Hy]|].
  - subst. exists 0. split; [reflexivity|lia].
  - destruct (ring2_exists x y) as [r Hr]; [lia|].
    assert (Hn : 1 <= Z.max (Z.abs x) (Z.abs y)) by lia.
    eexists. split; [eapply ring2_num; eauto|].
    pose proof (ring2_bounds _ _ _ _ Hn Hr). nia.
  - destruct (ring2_exists x y) as [r Hr]; [lia|].
    assert (Hn : 1 <= Z.max (Z.abs x) (Z.abs y)) by lia.
    eexists. split; [eapply ring2_num; eauto|].
    pose proof (ring2_bounds _ _ _ _ Hn Hr). nia.
Qed.

Lemma num2_iff x y num :
  set_num2 x y = Some num <->
  (x = 0 /\ y = 0 /\ num = 0) \/
  (exists n r, 1 <= n /\ ring2 n r x y /\ num = (2 * n - 1) * (2 * n - 1) + r).
Proof.
  split.
  - intros H. destruct (Z.eq_dec x 0) as [Hx|Hx]; [destruct (Z.eq_dec y 0) as [Hy|Hy]|].
    + left. subst. rewrite num2_zero in H. inversion H. auto.
    + right. destruct (ring2_exists x y) as [r Hr]; [lia|].
      assert (Hn : 1 <= Z.max (Z.abs x) (Z.abs y)) by lia.
      rewrite (ring2_num _ _ _ _ Hn Hr) in H. inversion H. eauto.
    + right. destruct (ring2_exists x y) as [r Hr]; [lia|].
      assert (Hn : 1 <= Z.max (Z.abs x) (Z.abs y)) by lia.
      rewrite (ring2_num _ _ _ _ Hn Hr) in H. inversion H. eauto.
  - intros [(-> & -> & ->)|(n & r & Hn & Hr & ->)]; [reflexivity|].
    now apply ring2_num.
Qed.

Lemma coord2_num2 x y num : set_num2 x y = Some num -> set_coord2 num = Some (x, y).
Proof.
  rewrite num2_iff. intros [(-> & -> & ->)|(n & r & Hn & Hr & ->)]; [reflexivity|].
  now apply ring2_coord.
Qed.

Lemma num2_coord2 x y num : 0 <= num -> set_coord2 num = Some (x, y) -> set_num2 x y = Some num.
Proof.
  intros Hn H. destruct (Z.eq_dec num 0) as [->|Hnz].
  - rewrite coord2_zero in H. inversion H. reflexivity.
  - destruct (ring_of_num num) as (n & r & H1 & H2 & ->); [lia|].
    destruct (ring2_get n r H1 H2) as (a & b & Hab).
    rewrite (ring2_coord _ _ _ _ H1 Hab) in H. inversion H. subst.
    now apply ring2_num.
Qed.

Lemma coord2_total num : 0 <= num -> exists x y, set_coord2 num = Some (x, y).
Proof.
  intros Hn. destruct (Z.eq_dec num 0) as [->|Hnz]; [exists 0, 0; reflexivity|].
  destruct (ring_of_num num) as (n & r & H1 & H2 & ->); [lia|].
  destruct (ring2_get n r H1 H2) as (a & b & Hab).
  exists a, b. now apply ring2_coord.
Qed.

(* The numbers of a ring. *)
Lemma ring_numbers x y num : set_num2 x y = Some num ->
  forall n, 1 <= n ->
  (Z.max (Z.abs x) (Z.abs y) = n <-> (2 * n - 1) ^ 2 <= num <= (2 * n + 1) ^ 2 - 1).
Proof.
  rewrite num2_iff. intros [(-> & -> & ->)|(n & r & Hn & Hr & ->)] k Hk.
  - split; intros; [lia|]. exfalso. nia.
  - rewrite (ring2_max _ _ _ _ Hn Hr). pose proof (ring2_bounds _ _ _ _ Hn Hr).
    split.
    + intros ->. nia.
    + intros [H1 H2]. rewrite !Z.pow_2_r in *. nia.
Qed.
