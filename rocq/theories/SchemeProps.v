(* Property theorems C21, C22: assembly of the matrices, conserved moments in front. *)
From Verif Require Import PyBase LinAlg SchemeModel SchemeProofs.

(* inverse n A B: A*B and B*A are the identity of size n.
   blocks_inverse Bs Cs: the elementary matrices are inverse of each other. *)
Theorem C21_matrices_inverse : forall (K : ring) Bs Cs (EQ : nat -> eqexpr K) s Tu Tmu cons consm,
  blocks_inverse K Bs Cs ->
  get_conserved EQ 0 (map fst Bs) cons [] = Some consm ->
  let n := fold_right Nat.add 0%nat (map fst Bs) in
  let M := assemble zerom Bs in
  let invM := assemble zerom Cs in
  let sc := permute_consm_in_front (mkScheme EQ s M invM Tu Tmu consm) in
  inverse n M invM /\ inverse n (sc_M sc) (sc_invM sc).
Proof.
  intros K Bs Cs EQ s Tu Tmu cons consm HB Hc n M invM sc.
  assert (HI : inverse n M invM) by apply (assemble_inverse K Bs Cs HB).
  split; [exact HI|].
  assert (HF : found K EQ n consm).
  { apply (get_conserved_spec K EQ n (map fst Bs) cons 0 [] consm); [unfold n, total; lia| |exact Hc].
    split; [constructor|constructor]. }
  assert (Hok : swaps_ok n (permutations consm)).
  { apply permutations_ok; [|exact (found_length K EQ n consm HF)].
    destruct HF as [HF _]. revert HF. apply Forall_impl. intros a [Ha _]. exact Ha. }
  pose proof (fold_swap K (mkScheme EQ s M invM Tu Tmu consm) (permutations consm))
    as (_ & _ & H3 & H4 & _).
  exact (inverse_swapped K n (permutations consm) M invM _ _ Hok HI H3 H4).
Qed.
Print Assumptions C21_matrices_inverse.

(* Two schemes of two velocities; the conserved moments are 7 (row 1) and 8 (row 2). *)
Definition zmat (l : list (list Z)) : mat Zring := fun i j => nth j (nth i l []) 0%Z.
Definition ex_M := zmat [[1; 2]; [0; 1]]%Z.
Definition ex_N := zmat [[1; -2]; [0; 1]]%Z.
Definition ex_EQ : nat -> eqexpr Zring := fun k =>
  nth k [EFun (fun val => val 7%nat); ESym 7; ESym 8; EFun (fun val => val 8%nat)] (ESym 0).
Definition ex_sc := mkScheme ex_EQ (fun k => Z.of_nat k : Zring) (assemble zerom [(2, ex_M); (2, ex_M)]%nat)
  (assemble zerom [(2, ex_N); (2, ex_N)]%nat) idm idm [(7, 1); (8, 2)]%nat.
Example C21_example :
  blocks_inverse Zring [(2, ex_M); (2, ex_M)]%nat [(2, ex_N); (2, ex_N)]%nat /\
  get_conserved ex_EQ 0 [2; 2]%nat [[7]; [8]]%nat [] = Some [(7, 1); (8, 2)]%nat /\
  map (fun i => map (sc_M (permute_consm_in_front ex_sc) i) [0; 1; 2; 3]%nat) [0; 1; 2; 3]%nat =
    [[0; 1; 0; 0]; [0; 0; 1; 2]; [1; 2; 0; 0]; [0; 0; 0; 1]]%Z.
Proof.
  assert (H : inverse 2 ex_M ex_N).
  { split; intros [|[|i]] [|[|j]] Hi Hj; try lia; reflexivity. }
  split; [|split; reflexivity].
  constructor; [exact (conj eq_refl H)|]. constructor; [exact (conj eq_refl H)|constructor].
Qed.

(* The arrays are all reordered by the same permutation sg of the moments, and the
   recorded indices are 0, 1, 2, ... *)
Definition moved (K : ring) (n : nat) (sc sc' : scheme K) (sg : nat -> nat) : Prop :=
  (forall k, (k < n)%nat -> (sg k < n)%nat) /\
  (forall k l, sg k = sg l -> k = l) /\
  (forall k, (k < n)%nat -> exists l, (l < n)%nat /\ sg l = k) /\
  (forall k, sc_EQ sc' k = sc_EQ sc (sg k)) /\
  (forall k, sc_s sc' k = sc_s sc (sg k)) /\
  (forall k c, sc_M sc' k c = sc_M sc (sg k) c) /\
  (forall r k, sc_invM sc' r k = sc_invM sc r (sg k)) /\
  (forall k c, sc_Tu sc' k c = sc_Tu sc (sg k) (sg c)) /\
  (forall k c, sc_Tmu sc' k c = sc_Tmu sc (sg k) (sg c)).

Definition from_description (K : ring) (sc : scheme K) (sizes : list nat) : Prop :=
  exists cons, get_conserved (sc_EQ sc) 0 sizes cons [] = Some (sc_consm sc).

Theorem C22_conserved_in_front_partial : forall (K : ring) (sc : scheme K) sizes,
  from_description K sc sizes ->
  let sc' := permute_consm_in_front sc in
  let n := fold_right Nat.add 0%nat sizes in
  map fst (sc_consm sc') = map fst (sc_consm sc) /\
  map snd (sc_consm sc') = seq 0 (length (sc_consm sc)) /\
  Forall (fun p => (snd p < n)%nat /\ sc_EQ sc (snd p) = ESym (fst p)) (sc_consm sc) /\
  NoDup (map snd (sc_consm sc)) /\
  exists sg, moved K n sc sc' sg /\
    ((forall i c p, nth_error (sc_consm sc) i = Some (c, p) -> sg i = p)
     <-> (forall i c p, nth_error (sc_consm sc) i = Some (c, p) -> (i <= p)%nat)).
Proof.
  intros K sc sizes [cons Hc] sc' n.
  assert (HF : found K (sc_EQ sc) n (sc_consm sc)).
  { apply (get_conserved_spec K (sc_EQ sc) n sizes cons 0 [] _); [unfold n, total; lia| |exact Hc].
    split; [constructor|constructor]. }
  assert (Hok : swaps_ok n (permutations (sc_consm sc))).
  { apply permutations_ok; [|exact (found_length K _ n _ HF)].
    destruct HF as [HF _]. revert HF. apply Forall_impl. intros a [Ha _]. exact Ha. }
  pose proof (found_NoDup_snd K _ _ _ HF) as Hnd.
  split.
  { unfold sc', permute_consm_in_front. cbn [sc_consm].
    generalize 0%nat. clear. induction (sc_consm sc) as [|q t IH]; intros k; [reflexivity|].
    cbn. f_equal. apply IH. }
  split.
  { unfold sc', permute_consm_in_front. cbn [sc_consm].
    generalize 0%nat. clear. induction (sc_consm sc) as [|q t IH]; intros k; [reflexivity|].
    cbn. f_equal. apply IH. }
  split; [exact (proj1 HF)|]. split; [exact Hnd|].
  exists (sigma (permutations (sc_consm sc))).
  split.
  { pose proof (fold_swap K sc (permutations (sc_consm sc))) as (H1 & H2 & H3 & H4 & H5 & H6 & _).
    split; [intros k Hk; apply sigma_lt; assumption|].
    split; [apply sigma_inj|].
    split; [intros k Hk; apply sigma_surj; assumption|].
    exact (conj H1 (conj H2 (conj H3 (conj H4 (conj H5 H6))))). }
  rewrite permutations_front.
  assert (E : forall (P : nat -> nat -> Prop),
    (forall i c p, nth_error (sc_consm sc) i = Some (c, p) -> P i p) <->
    (forall i p, nth_error (map snd (sc_consm sc)) i = Some p -> P i p)).
  { intros P. split; intros H i.
    - intros p Hp. rewrite nth_error_map in Hp. destruct (nth_error (sc_consm sc) i) as [[c q]|] eqn:E; [|discriminate].
      cbn in Hp. assert (q = p) as -> by congruence. exact (H i c p E).
    - intros c p Hp. apply H. rewrite nth_error_map, Hp. reflexivity. }
  rewrite (E (fun i p => sigma (front 0 (map snd (sc_consm sc))) i = p)), (E (fun i p => (i <= p)%nat)).
  split.
  - apply sigma_front_only. exact Hnd.
  - intros Hr i p Hp. apply sigma_front; assumption.
Qed.
Print Assumptions C22_conserved_in_front_partial.

(* Conserved moments listed in the order of their equilibria: always right. *)
Theorem C22_ordered_conserved : forall (K : ring) (sc : scheme K) sizes,
  from_description K sc sizes ->
  (forall i j c p d q, (i < j)%nat -> nth_error (sc_consm sc) i = Some (c, p) ->
     nth_error (sc_consm sc) j = Some (d, q) -> (p < q)%nat) ->
  forall i c p, nth_error (sc_consm sc) i = Some (c, p) ->
  let sc' := permute_consm_in_front sc in
  nth_error (sc_consm sc') i = Some (c, i) /\ sc_EQ sc' i = ESym c /\ sc_s sc' i = sc_s sc p /\
  forall k, sc_M sc' i k = sc_M sc p k.
Proof.
  intros K sc sizes HD Hinc i c p Hp sc'.
  destruct (C22_conserved_in_front_partial K sc sizes HD) as (H1 & H2 & H3 & _ & sg & Hm & Hiff).
  assert (Hr : forall i c p, nth_error (sc_consm sc) i = Some (c, p) -> (i <= p)%nat).
  { induction i0 as [|j IH]; intros d q Hq; [lia|].
    destruct (nth_error (sc_consm sc) j) as [[d' q']|] eqn:E.
    - pose proof (IH _ _ eq_refl). pose proof (Hinc j (S j) _ _ _ _ (Nat.lt_succ_diag_r j) E Hq). lia.
    - apply nth_error_None in E. assert (N : nth_error (sc_consm sc) (S j) <> None) by congruence.
      apply nth_error_Some in N. lia. }
  pose proof (proj2 Hiff Hr i c p Hp) as Hs.
  destruct Hm as (_ & _ & _ & HE & HS & HM & _).
  assert (Hi : (i < length (sc_consm sc))%nat) by (apply nth_error_Some; congruence).
  split.
  { fold sc' in H1, H2.
    assert (L : length (sc_consm sc') = length (sc_consm sc)).
    { rewrite <- (map_length fst), H1. apply map_length. }
    destruct (nth_error (sc_consm sc') i) as [[c' p']|] eqn:E.
    - assert (A : nth_error (map fst (sc_consm sc')) i = Some c') by (rewrite nth_error_map, E; reflexivity).
      assert (B : nth_error (map snd (sc_consm sc')) i = Some p') by (rewrite nth_error_map, E; reflexivity).
      rewrite H1, nth_error_map, Hp in A. rewrite H2 in B. cbn in A.
      rewrite (nth_error_nth' _ 0%nat) in B by (rewrite seq_length; exact Hi).
      rewrite seq_nth in B by exact Hi. cbn in B. congruence.
    - apply nth_error_None in E. lia. }
  split.
  { change (sc_EQ sc' i = ESym c). rewrite HE, Hs. rewrite Forall_forall in H3.
    exact (proj2 (H3 _ (nth_error_In _ _ Hp))). }
  split; [rewrite HS, Hs; reflexivity|].
  intros k. rewrite HM, Hs. reflexivity.
Qed.
Print Assumptions C22_ordered_conserved.

Example C22_example : from_description Zring ex_sc [2; 2]%nat /\
  sc_consm (permute_consm_in_front ex_sc) = [(7, 0); (8, 1)]%nat /\
  map (sc_s (permute_consm_in_front ex_sc)) [0; 1; 2; 3]%nat = [1; 2; 0; 3]%Z.
Proof. split; [exists [[7]; [8]]%nat; reflexivity|split; reflexivity]. Qed.

(* Where the conserved moments are: first_in EQ off n c i, the entry i of the block of n
   equilibria at the offset off is the first one which is the symbol c. *)
Definition first_in {K : ring} (EQ : nat -> eqexpr K) (off n c i : nat) : Prop :=
  (i < n)%nat /\ EQ (off + i)%nat = ESym c /\ forall j, (j < i)%nat -> EQ (off + j)%nat <> ESym c.
Definition offset (sizes : list nat) (s : nat) : nat := fold_right Nat.add 0%nat (firstn s sizes).
Lemma leq_index_first (K : ring) (EQ : nat -> eqexpr K) n : forall ptr c,
  (forall i, leq_index EQ ptr n c = Some i <-> first_in EQ ptr n c i) /\
  (leq_index EQ ptr n c = None <-> forall i, (i < n)%nat -> EQ (ptr + i)%nat <> ESym c).
Proof.
  induction n as [|n IH]; intros ptr c; cbn.
  { split; [intros i; split; [discriminate|intros [H _]; lia]|split; [intros _ i Hi; lia|reflexivity]]. }
  assert (S0 : is_sym (EQ ptr) c = true <-> EQ ptr = ESym c).
  { unfold is_sym. destruct (EQ ptr) as [c'|g]; [|split; discriminate]. rewrite Nat.eqb_eq. split; [intros ->; reflexivity|congruence]. }
  destruct (IH (S ptr) c) as [I1 I2]. destruct (is_sym (EQ ptr) c) eqn:E.
  - pose proof (proj1 S0 eq_refl) as E0. split.
    + intros i. split.
      * intros H. injection H as <-. repeat split; [lia|rewrite Nat.add_0_r; exact E0|intros j Hj; lia].
      * intros (H1 & H2 & H3). destruct i as [|i]; [reflexivity|]. exfalso. apply (H3 0%nat); [lia|]. rewrite Nat.add_0_r. exact E0.
    + split; [discriminate|]. intros H. exfalso. apply (H 0%nat); [lia|]. rewrite Nat.add_0_r. exact E0.
  - assert (N0 : EQ (ptr + 0)%nat <> ESym c) by (rewrite Nat.add_0_r; intros H; apply S0 in H; congruence).
    assert (SH : forall i, (S ptr + i)%nat = (ptr + S i)%nat) by (intros; lia).
    split.
    + intros i. destruct i as [|i].
      * split; [destruct (leq_index EQ (S ptr) n c); discriminate|intros (_ & H & _); contradiction].
      * transitivity (leq_index EQ (S ptr) n c = Some i).
        { destruct (leq_index EQ (S ptr) n c); split; congruence. }
        rewrite I1. unfold first_in. rewrite SH. split; intros (H1 & H2 & H3); (split; [lia|split; [exact H2|]]).
        -- intros [|j] Hj; [exact N0|]. rewrite <- SH. apply H3. lia.
        -- intros j Hj. rewrite SH. apply H3. lia.
    + transitivity (leq_index EQ (S ptr) n c = None).
      { destruct (leq_index EQ (S ptr) n c); split; congruence. }
      rewrite I2. split; intros H.
      * intros [|i] Hi; [exact N0|]. rewrite <- SH. apply H. lia.
      * intros i Hi. rewrite SH. apply H. lia.
Qed.
Lemma odict_get_set d k v k' : odict_get (odict_set d k v) k' = if Nat.eqb k' k then Some v else odict_get d k'.
Proof.
  induction d as [|[q w] d IH]; cbn; [destruct (Nat.eqb k' k); reflexivity|].
  destruct (Nat.eqb_spec k q) as [->|Ne]; cbn.
  - destruct (Nat.eqb_spec k' q); reflexivity.
  - rewrite IH. destruct (Nat.eqb_spec k' q) as [->|]; [|reflexivity]. destruct (Nat.eqb_spec q k); [congruence|reflexivity].
Qed.
Lemma odict_get_in d : NoDup (map fst d) -> forall c p, In (c, p) d <-> odict_get d c = Some p.
Proof.
  induction d as [|[q w] d IH]; cbn; intros N c p; [split; [intros []|discriminate]|].
  inversion N as [|? ? N1 N2]; subst. destruct (Nat.eqb_spec c q) as [->|Ne].
  - split; [|intros H; injection H as ->; auto]. intros [H|H]; [congruence|]. exfalso. apply N1. apply (in_map fst) in H. exact H.
  - rewrite <- IH by exact N2. split; [intros [H|H]; [congruence|exact H]|auto].
Qed.
Lemma add_conserved_get (K : ring) (EQ : nat -> eqexpr K) ptr n : forall cs d,
  (forall d', add_conserved EQ ptr n cs d = Some d' -> forall c p, odict_get d' c = Some p <->
     (In c cs /\ exists i, first_in EQ ptr n c i /\ p = (ptr + i)%nat) \/ (~ In c cs /\ odict_get d c = Some p)) /\
  (add_conserved EQ ptr n cs d = None <-> exists c, In c cs /\ forall i, (i < n)%nat -> EQ (ptr + i)%nat <> ESym c).
Proof.
  induction cs as [|c0 cs IH]; intros d.
  { cbn. split; [intros d' H; injection H as <-; intros c p; tauto|]. split; [discriminate|intros (c & [] & _)]. }
  cbn [add_conserved]. destruct (leq_index_first K EQ n ptr c0) as [L1 L2].
  destruct (leq_index EQ ptr n c0) as [i0|] eqn:E.
  - destruct (IH (odict_set d c0 (ptr + i0))) as [I1 I2]. pose proof (proj1 (L1 i0) eq_refl) as F0. split.
    + intros d' H c p. rewrite (I1 d' H c p), odict_get_set. cbn [In]. split.
      * intros [[A B]|[A B]]; [left; auto|]. destruct (Nat.eqb_spec c c0) as [->|Ne].
        -- injection B as <-. left. split; [auto|]. exists i0. auto.
        -- right. split; [|exact B]. intros [X|X]; [congruence|contradiction].
      * intros [[A B]|[A B]].
        -- destruct (in_dec Nat.eq_dec c cs) as [Y|Y]; [left; auto|]. destruct A as [<-|A]; [|contradiction].
           right. split; [exact Y|]. rewrite Nat.eqb_refl. destruct B as (i & Fi & ->). f_equal. f_equal.
           apply L1 in Fi. congruence.
        -- right. split; [tauto|]. destruct (Nat.eqb_spec c c0) as [->|]; [exfalso; apply A; auto|exact B].
    + rewrite I2. split; intros (c & A & B); exists c; (split; [|exact B]); [right; exact A|].
      destruct A as [<-|A]; [|exact A]. exfalso. destruct F0 as (F1 & F2 & _). apply (B i0 F1 F2).
  - split; [discriminate|]. split; [|reflexivity]. intros _. exists c0. split; [left; reflexivity|]. apply L2. reflexivity.
Qed.
Lemma get_conserved_get (K : ring) (EQ : nat -> eqexpr K) : forall sizes cons ptr d, length cons = length sizes ->
  (forall d', get_conserved EQ ptr sizes cons d = Some d' -> forall c p, odict_get d' c = Some p <->
     (exists s n cs i, nth_error sizes s = Some n /\ nth_error cons s = Some cs /\ In c cs /\
        first_in EQ (ptr + offset sizes s) n c i /\ p = (ptr + offset sizes s + i)%nat /\
        forall s' cs', (s < s')%nat -> nth_error cons s' = Some cs' -> ~ In c cs') \/
     ((forall s cs, nth_error cons s = Some cs -> ~ In c cs) /\ odict_get d c = Some p)) /\
  (get_conserved EQ ptr sizes cons d = None <-> exists s n cs c, nth_error sizes s = Some n /\
     nth_error cons s = Some cs /\ In c cs /\ forall i, (i < n)%nat -> EQ (ptr + offset sizes s + i)%nat <> ESym c).
Proof.
  induction sizes as [|n0 sizes IH]; intros [|cs0 cons] ptr d L; try discriminate.
  { cbn. split.
    - intros d' H. injection H as <-. intros c p. split.
      + intros H. right. split; [|exact H]. intros [|s] cs; discriminate.
      + intros [(s & n & cs & i & H & _)|[_ H]]; [destruct s; discriminate|exact H].
    - split; [discriminate|]. intros (s & n & cs & c & H & _). destruct s; discriminate. }
  cbn [get_conserved]. injection L as L. destruct (add_conserved_get K EQ ptr n0 cs0 d) as [A1 A2].
  assert (OS : forall s, (ptr + offset (n0 :: sizes) (S s))%nat = (ptr + n0 + offset sizes s)%nat).
  { intros s. unfold offset. cbn. lia. }
  assert (O0 : (ptr + offset (n0 :: sizes) 0)%nat = ptr) by (unfold offset; cbn; lia).
  destruct (add_conserved EQ ptr n0 cs0 d) as [d1|] eqn:E.
  - destruct (IH cons (ptr + n0)%nat d1 L) as [I1 I2]. specialize (A1 d1 eq_refl). split.
    + intros d' H c p. rewrite (I1 d' H c p). split.
      * intros [(s & n & cs & i & B1 & B2 & B3 & B4 & B5 & B6)|[B1 B2]].
        -- left. exists (S s), n, cs, i. rewrite OS. repeat split; try assumption; try apply B4.
           intros [|s'] cs' Hs; [lia|]. apply B6. lia.
        -- apply A1 in B2. destruct B2 as [(C1 & i & C2 & C3)|[C1 C2]].
           ++ left. exists 0%nat, n0, cs0, i. rewrite O0. repeat split; try assumption; try apply C2.
              intros [|s'] cs' Hs; [lia|]. apply B1.
           ++ right. split; [|exact C2]. intros [|s] cs Hs; [cbn in Hs; injection Hs as <-; exact C1|exact (B1 s cs Hs)].
      * intros [(s & n & cs & i & B1 & B2 & B3 & B4 & B5 & B6)|[B1 B2]].
        -- destruct s as [|s].
           ++ cbn in B1, B2. injection B1 as <-. injection B2 as <-. rewrite O0 in *. right. split.
              ** intros s cs Hs. apply (B6 (S s) cs); [lia|exact Hs].
              ** apply A1. left. split; [exact B3|]. exists i. auto.
           ++ rewrite OS in *. left. exists s, n, cs, i. repeat split; try assumption; try apply B4.
              intros s' cs' Hs. apply (B6 (S s') cs'). lia.
        -- right. split; [intros s cs Hs; exact (B1 (S s) cs Hs)|]. apply A1. right. split; [exact (B1 0%nat cs0 eq_refl)|exact B2].
    + rewrite I2. split.
      * intros (s & n & cs & c & B1 & B2 & B3 & B4). exists (S s), n, cs, c. rewrite OS. auto.
      * intros (s & n & cs & c & B1 & B2 & B3 & B4). destruct s as [|s].
        -- exfalso. cbn in B1, B2. injection B1 as <-. injection B2 as <-. rewrite O0 in B4.
           assert (X : Some d1 = None) by (apply A2; exists c; auto). discriminate.
        -- rewrite OS in B4. exists s, n, cs, c. auto.
  - split; [discriminate|]. split; [|reflexivity]. intros _. destruct (proj1 A2 eq_refl) as (c & C1 & C2).
    exists 0%nat, n0, cs0, c. rewrite O0. auto.
Qed.
Lemma odict_set_new d k v : ~ In k (map fst d) -> odict_set d k v = d ++ [(k, v)].
Proof.
  induction d as [|[q w] d IH]; cbn; intros H; [reflexivity|].
  destruct (Nat.eqb_spec k q); [exfalso; apply H; auto|]. f_equal. apply IH. tauto.
Qed.
Lemma add_conserved_keys (K : ring) (EQ : nat -> eqexpr K) ptr n : forall cs d d', NoDup (map fst d ++ cs) ->
  add_conserved EQ ptr n cs d = Some d' -> map fst d' = map fst d ++ cs.
Proof.
  induction cs as [|c cs IH]; intros d d' N H; cbn in H.
  - injection H as <-. rewrite app_nil_r. reflexivity.
  - destruct (leq_index EQ ptr n c) as [i|]; [|discriminate].
    assert (Nc : ~ In c (map fst d)).
    { intros X. apply NoDup_remove_2 in N. apply N. apply in_app_iff. auto. }
    rewrite odict_set_new in H by exact Nc. apply IH in H; rewrite map_app in *; cbn in *; rewrite <- app_assoc in *; assumption.
Qed.
Lemma get_conserved_keys (K : ring) (EQ : nat -> eqexpr K) : forall sizes cons ptr d d', length cons = length sizes ->
  NoDup (map fst d ++ concat cons) -> get_conserved EQ ptr sizes cons d = Some d' -> map fst d' = map fst d ++ concat cons.
Proof.
  induction sizes as [|n sizes IH]; intros [|cs cons] ptr d d' L N H; try discriminate; cbn in H.
  - injection H as <-. cbn. rewrite app_nil_r. reflexivity.
  - destruct (add_conserved EQ ptr n cs d) as [d1|] eqn:E; [|discriminate]. injection L as L. cbn in N |- *.
    rewrite app_assoc in N |- *. apply add_conserved_keys in E.
    + rewrite (IH cons (ptr + n)%nat d1 d' L); [rewrite E; reflexivity| |exact H]. rewrite E. exact N.
    + revert N. clear. rewrite <- (rev_involutive (concat cons)). induction (rev (concat cons)) as [|z t IH]; cbn; intros N.
      * rewrite app_nil_r in N. exact N.
      * apply IH. rewrite app_assoc in N. apply NoDup_remove_1 in N. rewrite app_nil_r in N. exact N.
Qed.

(* The index recorded for a conserved moment is, in the block of the last scheme which
   lists it, the first entry of the equilibria which is this symbol; the description is
   refused exactly when a scheme lists a symbol which is not one of its equilibria. *)
Theorem C22_conserved_found : forall (K : ring) (EQ : nat -> eqexpr K) sizes cons, length cons = length sizes ->
  (get_conserved EQ 0 sizes cons [] = None <-> exists s n cs c, nth_error sizes s = Some n /\
     nth_error cons s = Some cs /\ In c cs /\ forall i, (i < n)%nat -> EQ (offset sizes s + i)%nat <> ESym c) /\
  (forall d, get_conserved EQ 0 sizes cons [] = Some d ->
     (forall c p, In (c, p) d <-> exists s n cs i, nth_error sizes s = Some n /\ nth_error cons s = Some cs /\ In c cs /\
        first_in EQ (offset sizes s) n c i /\ p = (offset sizes s + i)%nat /\
        forall s' cs', (s < s')%nat -> nth_error cons s' = Some cs' -> ~ In c cs') /\
     (NoDup (concat cons) -> map fst d = concat cons)).
Proof.
  intros K EQ sizes cons L. destruct (get_conserved_get K EQ sizes cons 0 [] L) as [G1 G2]. cbn [Nat.add] in G1, G2.
  split; [exact G2|]. intros d H. split.
  - assert (ND : NoDup (map fst d)).
    { apply (get_conserved_spec K EQ (total sizes) sizes cons 0 [] d); [cbn; lia|split; constructor|exact H]. }
    intros c p. rewrite odict_get_in by exact ND. rewrite (G1 d H c p). split; [|auto]. intros [A|[_ A]]; [exact A|discriminate].
  - intros N. exact (get_conserved_keys K EQ sizes cons 0 [] d L N H).
Qed.
Print Assumptions C22_conserved_found.
Example C22_example_found : get_conserved ex_EQ 0 [2; 2]%nat [[7]; [8]]%nat [] = Some [(7, 1); (8, 2)]%nat /\
  first_in ex_EQ (offset [2; 2] 1)%nat 2 8 0 /\ get_conserved ex_EQ 0 [2; 2]%nat [[7]; [7]]%nat [] = None.
Proof. split; [reflexivity|]. split; [|reflexivity]. split; [lia|]. split; [reflexivity|intros j Hj; lia]. Qed.

(* The conserved moments [q, rho] whose equilibria are the rows 1 and 0: the two
   swaps cancel and the recorded index 0 of q is the row of rho. *)
Theorem C22_unordered_refuted : exists (sc : scheme Zring) sizes,
  from_description Zring sc sizes /\
  let sc' := permute_consm_in_front sc in
  exists i c p, nth_error (sc_consm sc) i = Some (c, p) /\ nth_error (sc_consm sc') i = Some (c, i) /\
    sc_EQ sc p = ESym c /\ sc_EQ sc' i <> ESym c /\ sc_s sc' i <> sc_s sc p.
Proof.
  exists (mkScheme (fun k => nth k [@ESym Zring 0; ESym 1] (@EFun Zring (fun _ => 0%Z)) : eqexpr Zring)
            (fun k => Z.of_nat k : Zring) idm idm idm idm [(1, 1); (0, 0)]%nat), [3]%nat.
  split; [exists [[1; 0]]%nat; reflexivity|].
  exists 0%nat, 1%nat, 1%nat. repeat split; discriminate.
Qed.
Print Assumptions C22_unordered_refuted.
