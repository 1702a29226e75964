From Verif Require Import PyBase LinAlg SchemeModel.
From Verif Require GridProofs.
From Coq Require Import Lia Permutation.

Section Proofs.
Variable K : ring.
Add Ring Kring : (rth K).
Open Scope ring_scope'.

Lemma Forall2_sym {A B} (R : A -> B -> Prop) (m : list B) (l : list A) : Forall2 (fun b a => R a b) m l -> Forall2 R l m.
Proof. induction 1; constructor; auto. Qed.
Lemma Forall2_impl {A B} (R S : A -> B -> Prop) l m : (forall a b, R a b -> S a b) -> Forall2 R l m -> Forall2 S l m.
Proof. induction 2; constructor; auto. Qed.
(* ---- C21: block matrices ---- *)
Definition blocks_inverse (Bs Cs : list (nat * mat K)) : Prop :=
  Forall2 (fun B C => fst B = fst C /\ inverse (fst B) (snd B) (snd C)) Bs Cs.
Definition bsize (Bs : list (nat * mat K)) : nat := total (map fst Bs).

Lemma assemble_mul Bs Cs : Forall2 (fun B C => fst B = fst C /\ is_id (fst B) (mmul (fst B) (snd B) (snd C))) Bs Cs ->
  is_id (bsize Bs) (mmul (bsize Bs) (assemble zerom Bs) (assemble zerom Cs)).
Proof.
  induction 1 as [|[n B] [n' C] Bs Cs [E HI] HF IH]; intros i j Hi Hj; [cbn in Hi; lia|].
  cbn in E. subst n'. cbn [fst snd] in HI. unfold bsize, total in *. cbn [map fold_right fst] in *.
  unfold mmul. rewrite sum_split. cbn [assemble].
  destruct (Nat.ltb_spec i n) as [Hin|Hin], (Nat.ltb_spec j n) as [Hjn|Hjn].
  - rewrite (sum_zero K (fold_right _ _ _)).
    2:{ intros k Hk. destruct (Nat.ltb_spec (n + k) n); [lia|]. ring. }
    rewrite (sum_ext K n _ (fun k => B i k * C k j)%K).
    2:{ intros k Hk. destruct (Nat.ltb_spec k n); [|lia]. reflexivity. }
    change (sum n (fun k => B i k * C k j)%K) with (mmul n B C i j). rewrite HI by assumption. ring.
  - rewrite (sum_zero K (fold_right _ _ _)).
    2:{ intros k Hk. destruct (Nat.ltb_spec (n + k) n); [lia|]. ring. }
    rewrite (sum_zero K n).
    2:{ intros k Hk. destruct (Nat.ltb_spec k n); [|lia]. ring. }
    unfold idm. destruct (Nat.eqb_spec i j); [lia|]. ring.
  - rewrite (sum_zero K (fold_right _ _ _)).
    2:{ intros k Hk. destruct (Nat.ltb_spec (n + k) n); [lia|]. ring. }
    rewrite (sum_zero K n).
    2:{ intros k Hk. destruct (Nat.ltb_spec k n); [|lia]. ring. }
    unfold idm. destruct (Nat.eqb_spec i j); [lia|]. ring.
  - rewrite (sum_zero K n).
    2:{ intros k Hk. destruct (Nat.ltb_spec k n); [|lia]. ring. }
    rewrite (sum_ext K _ _ (fun k => assemble zerom Bs (i - n) k * assemble zerom Cs k (j - n))%K).
    2:{ intros k Hk. destruct (Nat.ltb_spec (n + k) n); [lia|]. now rewrite Nat.add_comm, Nat.add_sub. }
    unfold is_id, mmul in IH. rewrite IH by lia. unfold idm.
    destruct (Nat.eqb_spec i j), (Nat.eqb_spec (i - n) (j - n)); try lia; ring.
Qed.

Lemma blocks_sizes Bs Cs : blocks_inverse Bs Cs -> bsize Bs = bsize Cs.
Proof.
  intros H. unfold bsize. f_equal. induction H as [|B C Bs Cs [E _] _ IH]; cbn; [reflexivity|congruence].
Qed.

Lemma assemble_inverse Bs Cs : blocks_inverse Bs Cs ->
  inverse (bsize Bs) (assemble zerom Bs) (assemble zerom Cs).
Proof.
  intros H. split.
  - apply assemble_mul. eapply Forall2_impl; [|exact H]. intros [n B] [m C] [E [H1 _]]. auto.
  - rewrite (blocks_sizes _ _ H). apply assemble_mul. apply Forall2_sym.
    eapply Forall2_impl; [|exact H]. intros [n B] [m C] [E [_ H2]]. cbn in *. subst. auto.
Qed.

(* ---- swaps ---- *)
Definition sw (p : nat * nat) (k : nat) : nat := swapn (fst p) (snd p) k.
(* final row k comes from row [sigma ps k] *)
Definition sigma (ps : list (nat * nat)) (k : nat) : nat := fold_right sw k ps.

Lemma swapn_invol i j k : swapn i j (swapn i j k) = k.
Proof.
  unfold swapn. destruct (Nat.eqb_spec k i) as [->|H1].
  - destruct (Nat.eqb_spec j i) as [->|H2]; [reflexivity|]. now rewrite Nat.eqb_refl.
  - destruct (Nat.eqb_spec k j) as [->|H2]; [now rewrite Nat.eqb_refl|].
    destruct (Nat.eqb_spec k i); [congruence|]. destruct (Nat.eqb_spec k j); congruence.
Qed.
Lemma swapn_lt n i j k : (i < n)%nat -> (j < n)%nat -> (k < n)%nat -> (swapn i j k < n)%nat.
Proof. intros. unfold swapn. destruct (Nat.eqb k i), (Nat.eqb k j); assumption. Qed.
Lemma sw_invol p k : sw p (sw p k) = k.
Proof. apply swapn_invol. Qed.

Lemma fold_swap (sc : scheme K) ps : let sc' := fold_left swap_step ps sc in
  (forall k, sc_EQ sc' k = sc_EQ sc (sigma ps k)) /\
  (forall k, sc_s sc' k = sc_s sc (sigma ps k)) /\
  (forall k c, sc_M sc' k c = sc_M sc (sigma ps k) c) /\
  (forall r k, sc_invM sc' r k = sc_invM sc r (sigma ps k)) /\
  (forall k c, sc_Tu sc' k c = sc_Tu sc (sigma ps k) (sigma ps c)) /\
  (forall k c, sc_Tmu sc' k c = sc_Tmu sc (sigma ps k) (sigma ps c)) /\
  sc_consm sc' = sc_consm sc.
Proof.
  revert sc. induction ps as [|[i j] ps IH]; intros sc; cbn [fold_left].
  - repeat split.
  - destruct (IH (swap_step sc (i, j))) as (H1 & H2 & H3 & H4 & H5 & H6 & H7).
    repeat split; intros; rewrite ?H1, ?H2, ?H3, ?H4, ?H5, ?H6, ?H7; reflexivity.
Qed.

Definition swaps_ok (n : nat) (ps : list (nat * nat)) : Prop :=
  Forall (fun p => (fst p < n)%nat /\ (snd p < n)%nat) ps.

Lemma sigma_lt n ps k : swaps_ok n ps -> (k < n)%nat -> (sigma ps k < n)%nat.
Proof. induction 1 as [|[i j] ps [H1 H2] HF IH]; intros Hk; cbn; [exact Hk|]. unfold sw. cbn. apply swapn_lt; auto. Qed.
Lemma sigma_inj ps k l : sigma ps k = sigma ps l -> k = l.
Proof.
  induction ps as [|p ps IH]; intros H; [exact H|]. apply IH.
  change (sw p (sigma ps k) = sw p (sigma ps l)) in H.
  rewrite <- (sw_invol p (sigma ps k)), H. apply sw_invol.
Qed.
Lemma sigma_surj n ps k : swaps_ok n ps -> (k < n)%nat -> exists l, (l < n)%nat /\ sigma ps l = k.
Proof.
  intros H. revert k. induction H as [|[i j] ps [H1 H2] HF IH]; intros k Hk.
  - exists k. split; auto.
  - destruct (IH (sw (i, j) k)) as (l & Hl & E); [apply swapn_lt; auto|].
    exists l. split; [exact Hl|]. change (sw (i, j) (sigma ps l) = k). rewrite E. apply sw_invol.
Qed.

(* reordering a sum by sigma *)
Lemma sigma_perm n ps : swaps_ok n ps -> Permutation (map (sigma ps) (seq 0 n)) (seq 0 n).
Proof.
  intros H. apply NoDup_Permutation.
  - apply FinFun.Injective_map_NoDup; [intros a b; apply sigma_inj|apply seq_NoDup].
  - apply seq_NoDup.
  - intros k. rewrite in_map_iff. split.
    + intros (l & <- & Hl). apply in_seq in Hl. apply in_seq. split; [lia|]. cbn. apply sigma_lt; [exact H|lia].
    + intros Hk. apply in_seq in Hk. destruct (sigma_surj n ps k H) as (l & Hl & E); [lia|].
      exists l. split; [exact E|]. apply in_seq. lia.
Qed.
Lemma sum_sigma n ps g : swaps_ok n ps -> sum n (fun k => g (sigma ps k)) = sum (K:=K) n g.
Proof.
  intros H. unfold sum. rewrite <- (sumL_map K (sigma ps)). apply sumL_perm. now apply sigma_perm.
Qed.

Lemma inverse_swapped n ps (M N : mat K) M' N' : swaps_ok n ps -> inverse n M N ->
  (forall k c, M' k c = M (sigma ps k) c) -> (forall r k, N' r k = N r (sigma ps k)) ->
  inverse n M' N'.
Proof.
  intros Hs [H1 H2] HM HN. split; intros i j Hi Hj.
  - unfold mmul. rewrite (sum_ext K n _ (fun k => M (sigma ps i) k * N k (sigma ps j))%K) by (intros; now rewrite HM, HN).
    change (sum n _) with (mmul n M N (sigma ps i) (sigma ps j)).
    rewrite H1 by now apply sigma_lt. unfold idm.
    destruct (Nat.eqb_spec i j) as [->|Hne]; [now rewrite Nat.eqb_refl|].
    destruct (Nat.eqb_spec (sigma ps i) (sigma ps j)) as [E|]; [|reflexivity].
    apply sigma_inj in E. congruence.
  - unfold mmul. rewrite (sum_ext K n _ (fun k => N i (sigma ps k) * M (sigma ps k) j)%K) by (intros; now rewrite HM, HN).
    rewrite (sum_sigma n ps (fun k => N i k * M k j)%K Hs). now apply H2.
Qed.

Lemma permutations_ok n consm : Forall (fun p => (snd p < n)%nat) consm -> (length consm <= n)%nat ->
  swaps_ok n (permutations consm).
Proof.
  intros H Hl. unfold permutations, swaps_ok. apply Forall_forall. intros [i j] Hin.
  pose proof (in_combine_l _ _ _ _ Hin) as H1. pose proof (in_combine_r _ _ _ _ Hin) as H2.
  apply in_seq in H1. apply in_map_iff in H2 as (p & <- & Hp). rewrite Forall_forall in H. apply H in Hp.
  cbn. lia.
Qed.

(* ---- the conserved moments found by _get_conserved_moments ---- *)
Lemma leq_index_spec (EQ : nat -> eqexpr K) n : forall ptr c i, leq_index EQ ptr n c = Some i ->
  (i < n)%nat /\ EQ (ptr + i)%nat = ESym c.
Proof.
  induction n as [|n IH]; intros ptr c i H; cbn in H; [discriminate|].
  destruct (is_sym (EQ ptr) c) eqn:E.
  - inversion H; subst. split; [lia|]. rewrite Nat.add_0_r. unfold is_sym in E.
    destruct (EQ ptr); [|discriminate]. apply Nat.eqb_eq in E. now subst.
  - destruct (leq_index EQ (S ptr) n c) as [j|] eqn:Ej; [|discriminate]. inversion H; subst.
    apply IH in Ej as [H1 H2]. split; [lia|]. rewrite <- H2. f_equal. lia.
Qed.

Definition found (EQ : nat -> eqexpr K) (N : nat) (d : list (nat * nat)) : Prop :=
  Forall (fun p => (snd p < N)%nat /\ EQ (snd p) = ESym (fst p)) d /\ NoDup (map fst d).

Lemma odict_set_in d k v p : In p (odict_set d k v) -> p = (k, v) \/ In p d.
Proof.
  induction d as [|[k' v'] d IH]; cbn; [intuition|]. destruct (Nat.eqb k k').
  - intros [<-|H]; auto.
  - intros [<-|H]; auto. apply IH in H as [->|H]; auto.
Qed.
Lemma odict_set_fst d k v : In k (map fst d) /\ map fst (odict_set d k v) = map fst d \/
  ~ In k (map fst d) /\ map fst (odict_set d k v) = map fst d ++ [k].
Proof.
  induction d as [|[k' v'] d IH]; cbn; [right; auto|].
  destruct (Nat.eqb_spec k k') as [->|Hne].
  - left. cbn. auto.
  - cbn. destruct IH as [[H1 H2]|[H1 H2]].
    + left. split; [auto|now rewrite H2].
    + right. split; [|now rewrite H2]. intros [H|H]; [congruence|contradiction].
Qed.
Lemma found_set EQ N d k v : found EQ N d -> (v < N)%nat -> EQ v = ESym k -> found EQ N (odict_set d k v).
Proof.
  intros [H1 H2] Hv HE. split.
  - apply Forall_forall. intros p Hp. apply odict_set_in in Hp as [->|Hp]; [auto|].
    rewrite Forall_forall in H1. now apply H1.
  - destruct (odict_set_fst d k v) as [[_ ->]|[H ->]]; [exact H2|].
    apply (Permutation_NoDup (Permutation_cons_append _ _)). now constructor.
Qed.

Lemma add_conserved_spec EQ N ptr n : (ptr + n <= N)%nat -> forall cs d d',
  found EQ N d -> add_conserved EQ ptr n cs d = Some d' -> found EQ N d'.
Proof.
  intros HN. induction cs as [|c cs IH]; intros d d' Hd H; cbn in H; [congruence|].
  destruct (leq_index EQ ptr n c) as [i|] eqn:E; [|discriminate].
  apply leq_index_spec in E as [H1 H2]. eapply IH; [|exact H]. apply found_set; auto. lia.
Qed.
Lemma get_conserved_spec EQ N : forall sizes cons ptr d d', (ptr + total sizes <= N)%nat ->
  found EQ N d -> get_conserved EQ ptr sizes cons d = Some d' -> found EQ N d'.
Proof.
  induction sizes as [|n sizes IH]; intros cons ptr d d' HN Hd H; cbn in H; [congruence|].
  cbn in HN. destruct cons as [|cs cons]; [congruence|].
  destruct (add_conserved EQ ptr n cs d) as [d1|] eqn:E; [|discriminate].
  eapply IH; [|eapply add_conserved_spec; [|exact Hd|exact E]|exact H]; unfold total in *; lia.
Qed.

(* two symbols never have the same index *)
Lemma found_NoDup_snd EQ N d : found EQ N d -> NoDup (map snd d).
Proof.
  intros [H1 H2]. revert H1 H2. induction d as [|[k v] d IH]; intros H1 H2; cbn; [constructor|].
  inversion H1 as [|? ? [Hv HE] H1']; inversion H2 as [|? ? Hk H2']; subst. constructor; [|auto].
  intros Hin. apply in_map_iff in Hin as ([k' v'] & Ev & Hp). cbn in *. subst v'.
  rewrite Forall_forall in H1'. apply H1' in Hp as HE'. cbn in HE'. destruct HE' as [_ HE'].
  rewrite HE in HE'. inversion HE'; subst. apply Hk. apply in_map_iff. exists (k', v). auto.
Qed.
Lemma found_length EQ N d : found EQ N d -> (length d <= N)%nat.
Proof.
  intros H. pose proof (found_NoDup_snd _ _ _ H) as HN. rewrite <- (map_length snd).
  rewrite <- (seq_length N 0). apply NoDup_incl_length; [exact HN|].
  intros v Hv. apply in_map_iff in Hv as (p & <- & Hp). destruct H as [H _]. rewrite Forall_forall in H.
  apply H in Hp. apply in_seq. lia.
Qed.

(* ---- C22: placement ---- *)
(* cs: indices of the conserved moments, in order; swaps (0,c0), (1,c1), ... *)
Definition front (start : nat) (cs : list nat) : list (nat * nat) := combine (seq start (length cs)) cs.

Lemma sigma_app ps qs k : sigma (ps ++ qs) k = sigma ps (sigma qs k).
Proof. unfold sigma. now rewrite fold_right_app. Qed.

(* positions not touched *)
Lemma sigma_fix ps k : (forall p, In p ps -> fst p <> k /\ snd p <> k) -> sigma ps k = k.
Proof.
  induction ps as [|p ps IH]; intros H; [reflexivity|].
  change (sw p (sigma ps k) = k). rewrite IH by (intros; apply H; now right).
  destruct (H p (or_introl eq_refl)) as [H1 H2]. unfold sw, swapn.
  destruct (Nat.eqb_spec k (fst p)); [congruence|]. destruct (Nat.eqb_spec k (snd p)); congruence.
Qed.

Lemma front_split cs i c : nth_error cs i = Some c ->
  front 0 cs = front 0 (firstn i cs) ++ (i, c) :: front (S i) (skipn (S i) cs).
Proof.
  intros H. destruct (nth_error_split cs i H) as (l1 & l2 & -> & Hl).
  rewrite firstn_app, firstn_all2 by lia. replace (i - length l1)%nat with 0%nat by lia. cbn [firstn]. rewrite app_nil_r.
  assert (skipn (S i) (l1 ++ c :: l2) = l2) as ->.
  { rewrite skipn_app, skipn_all2 by lia. now replace (S i - length l1)%nat with 1%nat by lia. }
  unfold front. rewrite app_length. cbn [length]. rewrite seq_app. cbn [seq plus]. rewrite Hl.
  assert (HC : forall (a b : list nat) (c d : list nat), length a = length c -> combine (a ++ b) (c ++ d) = combine a c ++ combine b d).
  { clear. induction a as [|x a IH]; intros b [|y c] d H; cbn in *; try lia; [reflexivity|]. f_equal. auto. }
  rewrite HC by now rewrite seq_length. reflexivity.
Qed.

Lemma front_in start cs p : In p (front start cs) ->
  exists k, (k < length cs)%nat /\ fst p = (start + k)%nat /\ nth_error cs k = Some (snd p).
Proof.
  unfold front. revert start. induction cs as [|c cs IH]; intros start H; cbn in H; [contradiction|].
  destruct H as [<-|H].
  - exists 0%nat. cbn. repeat split; lia.
  - apply IH in H as (k & H1 & H2 & H3). exists (S k). cbn. repeat split; [lia|lia|exact H3].
Qed.

Lemma sigma_front cs i c : NoDup cs -> nth_error cs i = Some c ->
  (forall k c, nth_error cs k = Some c -> (k <= c)%nat) -> sigma (front 0 cs) i = c.
Proof.
  intros HN Hi HC. rewrite (front_split cs i c Hi), sigma_app.
  change (sigma ((i, c) :: front (S i) (skipn (S i) cs)) i) with (sw (i, c) (sigma (front (S i) (skipn (S i) cs)) i)).
  assert (Hlen : (i < length cs)%nat) by (apply nth_error_Some; congruence).
  assert (Hskip : forall k, nth_error (skipn (S i) cs) k = nth_error cs (S i + k)).
  { intros k. apply GridProofs.nth_error_skipn. }
  rewrite (sigma_fix (front (S i) _)).
  2:{ intros p Hp. apply front_in in Hp as (k & Hk & E1 & E2). split; [lia|].
      rewrite Hskip in E2. pose proof (HC _ _ E2). lia. }
  replace (sw (i, c) i) with c by (unfold sw, swapn; cbn; now rewrite Nat.eqb_refl).
  apply sigma_fix. intros p Hp. apply front_in in Hp as (k & Hk & E1 & E2).
  rewrite firstn_length in Hk.
  assert (E3 : nth_error cs k = Some (snd p)).
  { rewrite <- E2. symmetry. rewrite <- (firstn_skipn i cs) at 2. rewrite nth_error_app1; [reflexivity|]. rewrite firstn_length. lia. }
  split.
  - pose proof (HC i c Hi). lia.
  - intros E. subst c. rewrite NoDup_nth_error in HN. assert (k = i); [|lia].
    apply HN; [lia|]. congruence.
Qed.

(* the placement is right for every conserved moment only if no moment has an index
   smaller than its rank *)
Lemma sigma_front_only cs : NoDup cs ->
  (forall i c, nth_error cs i = Some c -> sigma (front 0 cs) i = c) ->
  forall i c, nth_error cs i = Some c -> (i <= c)%nat.
Proof.
  intros HN HA.
  assert (HS : forall i, (forall j c, (j < i)%nat -> nth_error cs j = Some c -> (j <= c)%nat) ->
     forall c, nth_error cs i = Some c -> (i <= c)%nat).
  { intros i Hlow c Hi. destruct (Nat.le_gt_cases i c) as [|Hlt]; [assumption|exfalso].
    assert (Hlen : (i < length cs)%nat) by (apply nth_error_Some; congruence).
    (* c < i is a rank: the moment of rank c is not at its place *)
    destruct (nth_error cs c) as [d|] eqn:Ed; [|apply nth_error_None in Ed; lia].
    pose proof (HA c d Ed) as HX. rewrite (front_split cs i c Hi), sigma_app in HX.
    change (sigma ((i, c) :: front (S i) (skipn (S i) cs)) c) with (sw (i, c) (sigma (front (S i) (skipn (S i) cs)) c)) in HX.
    assert (Hskip : forall k, nth_error (skipn (S i) cs) k = nth_error cs (S i + k)).
    { intros k. apply GridProofs.nth_error_skipn. }
    rewrite (sigma_fix (front (S i) _)) in HX.
    2:{ intros p Hp. apply front_in in Hp as (k & Hk & E1 & E2). split; [lia|].
        rewrite Hskip in E2. intros E. rewrite E in E2. rewrite NoDup_nth_error in HN.
        assert (i = S i + k)%nat; [|lia]. apply HN; [lia|congruence]. }
    replace (sw (i, c) c) with i in HX.
    2:{ unfold sw, swapn. cbn. destruct (Nat.eqb_spec c i); [lia|]. now rewrite Nat.eqb_refl. }
    (* the earlier swaps, all in place, put rank c at d; i is sent elsewhere *)
    assert (HF : forall k, nth_error (firstn i cs) k = Some d -> k = c).
    { intros k Hk. assert (Hkl : (k < length (firstn i cs))%nat) by (apply nth_error_Some; congruence).
      rewrite firstn_length in Hkl.
      assert (E3 : nth_error cs k = Some d).
      { rewrite <- Hk. symmetry. rewrite <- (firstn_skipn i cs) at 2. rewrite nth_error_app1; [reflexivity|]. rewrite firstn_length. lia. }
      rewrite NoDup_nth_error in HN. apply HN; [lia|congruence]. }
    assert (HD : sigma (front 0 (firstn i cs)) c = d).
    { apply sigma_front.
      - rewrite <- (firstn_skipn i cs) in HN. revert HN; generalize (firstn i cs) (skipn i cs); clear; induction l as [|x l IH]; intros m HN; [constructor|]; inversion HN as [|? ? Hx HN']; subst; constructor; [intros F; apply Hx; apply in_or_app; now left|now apply (IH m)].
      - rewrite <- Ed. rewrite <- (firstn_skipn i cs) at 2. rewrite nth_error_app1; [reflexivity|]. rewrite firstn_length. lia.
      - intros k e Hk. assert (Hkl : (k < length (firstn i cs))%nat) by (apply nth_error_Some; congruence).
        rewrite firstn_length in Hkl. apply (Hlow k e); [lia|].
        rewrite <- Hk. symmetry. rewrite <- (firstn_skipn i cs) at 2. rewrite nth_error_app1; [reflexivity|]. rewrite firstn_length. lia. }
    rewrite <- HD in HX. apply sigma_inj in HX. lia. }
  intros i. induction i as [i IH] using lt_wf_ind. intros c Hi. apply (HS i); [|exact Hi].
  intros j e Hj He. now apply (IH j Hj).
Qed.

Lemma permutations_front consm : permutations consm = front 0 (map snd consm).
Proof. unfold permutations, front. now rewrite map_length. Qed.

(* increasing indices satisfy the condition *)
Lemma increasing_rank cs : (forall i j a b, (i < j)%nat -> nth_error cs i = Some a -> nth_error cs j = Some b -> (a < b)%nat) ->
  forall i c, nth_error cs i = Some c -> (i <= c)%nat.
Proof.
  intros H. induction i as [|i IH]; intros c Hc; [lia|].
  destruct (nth_error cs i) as [a|] eqn:Ea.
  - pose proof (IH a eq_refl). pose proof (H i (S i) a c ltac:(lia) Ea Hc). lia.
  - apply nth_error_None in Ea. assert (S i < length cs)%nat by (apply nth_error_Some; congruence). lia.
Qed.

(* ---- relative velocity ---- *)
Lemma inverse_unique_action n (M N : mat K) : inverse n M N ->
  forall f i, (i < n)%nat -> mvmul n N (mvmul n M f) i = f i.
Proof. intros [_ H] f i Hi. now apply mvmul_inverse. Qed.
End Proofs.
