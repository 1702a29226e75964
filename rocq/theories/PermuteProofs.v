(* Proofs about permute_in_place (C05). *)
From Verif Require Import PyBase VelocityModel.
From Coq Require Import Sorting.Sorted Sorting.Permutation ZifyBool.
Open Scope Z_scope.

(* ------------------------------------------------------------------------ *)
(* Specification: lexicographic order on lists.                              *)
Inductive lexlt : list Z -> list Z -> Prop :=
| lex_head a b l m : a < b -> lexlt (a :: l) (b :: m)
| lex_tail a l m : lexlt l m -> lexlt (a :: l) (a :: m).

Definition incr (l : list Z) : Prop := StronglySorted Z.le l.
Definition noninc (l : list Z) : Prop := StronglySorted (fun x y => y <= x) l.

Lemma lexlt_irrefl l : ~ lexlt l l.
Proof. induction l as [|a l IH]; intros H; inversion H; subst; [lia|auto]. Qed.

Lemma lexlt_trans l m n : lexlt l m -> lexlt m n -> lexlt l n.
Proof.
  intros H. revert n. induction H as [a b l m Hab|a l m H IH]; intros n Hn; inversion Hn; subst.
  - apply lex_head; lia.
  - now apply lex_head.
  - now apply lex_head.
  - apply lex_tail. auto.
Qed.

Fixpoint lexltb (l m : list Z) : bool :=
  match l, m with
  | a :: l', b :: m' => (a <? b) || ((a =? b) && lexltb l' m')
  | _, _ => false
  end.

Lemma lexltb_spec l m : lexltb l m = true <-> lexlt l m.
Proof.
  revert m. induction l as [|a l IH]; intros [|b m]; cbn [lexltb].
  - split; [discriminate|inversion 1].
  - split; [discriminate|inversion 1].
  - split; [discriminate|inversion 1].
  - rewrite orb_true_iff, andb_true_iff, IH. split.
    + intros [H|[H1 H2]].
      * apply lex_head; lia.
      * replace b with a by lia. now apply lex_tail.
    + intros H; inversion H; subst; [left|right]; lia || (split; [lia|auto]).
Qed.

(* ------------------------------------------------------------------------ *)
(* Sorting.                                                                  *)
Lemma insert_perm x l : Permutation (pyinsert x l) (x :: l).
Proof.
  induction l as [|y l IH]; cbn [pyinsert]; [auto|].
  destruct (x <=? y); [auto|]. rewrite IH. apply perm_swap.
Qed.
Lemma sort_perm l : Permutation (pysort l) l.
Proof. induction l as [|x l IH]; cbn [pysort]; [auto|]. rewrite insert_perm. now constructor. Qed.

Lemma insert_incr x l : incr l -> incr (pyinsert x l).
Proof.
  unfold incr. induction 1 as [|y l H IH HF]; cbn [pyinsert].
  - repeat constructor.
  - destruct (x <=? y) eqn:E.
    + constructor; [now constructor|]. constructor; [lia|].
      eapply Forall_impl; [|exact HF]. intros; cbn in *; lia.
    + constructor; [exact IH|].
      assert (HP := insert_perm x l). symmetry in HP.
      eapply Permutation_Forall; [exact HP|]. constructor; [lia|exact HF].
Qed.
Lemma sort_incr l : incr (pysort l).
Proof. induction l as [|x l IH]; cbn [pysort]; [constructor|now apply insert_incr]. Qed.
Lemma sort_length l : length (pysort l) = length l.
Proof. apply Permutation_length, sort_perm. Qed.

Lemma SS_app (R : Z -> Z -> Prop) l m :
  StronglySorted R (l ++ m) <->
  StronglySorted R l /\ StronglySorted R m /\ (forall x y, In x l -> In y m -> R x y).
Proof.
  induction l as [|a l IH]; cbn [app].
  - split; [intros H; repeat split; auto; [constructor|intros x y []]|tauto].
  - split.
    + intros H. inversion H as [|? ? H1 H2]; subst. apply IH in H1. destruct H1 as (H3 & H4 & H5).
      rewrite Forall_app in H2. destruct H2 as [H2 H2'].
      repeat split; auto.
      * now constructor.
      * intros x y [->|Hx] Hy; [|auto]. rewrite Forall_forall in H2'. auto.
    + intros (H1 & H2 & H3). inversion H1 as [|? ? H4 H5]; subst. constructor.
      * apply IH. repeat split; auto. intros; apply H3; cbn; auto.
      * rewrite Forall_app. split; auto. apply Forall_forall. intros; apply H3; cbn; auto.
Qed.

Lemma rev_noninc l : noninc l -> incr (rev l).
Proof.
  unfold noninc, incr. induction 1 as [|a l H IH HF]; cbn [rev]; [constructor|].
  apply SS_app. repeat split; auto.
  - repeat constructor.
  - intros x y Hx [<-|[]]. rewrite Forall_forall in HF. apply HF. now apply in_rev.
Qed.

(* The increasing list is the least arrangement, the decreasing one the largest. *)
Lemma incr_min s m : incr s -> Permutation m s -> m = s \/ lexlt s m.
Proof.
  intros Hs. revert m. induction Hs as [|x s H IH HF]; intros m Hm.
  - left. apply Permutation_sym in Hm. now apply Permutation_nil in Hm.
  - destruct m as [|y m]; [apply Permutation_nil in Hm; discriminate|].
    assert (Hxy : x <= y).
    { assert (In y (x :: s)) as [<-|Hin] by (eapply Permutation_in; [exact Hm|now left]); [lia|].
      rewrite Forall_forall in HF. auto. }
    destruct (Z.eq_dec x y) as [<-|Hne].
    + apply Permutation_cons_inv in Hm. destruct (IH m Hm) as [->|Hl]; [now left|right; now constructor].
    + right. apply lex_head. lia.
Qed.

Lemma noninc_max s m : noninc s -> Permutation m s -> ~ lexlt s m.
Proof.
  intros Hs. revert m. induction Hs as [|x s H IH HF]; intros m Hm Hl.
  - inversion Hl.
  - inversion Hl as [a b l m' Hab|a l m' Hl']; subst.
    + assert (In b (x :: s)) as [<-|Hin] by (eapply Permutation_in; [exact Hm|now left]); [lia|].
      rewrite Forall_forall in HF. apply HF in Hin. lia.
    + apply Permutation_cons_inv in Hm. eapply IH; eauto.
Qed.

(* ------------------------------------------------------------------------ *)
(* The two searches.                                                         *)
Lemma nth_error_split_at {A} (l : list A) i a : nth_error l i = Some a ->
  exists p s, l = p ++ a :: s /\ length p = i.
Proof. intros H. apply nth_error_split in H. destruct H as (p & s & ? & ?). eauto. Qed.

Lemma skipn_split {A} (p : list A) a s : skipn (S (length p)) (p ++ a :: s) = s.
Proof. induction p as [|x p IH]; [reflexivity|exact IH]. Qed.
Lemma skipn_split0 {A} (p : list A) s : skipn (length p) (p ++ s) = s.
Proof. induction p as [|x p IH]; [reflexivity|exact IH]. Qed.

Lemma find_i_spec l i :
  (S i < length l)%nat -> noninc (skipn (S i) l) ->
  match find_i l i with
  | Some k => exists p a s b, l = p ++ a :: s /\ length p = k /\ noninc s
                /\ hd_error s = Some b /\ a < b
  | None => noninc l
  end.
Proof.
  induction i as [|i IH]; intros Hi Hs; cbn [find_i].
  - destruct (nth_error l 0) as [a|] eqn:Ea; [|apply nth_error_None in Ea; lia].
    destruct (nth_error l 1) as [b|] eqn:Eb; [|apply nth_error_None in Eb; lia].
    destruct l as [|a' [|b' l]]; try discriminate. cbn in Ea, Eb, Hs.
    inversion Ea; inversion Eb; subst a' b'.
    destruct (a <? b) eqn:E.
    + exists [], a, (b :: l), b. repeat split; auto; lia.
    + inversion Hs as [|? ? Hs1 HF]; subst. constructor; [exact Hs|].
      constructor; [lia|]. eapply Forall_impl; [|exact HF]. cbn. intros; lia.
  - destruct (nth_error l (S i)) as [a|] eqn:Ea; [|apply nth_error_None in Ea; lia].
    destruct (nth_error l (S (S i))) as [b|] eqn:Eb; [|apply nth_error_None in Eb; lia].
    destruct (nth_error_split_at _ _ _ Ea) as (p & s & Hl & Hp).
    assert (Hsk : skipn (S (S i)) l = s) by (rewrite Hl, <- Hp; apply skipn_split).
    rewrite Hsk in Hs.
    assert (Hb : hd_error s = Some b).
    { rewrite Hl, nth_error_app2 in Eb by lia.
      replace (S (S i) - length p)%nat with 1%nat in Eb by lia. destruct s; exact Eb. }
    destruct (a <? b) eqn:E.
    + exists p, a, s, b. repeat split; auto; lia.
    + apply IH; [lia|]. rewrite Hl, <- Hp, skipn_split0.
      destruct s as [|b' s]; [discriminate|]. inversion Hb; subst b'.
      inversion Hs as [|? ? Hs1 HF]; subst. constructor; [exact Hs|].
      constructor; [lia|]. eapply Forall_impl; [|exact HF]. cbn. intros; lia.
Qed.

(* t is the part of the suffix already rejected *)
Lemma find_j_spec p a s t :
  (exists b, hd_error s = Some b /\ a < b) -> Forall (fun x => x <= a) t ->
  exists s1 b s2, s = s1 ++ b :: s2 /\ a < b /\ Forall (fun x => x <= a) s2 /\
    find_j (p ++ a :: s ++ t) a (length p + length s) = Some (length p + 1 + length s1)%nat.
Proof.
  revert t. induction s as [|x s IH] using rev_ind; intros t (b & Hb & Hab) Ht; [discriminate|].
  assert (Hn : nth_error (p ++ a :: (s ++ [x]) ++ t) (length p + length (s ++ [x])) = Some x).
  { rewrite nth_error_app2 by lia. rewrite app_length. cbn [length].
    replace (length p + (length s + 1) - length p)%nat with (S (length s)) by lia.
    cbn [nth_error]. rewrite nth_error_app1 by (rewrite app_length; cbn; lia).
    rewrite nth_error_app2 by lia. rewrite Nat.sub_diag. reflexivity. }
  destruct (a <? x) eqn:E.
  - exists s, x, []. repeat split; auto; [lia|].
    destruct (length p + length (s ++ [x]))%nat as [|q] eqn:Eq.
    { rewrite app_length in Eq; cbn in Eq; lia. }
    cbn [find_j]. rewrite Hn, E. f_equal. rewrite <- Eq, app_length; cbn; lia.
  - destruct s as [|y s].
    { cbn in Hb. inversion Hb; subst. lia. }
    destruct (IH (x :: t)) as (s1 & b' & s2 & Hs & Hb' & HF & Hf).
    { exists b. cbn in Hb |- *. auto. }
    { constructor; [lia|exact Ht]. }
    exists s1, b', (s2 ++ [x]). repeat split; auto.
    + rewrite Hs, <- app_assoc. reflexivity.
    + apply Forall_app. split; [exact HF|]. constructor; [lia|constructor].
    + destruct (length p + length ((y :: s) ++ [x]))%nat as [|q] eqn:Eq.
      { rewrite app_length in Eq; cbn in Eq; lia. }
      cbn [find_j]. rewrite Hn, E.
      rewrite <- app_assoc. cbn [app] in *.
      replace q with (length p + length (y :: s))%nat; [exact Hf|].
      cbn [length] in *. rewrite app_length in Eq. cbn in Eq. lia.
Qed.

Lemma upd_app {A} (p : list A) a s x : upd (p ++ a :: s) (length p) x = p ++ x :: s.
Proof. induction p as [|y p IH]; cbn; [reflexivity|now rewrite IH]. Qed.

Lemma firstn_split {A} (p : list A) a s : firstn (S (length p)) (p ++ a :: s) = p ++ [a].
Proof. induction p as [|x p IH]; [reflexivity|]. change (x :: firstn (S (length p)) (p ++ a :: s) = x :: p ++ [a]). now rewrite IH. Qed.

Lemma next_spec l : (2 <= length l)%nat ->
  (noninc l /\ next_perm l = NextDone (rev l)) \/
  (exists p a s1 b s2, l = p ++ a :: s1 ++ b :: s2 /\ noninc (s1 ++ b :: s2) /\ a < b /\
     Forall (fun x => x <= a) s2 /\
     next_perm l = NextYield (p ++ b :: rev (s1 ++ a :: s2))).
Proof.
  intros Hl. unfold next_perm.
  assert (Hlast : noninc (skipn (S (length l - 2)) l)).
  { assert (H1 : length (skipn (S (length l - 2)) l) = 1%nat) by (rewrite skipn_length; lia).
    destruct (skipn (S (length l - 2)) l) as [|x [|]]; try discriminate. repeat constructor. }
  pose proof (find_i_spec l (length l - 2) ltac:(lia) Hlast) as Hf.
  destruct (find_i l (length l - 2)) as [k|]; [right|left; auto].
  destruct Hf as (p & a & s & b & Hls & Hp & Hs & Hb & Hab).
  destruct (find_j_spec p a s []) as (s1 & b' & s2 & Hs' & Hab' & HF & Hj); [eauto|constructor|].
  rewrite app_nil_r in Hj.
  exists p, a, s1, b', s2. rewrite Hls, Hs' in *. repeat split; auto.
  rewrite <- Hp, nth_error_app2, Nat.sub_diag by lia. cbn [nth_error].
  replace (length (p ++ a :: s1 ++ b' :: s2) - 1)%nat with (length p + length (s1 ++ b' :: s2))%nat
    by (rewrite !app_length; cbn [length]; rewrite !app_length; cbn [length]; lia).
  rewrite Hj. unfold swap_rev.
  rewrite nth_error_app2, Nat.sub_diag by lia. cbn [nth_error].
  assert (E : nth_error (p ++ a :: s1 ++ b' :: s2) (length p + 1 + length s1) = Some b').
  { rewrite nth_error_app2 by lia.
    replace (length p + 1 + length s1 - length p)%nat with (S (length s1)) by lia.
    cbn [nth_error]. rewrite nth_error_app2, Nat.sub_diag by lia. reflexivity. }
  rewrite E, upd_app.
  replace (upd (p ++ b' :: s1 ++ b' :: s2) (length p + 1 + length s1) a)
    with (p ++ b' :: s1 ++ a :: s2).
  2:{ replace (p ++ b' :: s1 ++ b' :: s2) with ((p ++ b' :: s1) ++ b' :: s2) by (rewrite <- app_assoc; reflexivity).
      replace (length p + 1 + length s1)%nat with (length (p ++ b' :: s1)) by (rewrite app_length; cbn; lia).
      rewrite upd_app, <- app_assoc. reflexivity. }
  rewrite firstn_split, skipn_split, <- app_assoc. reflexivity.
Qed.

(* ------------------------------------------------------------------------ *)
(* The new list is the immediate successor.                                  *)
Lemma next_is_perm (p : list Z) a s1 b s2 :
  Permutation (p ++ b :: rev (s1 ++ a :: s2)) (p ++ a :: s1 ++ b :: s2).
Proof.
  apply Permutation_app_head.
  transitivity (b :: s1 ++ a :: s2).
  - constructor. apply Permutation_sym, Permutation_rev.
  - transitivity (b :: a :: s1 ++ s2).
    + constructor. apply Permutation_sym, Permutation_middle.
    + transitivity (a :: b :: s1 ++ s2); [apply perm_swap|].
      constructor. apply Permutation_middle.
Qed.

Lemma next_greater p a s1 b s2 : a < b ->
  lexlt (p ++ a :: s1 ++ b :: s2) (p ++ b :: rev (s1 ++ a :: s2)).
Proof. intros H. induction p as [|x p IH]; cbn; [now apply lex_head|now apply lex_tail]. Qed.

Lemma next_least p a s1 b s2 m :
  noninc (s1 ++ b :: s2) -> a < b -> Forall (fun x => x <= a) s2 ->
  Permutation m (p ++ a :: s1 ++ b :: s2) ->
  lexlt (p ++ a :: s1 ++ b :: s2) m ->
  m = p ++ b :: rev (s1 ++ a :: s2) \/ lexlt (p ++ b :: rev (s1 ++ a :: s2)) m.
Proof.
  intros Hs Hab HF. revert m. induction p as [|x p IH]; intros m Hm Hlt; cbn [app] in *.
  - inversion Hlt as [u v l' m' Huv|u l' m' Hl']; subst.
    + assert (Hv : In v (a :: s1 ++ b :: s2)) by (eapply Permutation_in; [exact Hm|now left]).
      rewrite Forall_forall in HF.
      apply SS_app in Hs. destruct Hs as (Hs1 & Hs2 & Hs12).
      assert (Hbv : b <= v).
      { destruct Hv as [->|Hv]; [lia|]. apply in_app_or in Hv. destruct Hv as [Hv|[<-|Hv]].
        - apply Hs12; cbn; auto.
        - lia.
        - apply HF in Hv. lia. }
      destruct (Z.eq_dec b v) as [<-|Hne]; [|right; apply lex_head; lia].
      assert (Hm' : Permutation m' (s1 ++ a :: s2)).
      { apply (Permutation_cons_inv (a := b)). rewrite Hm.
        transitivity (a :: b :: s1 ++ s2).
        - constructor. apply Permutation_sym, Permutation_middle.
        - transitivity (b :: a :: s1 ++ s2); [apply perm_swap|].
          constructor. apply Permutation_middle. }
      destruct (incr_min (rev (s1 ++ a :: s2)) m') as [->|Hl].
      * apply rev_noninc. apply SS_app. repeat split; auto.
        -- inversion Hs2; subst. constructor; auto. apply Forall_forall. auto.
        -- intros x y Hx [<-|Hy].
           ++ pose proof (Hs12 x b Hx (or_introl eq_refl)). lia.
           ++ apply Hs12; cbn; auto.
      * rewrite Hm'. apply Permutation_rev.
      * now left.
      * right. now apply lex_tail.
    + exfalso. apply Permutation_cons_inv in Hm. eapply noninc_max; eauto.
  - inversion Hlt as [u v l' m' Huv|u l' m' Hl']; subst.
    + right. now apply lex_head.
    + apply Permutation_cons_inv in Hm. destruct (IH m' Hm Hl') as [->|Hl]; [now left|right; now apply lex_tail].
Qed.

(* ------------------------------------------------------------------------ *)
(* The loop.                                                                 *)
Lemma perm_loop_correct fuel l ys lf : (2 <= length l)%nat ->
  perm_loop fuel l = Some (ys, lf) ->
  StronglySorted lexlt (l :: ys) /\ (forall m, In m ys -> Permutation m l) /\
  (forall m, Permutation m l -> lexlt l m -> In m ys) /\
  incr lf /\ Permutation lf l.
Proof.
  revert l ys lf. induction fuel as [|fuel IH]; intros l ys lf Hl H; [discriminate|].
  cbn [perm_loop] in H.
  destruct (next_spec l Hl) as [[Hn E]|(p & a & s1 & b & s2 & Hls & Hs & Hab & HF & E)]; rewrite E in H.
  - inversion H; subst. split; [repeat constructor|]. split; [intros m []|]. split; [|split].
    + intros m Hm Hlt. exfalso. eapply noninc_max; eauto.
    + now apply rev_noninc.
    + apply Permutation_sym, Permutation_rev.
  - set (l' := p ++ b :: rev (s1 ++ a :: s2)) in *.
    assert (HP : Permutation l' l) by (rewrite Hls; apply next_is_perm).
    destruct (perm_loop fuel l') as [[ys' lf']|] eqn:E'; [|discriminate].
    inversion H; subst ys lf'. clear H.
    destruct (IH l' ys' lf) as (H1 & H2 & H3 & H4 & H5); [|exact E'|].
    { rewrite (Permutation_length HP). exact Hl. }
    assert (Hlt : lexlt l l') by (rewrite Hls; now apply next_greater).
    split; [|split; [|split; [|split]]].
    + constructor; [exact H1|]. constructor; [exact Hlt|].
      inversion H1; subst. eapply Forall_impl; [|eassumption]. intros m Hm. eapply lexlt_trans; eauto.
    + intros m [<-|Hm]; [exact HP|]. rewrite <- HP. auto.
    + intros m Hm Hlm. rewrite Hls in Hm, Hlm.
      destruct (next_least p a s1 b s2 m Hs Hab HF Hm Hlm) as [->|Hl']; [now left|].
      right. apply H3; [|exact Hl']. rewrite Hm, <- Hls. now rewrite HP.
    + exact H4.
    + now rewrite H5.
Qed.

(* Termination: the list increases strictly in a finite set of words. *)
Fixpoint words (al : list Z) (n : nat) : list (list Z) :=
  match n with
  | O => [[]]
  | S n' => flat_map (fun w => map (fun x => x :: w) al) (words al n')
  end.
Lemma words_in al n w : length w = n -> (forall x, In x w -> In x al) -> In w (words al n).
Proof.
  revert n. induction w as [|x w IH]; intros n Hn Hal; subst n; cbn; [now left|].
  apply in_flat_map. exists w. split.
  - apply IH; [reflexivity|]. intros; apply Hal; now right.
  - apply in_map_iff. exists x. split; [reflexivity|]. apply Hal. now left.
Qed.

Lemma filter_length_lt {A} (f g : A -> bool) l x :
  (forall y, f y = true -> g y = true) -> In x l -> g x = true -> f x = false ->
  (length (filter f l) < length (filter g l))%nat.
Proof.
  intros Hfg. assert (Hle : forall l, (length (filter f l) <= length (filter g l))%nat).
  { induction l0 as [|y l0 IH]; cbn; [lia|].
    destruct (f y) eqn:E; [rewrite (Hfg _ E); cbn; lia|]. destruct (g y); cbn; lia. }
  induction l as [|y l IH]; intros Hin Hg Hf; [destruct Hin|]. cbn.
  destruct Hin as [->|Hin].
  - rewrite Hg, Hf. specialize (Hle l). cbn. lia.
  - destruct (f y) eqn:E; [rewrite (Hfg _ E); cbn; specialize (IH Hin Hg Hf); lia|].
    specialize (IH Hin Hg Hf). destruct (g y); cbn; lia.
Qed.

Lemma perm_loop_terminates al n l : length l = n -> (2 <= n)%nat -> (forall x, In x l -> In x al) ->
  forall fuel, (length (filter (lexltb l) (words al n)) < fuel)%nat -> perm_loop fuel l <> None.
Proof.
  intros Hn H2 Hal fuel. revert l Hn Hal.
  induction fuel as [|fuel IH]; intros l Hn Hal Hf; [lia|]. cbn [perm_loop].
  destruct (next_spec l) as [[Hni E]|(p & a & s1 & b & s2 & Hls & Hs & Hab & HF & E)]; [lia| |];
    rewrite E; [discriminate|].
  set (l' := p ++ b :: rev (s1 ++ a :: s2)) in *.
  assert (HP : Permutation l' l) by (rewrite Hls; apply next_is_perm).
  assert (Hl' : length l' = n) by (rewrite (Permutation_length HP); exact Hn).
  assert (Hal' : forall x, In x l' -> In x al) by (intros; apply Hal; eapply Permutation_in; eauto).
  specialize (IH l' Hl' Hal').
  destruct (perm_loop fuel l') as [[ys lf]|]; [discriminate|].
  exfalso. apply IH; [|reflexivity].
  apply Nat.lt_le_trans with (length (filter (lexltb l) (words al n))); [|lia].
  assert (Hlt : lexlt l l') by (rewrite Hls; now apply next_greater).
  apply filter_length_lt with l'.
  - intros y Hy. apply lexltb_spec. apply lexltb_spec in Hy. eapply lexlt_trans; eauto.
  - now apply words_in.
  - now apply lexltb_spec.
  - destruct (lexltb l' l') eqn:F; [|reflexivity]. apply lexltb_spec in F. now apply lexlt_irrefl in F.
Qed.

Lemma perm_loop_mono fuel fuel' l r : (fuel <= fuel')%nat ->
  perm_loop fuel l = Some r -> perm_loop fuel' l = Some r.
Proof.
  revert fuel' l r. induction fuel as [|fuel IH]; intros fuel' l r Hle H; [discriminate|].
  destruct fuel' as [|fuel']; [lia|]. cbn [perm_loop] in *.
  destruct (next_perm l); auto.
  destruct (perm_loop fuel l0) as [[ys lf]|] eqn:E; [|discriminate].
  rewrite (IH fuel' _ _ ltac:(lia) E). exact H.
Qed.

(* ------------------------------------------------------------------------ *)
(* Main result.                                                              *)
Lemma permute_correct l fuel ys lf : permute_in_place fuel l = Some (ys, lf) ->
  StronglySorted lexlt ys /\ (forall m, In m ys <-> Permutation m l) /\
  incr lf /\ Permutation lf l.
Proof.
  unfold permute_in_place. pose proof (sort_perm l) as HP. pose proof (sort_incr l) as HI.
  destruct (length (pysort l) <=? 1)%nat eqn:E.
  - intros H; inversion H; subst. clear H. split; [repeat constructor|].
    split; [|split; [exact HI|exact HP]].
    intros m. split.
    + intros [<-|[]]. exact HP.
    + intros Hm. left. apply Nat.leb_le in E.
      assert (Hm' : Permutation m (pysort l)) by (rewrite HP; exact Hm).
      apply Permutation_sym in Hm'.
      destruct (pysort l) as [|x [|y t]]; cbn in E; try lia.
      * apply Permutation_nil in Hm'. congruence.
      * apply Permutation_length_1_inv in Hm'. congruence.
  - destruct (perm_loop fuel (pysort l)) as [[ys' lf']|] eqn:F; [|discriminate].
    intros H; inversion H; subst. clear H.
    apply Nat.leb_gt in E.
    destruct (perm_loop_correct fuel (pysort l) ys' lf ltac:(lia) F) as (H1 & H2 & H3 & H4 & H5).
    split; [exact H1|]. split; [|split; [exact H4|now rewrite H5]].
    intros m. split.
    + intros [<-|Hm]; [exact HP|]. rewrite (H2 _ Hm). exact HP.
    + intros Hm. assert (Hm' : Permutation m (pysort l)) by (rewrite HP; exact Hm).
      destruct (incr_min _ _ HI Hm') as [->|Hlt]; [now left|right; auto].
Qed.

Lemma permute_terminates l : exists n, forall fuel, (n <= fuel)%nat ->
  exists ys lf, permute_in_place fuel l = Some (ys, lf).
Proof.
  set (s := pysort l).
  exists (S (length (filter (lexltb s) (words s (length s))))).
  intros fuel Hf. unfold permute_in_place. fold s.
  destruct (length s <=? 1)%nat eqn:E; [eauto|]. apply Nat.leb_gt in E.
  pose proof (perm_loop_terminates s (length s) s eq_refl ltac:(lia) ltac:(auto) fuel ltac:(lia)) as H.
  destruct (perm_loop fuel s) as [[ys lf]|]; [eauto|congruence].
Qed.

Lemma permute_mono fuel fuel' l r : (fuel <= fuel')%nat ->
  permute_in_place fuel l = Some r -> permute_in_place fuel' l = Some r.
Proof.
  unfold permute_in_place. intros Hle.
  destruct (length (pysort l) <=? 1)%nat; [auto|].
  destruct (perm_loop fuel (pysort l)) as [[ys lf]|] eqn:E; [|discriminate].
  now rewrite (perm_loop_mono _ _ _ _ Hle E).
Qed.

(* Summary statement. *)
Lemma permute_all l : exists ys lf,
  (exists n, forall fuel, (n <= fuel)%nat -> permute_in_place fuel l = Some (ys, lf)) /\
  NoDup ys /\ StronglySorted lexlt ys /\ (forall m, In m ys <-> Permutation m l) /\
  StronglySorted Z.le lf /\ Permutation lf l.
Proof.
  destruct (permute_terminates l) as [n Hn].
  destruct (Hn n (Nat.le_refl n)) as (ys & lf & H).
  exists ys, lf. split; [exists n; intros fuel Hf; now apply permute_mono with n|].
  destruct (permute_correct _ _ _ _ H) as (H1 & H2 & H3 & H4).
  split; [|auto].
  clear - H1. induction H1 as [|a l H IH HF]; constructor; auto.
  intros Hin. rewrite Forall_forall in HF. apply HF in Hin. now apply lexlt_irrefl in Hin.
Qed.
