(* Proofs about Stencil (C06, C07, C08). *)
From Verif Require Import PyBase VelocityModel VelocityProofs PermuteProofs Velocity3Proofs StencilModel.
From Coq Require Import Sorting.Sorted Sorting.Permutation ZifyBool.
Open Scope Z_scope.

(* ------------------------------------------------------ lists ----------- *)
Lemma Forall2_length {A B} (R : A -> B -> Prop) l r : Forall2 R l r -> length l = length r.
Proof. induction 1; cbn; congruence. Qed.
Lemma mapM_spec {A B} (f : A -> option B) l r :
  mapM f l = Some r <-> Forall2 (fun x y => f x = Some y) l r.
Proof.
  revert r. induction l as [|x l IH]; intros r; cbn.
  - split; [intros H; inversion H; constructor|inversion 1; reflexivity].
  - split.
    + destruct (f x) as [y|] eqn:E; [|discriminate]. destruct (mapM f l) as [u|]; [|discriminate].
      intros H; inversion H; subst. constructor; [exact E|]. now apply IH.
    + inversion 1 as [|? y ? u H1 H2]; subst. rewrite H1. apply IH in H2. now rewrite H2.
Qed.

Lemma mapM_total {A B} (f : A -> option B) l :
  (forall x, In x l -> exists y, f x = Some y) -> exists r, mapM f l = Some r.
Proof.
  induction l as [|x l IH]; intros H; cbn; [eauto|].
  destruct (H x (or_introl eq_refl)) as [y ->].
  destruct IH as [u ->]; [intros; apply H; now right|eauto].
Qed.

Definition strictly (l : list Z) : Prop := StronglySorted Z.lt l.

Lemma dedup_in x l : In x (dedup l) <-> In x l.
Proof.
  induction l as [|a l IH]; cbn [dedup]; [tauto|].
  destruct (dedup l) as [|y u] eqn:E.
  - cbn. cbn in IH. tauto.
  - destruct (a =? y) eqn:F.
    + assert (a = y) by lia. subst. cbn in *. tauto.
    + cbn in *. tauto.
Qed.

Lemma dedup_strict l : incr l -> strictly (dedup l).
Proof.
  unfold incr, strictly. induction 1 as [|a l H IH HF]; cbn [dedup]; [constructor|].
  destruct (dedup l) as [|y u] eqn:E.
  - repeat constructor.
  - destruct (a =? y) eqn:F; [exact IH|].
    assert (Hy : In y l) by (apply dedup_in; rewrite E; now left).
    rewrite Forall_forall in HF. pose proof (HF y Hy).
    inversion IH as [|? ? Hu HFu]; subst.
    constructor; [exact IH|]. constructor; [lia|].
    eapply Forall_impl; [|exact HFu]. cbn. intros; lia.
Qed.

Lemma union1d_in a b x : In x (union1d a b) <-> In x a \/ In x b.
Proof.
  unfold union1d. rewrite dedup_in.
  rewrite <- in_app_iff. split; apply Permutation_in; [apply sort_perm|apply Permutation_sym, sort_perm].
Qed.
Lemma union1d_strict a b : strictly (union1d a b).
Proof. apply dedup_strict, sort_incr. Qed.

Lemma unique_spec schemes :
  strictly (unique_indices schemes) /\
  forall x, In x (unique_indices schemes) <-> exists s, In s schemes /\ In x s.
Proof.
  unfold unique_indices.
  assert (H : forall acc, strictly acc ->
    strictly (fold_left union1d schemes acc) /\
    forall x, In x (fold_left union1d schemes acc) <-> In x acc \/ exists s, In s schemes /\ In x s).
  { induction schemes as [|s t IH]; intros acc Hacc; cbn [fold_left].
    - split; [exact Hacc|]. intros x. split; [auto|]. intros [?|(s & [] & _)]; auto.
    - destruct (IH (union1d acc s) (union1d_strict acc s)) as [H1 H2]. split; [exact H1|].
      intros x. rewrite H2, union1d_in. split.
      + intros [[?|?]|(s' & ? & ?)]; [auto|right; exists s; cbn; auto|right; exists s'; cbn; auto].
      + intros [?|(s' & [<-|?] & ?)]; [auto|auto|right; exists s'; auto]. }
  destruct (H []) as [H1 H2]; [constructor|]. split; [exact H1|].
  intros x. rewrite H2. cbn. tauto.
Qed.

Lemma strictly_NoDup l : strictly l -> NoDup l.
Proof.
  induction 1 as [|a l H IH HF]; constructor; auto.
  intros Hin. rewrite Forall_forall in HF. apply HF in Hin. lia.
Qed.

(* searchsorted finds an entry which is present. *)
Lemma searchsorted_nth a x : strictly a -> In x a -> nth_error a (searchsorted a x) = Some x.
Proof.
  induction 1 as [|y a H IH HF]; intros Hin; [destruct Hin|]. cbn.
  destruct Hin as [->|Hin].
  - replace (x <? x) with false by lia. reflexivity.
  - rewrite Forall_forall in HF. pose proof (HF x Hin). replace (y <? x) with true by lia. cbn. auto.
Qed.

Lemma searchsorted_right_spec a x k : StronglySorted Z.le a ->
  (forall i y, nth_error a i = Some y -> (i < k)%nat -> y <= x) ->
  (forall y, nth_error a k = Some y -> x < y) -> (k <= length a)%nat ->
  searchsorted_right a x = k.
Proof.
  intros H. revert k. induction H as [|y a H IH HF]; intros k H1 H2 Hk; cbn in *.
  - lia.
  - destruct k as [|k].
    + specialize (H2 y eq_refl). replace (y <=? x) with false by lia. reflexivity.
    + specialize (H1 0%nat y eq_refl) as H1'. replace (y <=? x) with true by lia. f_equal.
      apply IH; [|exact H2|lia]. intros i z Hi Hik. apply (H1 (S i)); [exact Hi|lia].
Qed.

(* ------------------------------------------------------ nv_ptr ---------- *)
Definition total (schemes : list (list Z)) : Z := Z.of_nat (length (concat schemes)).

Lemma nv_ptr_length p schemes : length (nv_ptr_from p schemes) = S (length schemes).
Proof. revert p. induction schemes as [|s t IH]; intros p; cbn; [reflexivity|now rewrite IH]. Qed.

Lemma nv_ptr_nth p schemes k : (k <= length schemes)%nat ->
  nth_error (nv_ptr_from p schemes) k = Some (p + total (firstn k schemes)).
Proof.
  revert p k. induction schemes as [|s t IH]; intros p k Hk.
  - cbn in Hk. assert (k = 0%nat) by lia. subst. cbn. unfold total; cbn. f_equal; lia.
  - destruct k as [|k]; cbn.
    + unfold total; cbn. f_equal; lia.
    + cbn in Hk. rewrite IH by lia. unfold total. cbn. rewrite app_length. f_equal. lia.
Qed.

Lemma nv_ptr_sorted p schemes : StronglySorted Z.le (nv_ptr_from p schemes) /\
  (forall x, In x (nv_ptr_from p schemes) -> p <= x).
Proof.
  revert p. induction schemes as [|s t IH]; intros p; cbn.
  - split; [repeat constructor|]. intros x [<-|[]]; lia.
  - destruct (IH (p + Z.of_nat (length s))) as [H1 H2]. split.
    + constructor; [exact H1|]. apply Forall_forall. intros x Hx. apply H2 in Hx. lia.
    + intros x [<-|Hx]; [lia|]. apply H2 in Hx. lia.
Qed.

(* ------------------------------------------------------ unum2index ------ *)
Lemma upd_length {A} (l : list A) i x : length (upd l i x) = length l.
Proof. revert i. induction l as [|a l IH]; intros [|i]; cbn; auto. Qed.
Lemma upd_nth_same {A} (l : list A) i x : (i < length l)%nat -> nth_error (upd l i x) i = Some x.
Proof. revert i. induction l as [|a l IH]; intros [|i] H; cbn in *; [lia|lia|reflexivity|]. apply IH. lia. Qed.
Lemma upd_nth_other {A} (l : list A) i j x : i <> j -> nth_error (upd l i x) j = nth_error l j.
Proof. revert i j. induction l as [|a l IH]; intros [|i] [|j] H; cbn; auto; congruence. Qed.

Lemma write_index_spec unum : forall arr k,
  NoDup unum -> (forall n, In n unum -> 0 <= n < Z.of_nat (length arr)) ->
  length (write_index arr unum k) = length arr /\
  (forall i n, nth_error unum i = Some n ->
     nth_error (write_index arr unum k) (Z.to_nat n) = Some (k + Z.of_nat i)) /\
  (forall m, ~ In (Z.of_nat m) unum -> nth_error (write_index arr unum k) m = nth_error arr m).
Proof.
  induction unum as [|n t IH]; intros arr k HN Hr; cbn [write_index].
  - repeat split; auto. intros [|i] n; discriminate.
  - inversion HN as [|? ? Hn HN']; subst.
    destruct (IH (upd arr (Z.to_nat n) k) (k + 1) HN') as (H1 & H2 & H3).
    { intros m Hm. rewrite upd_length. apply Hr. now right. }
    rewrite upd_length in H1. pose proof (Hr n (or_introl eq_refl)) as Hrn.
    repeat split; [exact H1| |].
    + intros [|i] m Hm; cbn in Hm.
      * inversion Hm; subst m. rewrite H3 by (rewrite Z2Nat.id by lia; exact Hn).
        rewrite upd_nth_same by lia. f_equal; lia.
      * rewrite (H2 i m Hm). f_equal; lia.
    + intros m Hm. rewrite H3 by (intros F; apply Hm; now right).
      apply upd_nth_other. intros F. apply Hm. left. lia.
Qed.

Lemma zmax_fold l a : let m := fold_left Z.max l a in (a <= m /\ forall x, In x l -> x <= m) /\ (m = a \/ In m l).
Proof.
  cbv zeta. revert a. induction l as [|x l IH]; intros a; cbn [fold_left].
  - repeat split; [lia|intros x []|now left].
  - destruct (IH (Z.max a x)) as [[H1 H2] H3]. repeat split.
    + lia.
    + intros y [<-|Hy]; [lia|auto].
    + destruct H3 as [H3|H3]; [|right; now right]. rewrite H3 in *.
      destruct (Z.max_spec a x) as [[? ->]|[? ->]]; [right; now left|now left].
Qed.
Lemma zmin_fold l a : let m := fold_left Z.min l a in (m <= a /\ forall x, In x l -> m <= x) /\ (m = a \/ In m l).
Proof.
  cbv zeta. revert a. induction l as [|x l IH]; intros a; cbn [fold_left].
  - repeat split; [lia|intros x []|now left].
  - destruct (IH (Z.min a x)) as [[H1 H2] H3]. repeat split.
    + lia.
    + intros y [<-|Hy]; [lia|auto].
    + destruct H3 as [H3|H3]; [|right; now right]. rewrite H3 in *.
      destruct (Z.min_spec a x) as [[? ->]|[? ->]]; [now left|right; now left].
Qed.
Lemma zmax_list_spec l m : zmax_list l = Some m <-> In m l /\ forall x, In x l -> x <= m.
Proof.
  destruct l as [|a l]; cbn [zmax_list].
  - split; [discriminate|intros [[] _]].
  - destruct (zmax_fold l a) as [[H1 H2] H3]. split.
    + intros H; inversion H as [E]. split; [destruct H3; [left; congruence|now right]|].
      intros x [<-|Hx]; auto.
    + intros [Hin Hle]. f_equal. apply Z.le_antisymm.
      * apply Hle. destruct H3 as [->|?]; [now left|now right].
      * destruct Hin as [<-|Hin]; auto.
Qed.
Lemma zmin_list_spec l m : zmin_list l = Some m <-> In m l /\ forall x, In x l -> m <= x.
Proof.
  destruct l as [|a l]; cbn [zmin_list].
  - split; [discriminate|intros [[] _]].
  - destruct (zmin_fold l a) as [[H1 H2] H3]. split.
    + intros H; inversion H as [E]. split; [destruct H3; [left; congruence|now right]|].
      intros x [<-|Hx]; auto.
    + intros [Hin Hle]. f_equal. apply Z.le_antisymm.
      * destruct Hin as [<-|Hin]; auto.
      * apply Hle. destruct H3 as [->|?]; [now left|now right].
Qed.

(* ------------------------------------------------------ build ----------- *)
(* numbers the user may give: nonnegative (the ones with a velocity). *)
Definition nonneg (schemes : list (list Z)) : Prop := forall s x, In s schemes -> In x s -> 0 <= x.

Lemma Forall2_map_eq {A B} (f : A -> option B) (g : B -> A) l r :
  (forall x y, In x l -> f x = Some y -> g y = x) ->
  Forall2 (fun x y => f x = Some y) l r -> map g r = l.
Proof.
  intros Hg H. induction H as [|x y l r H1 H2 IH]; cbn; [reflexivity|].
  rewrite (Hg x y (or_introl eq_refl) H1), IH; auto. intros; eapply Hg; eauto. now right.
Qed.
Lemma Forall2_Forall_r {A B} (P : A -> B -> Prop) (Q : B -> Prop) l r :
  (forall x y, In x l -> P x y -> Q y) -> Forall2 P l r -> Forall Q r.
Proof.
  intros HQ H. induction H as [|x y l r H1 H2 IH]; constructor.
  - eapply HQ; eauto. now left.
  - apply IH. intros; eapply HQ; eauto. now right.
Qed.

(* Facts about a successfully built stencil. *)
Record built (dim : Z) (schemes : list (list Z)) (st : stencil) : Prop := {
  b_dim : sdim st = dim;
  b_uwf : Forall (fun v => wf_velocity v /\ vdim v = dim) (sunique st);
  b_ustrict : strictly (map vnum (sunique st));
  b_uin : forall n, In n (map vnum (sunique st)) <-> exists s, In s schemes /\ In n s;
  b_v : map (map vnum) (sv st) = schemes;
  b_vin : forall vs v, In vs (sv st) -> In v vs -> In v (sunique st);
  b_nv : snv st = map (fun s => Z.of_nat (length s)) schemes;
  b_ptr : snv_ptr st = nv_ptr_from 0 schemes;
  b_n2i : snum2index st = concat schemes;
  b_u2i : forall i n, nth_error (map vnum (sunique st)) i = Some n ->
            nth_error (sunum2index st) (Z.to_nat n) = Some (Z.of_nat i);
  b_u2i_out : forall m x, ~ In (Z.of_nat m) (map vnum (sunique st)) ->
            nth_error (sunum2index st) m = Some x -> x = -1000
}.

Lemma build_facts dim schemes st : nonneg schemes ->
  build_stencil dim schemes = Some st -> built dim schemes st.
Proof.
  intros Hnn H. unfold build_stencil in H.
  destruct (unique_spec schemes) as [Hus Hui].
  destruct (mapM (vel_of_num dim) (unique_indices schemes)) as [uv|] eqn:E1; [|discriminate].
  destruct (mapM (scheme_velocities uv) schemes) as [v|] eqn:E2; [|discriminate].
  destruct (make_unum2index (map vnum uv)) as [u2i|] eqn:E3; [|discriminate].
  destruct (existsb _ schemes) eqn:E5; [discriminate|].
  inversion H; subst st; clear H.
  apply mapM_spec in E1. apply mapM_spec in E2.
  assert (Hunn : forall x, In x (unique_indices schemes) -> 0 <= x).
  { intros x Hx. apply Hui in Hx. destruct Hx as (s & Hs & Hx). eapply Hnn; eauto. }
  assert (Hnum : map vnum uv = unique_indices schemes).
  { apply Forall2_map_eq with (f := vel_of_num dim); [|exact E1].
    intros x y Hx Hy. apply vel_of_num_wf in Hy; [tauto|auto]. }
  assert (Hwf : Forall (fun v => wf_velocity v /\ vdim v = dim) uv).
  { eapply Forall2_Forall_r; [|exact E1]. intros x y Hx Hy. apply vel_of_num_wf in Hy; [tauto|auto]. }
  assert (Hsv : forall s vs, scheme_velocities uv s = Some vs -> (forall x, In x s -> In x (map vnum uv)) ->
     map vnum vs = s /\ forall w, In w vs -> In w uv).
  { intros s vs Hs Hin. unfold scheme_velocities in Hs. apply mapM_spec in Hs. split.
    - apply Forall2_map_eq with (f := fun x => nth_error uv (searchsorted (map vnum uv) x)); [|exact Hs].
      intros x y Hx Hy. apply (map_nth_error vnum) in Hy.
      rewrite searchsorted_nth in Hy; [inversion Hy; reflexivity|rewrite Hnum; exact Hus|auto].
    - intros w Hw. assert (HF : Forall (fun w => In w uv) vs).
      { eapply Forall2_Forall_r; [|exact Hs]. cbn. intros x y _ Hy. eapply nth_error_In; eauto. }
      rewrite Forall_forall in HF. auto. }
  assert (Hsch : forall s x, In s schemes -> In x s -> In x (map vnum uv)).
  { intros s x Hs Hx. rewrite Hnum. apply Hui. eauto. }
  assert (Hv : map (map vnum) v = schemes).
  { apply Forall2_map_eq with (f := scheme_velocities uv); [|exact E2].
    intros s vs Hs Hvs. apply (Hsv s vs Hvs). intros; eapply Hsch; eauto. }
  assert (Hvin : forall vs w, In vs v -> In w vs -> In w uv).
  { intros vs w Hvs Hw. assert (HF : Forall (fun vs => forall w, In w vs -> In w uv) v).
    { eapply Forall2_Forall_r; [|exact E2]. cbn. intros s us Hs Hus'. apply (Hsv s us Hus').
      intros; eapply Hsch; eauto. }
    rewrite Forall_forall in HF. eapply HF; eauto. }
  unfold make_unum2index in E3. destruct (zmax_list (map vnum uv)) as [mx|] eqn:E4; [|discriminate].
  inversion E3; subst u2i. apply zmax_list_spec in E4. destruct E4 as [Hmx1 Hmx2].
  destruct (write_index_spec (map vnum uv) (repeat (-1000) (Z.to_nat (mx + 1))) 0) as (W1 & W2 & W3).
  { apply strictly_NoDup. rewrite Hnum. exact Hus. }
  { intros n Hn. rewrite repeat_length. pose proof (Hmx2 n Hn).
    rewrite Hnum in Hn. apply Hunn in Hn. lia. }
  constructor; cbn; auto.
  - rewrite Hnum; exact Hus.
  - intros n. rewrite Hnum. apply Hui.
  - now rewrite Hv.
  - intros m x Hm Hx. rewrite (W3 m Hm) in Hx. apply nth_error_In in Hx. now apply repeat_spec in Hx.
Qed.

(* When does the construction succeed. *)
Definition has_velocity (dim n : Z) : Prop :=
  0 <= n /\ (dim = 1 \/ dim = 2 \/ (dim = 3 /\ n < 199 ^ 3)).

Lemma vel_of_num_total dim n : has_velocity dim n -> exists v, vel_of_num dim n = Some v.
Proof.
  intros [Hn H]. unfold vel_of_num. destruct H as [->|[->|[-> Hlt]]]; cbn [Z.eqb Pos.eqb].
  - eauto.
  - destruct (coord2_total n Hn) as (x & y & ->). eauto.
  - destruct C03_lemma as (_ & _ & H3 & _). destruct (proj1 (H3 n) (conj Hn Hlt)) as [[[a b] c] Hv].
    rewrite Hv. eauto.
Qed.

Lemma build_total dim schemes :
  schemes <> [] -> (forall s x, In s schemes -> In x s -> has_velocity dim x) -> ~ In [] schemes ->
  exists st, build_stencil dim schemes = Some st.
Proof.
  intros Hne0 Hv Hnil.
  assert (Hex : existsb (fun s : list Z => match s with [] => true | _ => false end) schemes = false).
  { destruct (existsb _ schemes) eqn:E; [|reflexivity]. apply existsb_exists in E.
    destruct E as ([|] & Hs & E); [contradiction|discriminate]. }
  assert (Hne : concat schemes <> []).
  { destruct schemes as [|[|z s] t]; [congruence|exfalso; apply Hnil; now left|discriminate]. } unfold build_stencil. destruct (unique_spec schemes) as [Hus Hui].
  destruct (mapM_total (vel_of_num dim) (unique_indices schemes)) as [uv Euv].
  { intros x Hx. apply Hui in Hx. destruct Hx as (s & Hs & Hx). apply vel_of_num_total. eauto. }
  rewrite Euv. apply mapM_spec in Euv.
  assert (Hnum : map vnum uv = unique_indices schemes).
  { apply Forall2_map_eq with (f := vel_of_num dim); [|exact Euv].
    intros x y Hx Hy. apply Hui in Hx. destruct Hx as (s & Hs & Hx).
    apply vel_of_num_wf in Hy; [tauto|]. apply (Hv s x Hs Hx). }
  destruct (mapM_total (scheme_velocities uv) schemes) as [v Ev].
  { intros s Hs. apply mapM_total. intros x Hx.
    assert (Hin : In x (map vnum uv)) by (rewrite Hnum; apply Hui; eauto).
    assert (E := searchsorted_nth (map vnum uv) x ltac:(rewrite Hnum; exact Hus) Hin).
    destruct (nth_error uv (searchsorted (map vnum uv) x)) as [w|] eqn:F; [eauto|].
    exfalso. apply nth_error_None in F.
    assert (searchsorted (map vnum uv) x < length (map vnum uv))%nat by (apply nth_error_Some; congruence).
    rewrite map_length in H. lia. }
  rewrite Ev. unfold make_unum2index. rewrite Hnum.
  rewrite Hex. destruct (zmax_list (unique_indices schemes)) as [mx|] eqn:E; [eauto|].
  exfalso. destruct (unique_indices schemes) as [|a l] eqn:F; [|discriminate].
  destruct (concat schemes) as [|b m] eqn:G; [congruence|].
  assert (Hb : In b (concat schemes)) by (rewrite G; now left).
  apply in_concat in Hb. destruct Hb as (s & Hs & Hb). apply (proj2 (Hui b)). eauto.
Qed.

Lemma vel_of_num_some dim n v : vel_of_num dim n = Some v -> 0 <= n -> has_velocity dim n.
Proof.
  intros H Hn. split; [exact Hn|]. unfold vel_of_num in H.
  destruct (dim =? 1) eqn:E1; [left; lia|]. destruct (dim =? 2) eqn:E2; [right; left; lia|].
  destruct (dim =? 3) eqn:E3; [|discriminate]. right; right. split; [lia|].
  destruct (set_coord3 100 n) as [v3|] eqn:E; [|discriminate].
  destruct C03_lemma as (_ & _ & H3 & _). apply H3. eauto.
Qed.

Lemma build_iff dim schemes : nonneg schemes ->
  ((exists st, build_stencil dim schemes = Some st) <->
   schemes <> [] /\ ~ In [] schemes /\ (forall s x, In s schemes -> In x s -> has_velocity dim x)).
Proof.
  intros Hnn. split.
  - intros [st H]. unfold build_stencil in H. destruct (unique_spec schemes) as [Hus Hui].
    destruct (mapM (vel_of_num dim) (unique_indices schemes)) as [uv|] eqn:E1; [|discriminate].
    destruct (mapM (scheme_velocities uv) schemes) as [v|] eqn:E2; [|discriminate].
    destruct (make_unum2index (map vnum uv)) as [u2i|] eqn:E3; [|discriminate].
    destruct (existsb _ schemes) eqn:E5; [discriminate|].
    repeat split.
    + intros ->. cbn in E1. inversion E1; subst. discriminate.
    + intros Hin. assert (true = false); [|discriminate]. rewrite <- E5. symmetry. apply existsb_exists.
      exists []. auto.
    + eapply Hnn; eauto.
    + apply mapM_spec in E1.
      assert (Hx : In x (unique_indices schemes)) by (apply Hui; eauto).
      assert (HG : forall l r, Forall2 (fun x y => vel_of_num dim x = Some y) l r -> In x l -> exists y, vel_of_num dim x = Some y).
      { clear. induction 1 as [|a b l r H1 H2 IH]; intros Hx; [destruct Hx|]. destruct Hx as [->|Hx]; eauto. }
      destruct (HG _ _ E1 Hx) as [y Hy]. apply vel_of_num_some in Hy; [apply Hy|]. eapply Hnn; eauto.
  - intros (H1 & H2 & H3). now apply build_total.
Qed.

(* ------------------------------------------------------ symmetric table - *)
Definition scheme_closed (axis : option Z) (vs : list velocity) : Prop :=
  forall v, In v vs -> exists w, In w vs /\ vcoords w = sym_coords axis (vcoords v).

Lemma concat_nth {A} (ls : list (list A)) k x : nth_error (concat ls) k = Some x ->
  exists n i l, nth_error ls n = Some l /\ nth_error l i = Some x /\
    (length (concat (firstn n ls)) + i)%nat = k.
Proof.
  revert k. induction ls as [|l ls IH]; intros k H; cbn in H; [destruct k; discriminate|].
  destruct (le_lt_dec (length l) k) as [Hk|Hk].
  - rewrite nth_error_app2 in H by exact Hk. destruct (IH _ H) as (n & i & m & H1 & H2 & H3).
    exists (S n), i, m. repeat split; auto. cbn. rewrite app_length. lia.
  - rewrite nth_error_app1 in H by exact Hk. exists 0%nat, k, l. repeat split; auto.
Qed.
Lemma concat_nth_inv {A} (ls : list (list A)) n i l x : nth_error ls n = Some l ->
  nth_error l i = Some x -> nth_error (concat ls) (length (concat (firstn n ls)) + i) = Some x.
Proof.
  revert n. induction ls as [|m ls IH]; intros n H1 H2; [destruct n; discriminate|].
  destruct n as [|n]; cbn in *.
  - inversion H1; subst. rewrite nth_error_app1; [exact H2|]. apply nth_error_Some. congruence.
  - rewrite app_length, nth_error_app2 by lia.
    replace (length m + length (concat (firstn n ls)) + i - length m)%nat with (length (concat (firstn n ls)) + i)%nat by lia.
    auto.
Qed.

Lemma concat_slice {A} (ls : list (list A)) n l : nth_error ls n = Some l ->
  slice (concat ls) (Z.of_nat (length (concat (firstn n ls)))) (Z.of_nat (length (concat (firstn (S n) ls)))) = l.
Proof.
  unfold slice. rewrite Nat2Z.id. revert n. induction ls as [|m ls IH]; intros n H; [destruct n; discriminate|].
  destruct n as [|n].
  - cbn in *. inversion H; subst. rewrite app_nil_r. replace (Z.to_nat (Z.of_nat (length l) - 0)) with (length l) by lia.
    rewrite firstn_app, Nat.sub_diag, firstn_all. cbn. apply app_nil_r.
  - cbn [nth_error] in H. assert (E := IH n H).
    rewrite !firstn_cons. cbn [concat]. rewrite !app_length, skipn_app, (skipn_all2 m) by lia.
    replace (length m + length (concat (firstn n ls)) - length m)%nat with (length (concat (firstn n ls))) by lia.
    cbn [app]. match type of E with firstn ?p _ = _ => match goal with |- firstn ?q _ = _ => replace q with p by lia end end.
    exact E.
Qed.

Lemma firstn_map' {A B} (f : A -> B) n l : firstn n (map f l) = map f (firstn n l).
Proof. revert n. induction l as [|a l IH]; intros [|n]; cbn; [reflexivity..|]. now rewrite IH. Qed.

(* Index of the scheme containing the global index. *)
Lemma find_scheme schemes n i l : nth_error schemes n = Some l -> (i < length l)%nat ->
  searchsorted_right (nv_ptr_from 0 schemes) (Z.of_nat (length (concat (firstn n schemes)) + i)) = S n.
Proof.
  intros H Hi.
  assert (Hn : (n < length schemes)%nat) by (apply nth_error_Some; congruence).
  assert (Hc : length (concat (firstn (S n) schemes)) = (length (concat (firstn n schemes)) + length l)%nat).
  { assert (E : firstn (S n) schemes = firstn n schemes ++ [l]).
    { revert n H Hn. clear. induction schemes as [|s t IH]; intros n H Hn; [destruct n; discriminate|].
      destruct n as [|n]; cbn in *; [inversion H; reflexivity|]. rewrite (IH n) by (auto; lia). reflexivity. }
    rewrite E, concat_app, app_length. cbn. rewrite app_nil_r. reflexivity. }
  destruct (nv_ptr_sorted 0 schemes) as [Hs _].
  apply searchsorted_right_spec.
  - exact Hs.
  - intros j y Hj Hjn.
    rewrite nv_ptr_nth in Hj by (assert (j < length (nv_ptr_from 0 schemes))%nat by (apply nth_error_Some; congruence); rewrite nv_ptr_length in *; lia).
    inversion Hj; subst y. unfold total.
    assert (length (concat (firstn j schemes)) <= length (concat (firstn n schemes)))%nat; [|lia].
    replace (firstn j schemes) with (firstn j (firstn n schemes)) by (rewrite firstn_firstn; f_equal; lia).
    rewrite <- (firstn_skipn j (firstn n schemes)) at 2. rewrite concat_app, app_length. lia.
  - intros y Hy. rewrite nv_ptr_nth in Hy by lia.
    assert (y = 0 + total (firstn (S n) schemes)) as -> by congruence. unfold total. lia.
  - rewrite nv_ptr_length. lia.
Qed.

Section SymTable.
Variables (dim : Z) (schemes : list (list Z)) (st : stencil).
Hypothesis Hb : built dim schemes st.
Variable axis : option Z.
Hypothesis Haxis : forall a, axis = Some a -> 0 <= a < dim.

Lemma sv_wf vs v : In vs (sv st) -> In v vs -> wf_velocity v /\ vdim v = dim.
Proof.
  intros H1 H2. pose proof (b_uwf _ _ _ Hb) as H. rewrite Forall_forall in H.
  apply H. eapply b_vin; eauto.
Qed.

Lemma sv_axis_ok vs v : In vs (sv st) -> In v vs -> ~ bad_axis v axis.
Proof.
  intros H1 H2 (a & Ha & Hbad). destruct (sv_wf vs v H1 H2) as [_ Hd].
  rewrite Hd in Hbad. specialize (Haxis a Ha). lia.
Qed.

Lemma sv_nth n vs : nth_error (sv st) n = Some vs -> nth_error schemes n = Some (map vnum vs).
Proof. intros H. rewrite <- (b_v _ _ _ Hb). now apply map_nth_error. Qed.

Lemma concat_sv_len n : length (concat (firstn n (sv st))) = length (concat (firstn n schemes)).
Proof.
  rewrite <- (b_v _ _ _ Hb), firstn_map'. rewrite <- concat_map, map_length. reflexivity.
Qed.

(* Value of one entry. *)
Lemma sym_index_eq n i vs v : nth_error (sv st) n = Some vs -> nth_error vs i = Some v ->
  exists w, VelocityModel.get_symmetric v axis = SymOk w /\ wf_velocity w /\ vdim w = dim /\
    vcoords w = sym_coords axis (vcoords v) /\
    sym_index st axis (Z.of_nat (length (concat (firstn n (sv st))) + i)) v =
      option_map (fun j => Z.of_nat (j + length (concat (firstn n (sv st))))) (index_of Z.eqb (vnum w) (map vnum vs)).
Proof.
  intros Hn Hi.
  assert (Hvs : In vs (sv st)) by (eapply nth_error_In; eauto).
  assert (Hv : In v vs) by (eapply nth_error_In; eauto).
  destruct (sv_wf vs v Hvs Hv) as [Hwf Hd].
  destruct (get_symmetric_ok v axis Hwf (sv_axis_ok vs v Hvs Hv)) as (w & E & Hw & Hdw & Hc).
  exists w. rewrite E. repeat split; auto; [congruence|].
  unfold sym_index. rewrite E. rewrite (b_ptr _ _ _ Hb), (b_n2i _ _ _ Hb), concat_sv_len.
  pose proof (sv_nth n vs Hn) as Hsn.
  assert (Hil : (i < length (map vnum vs))%nat) by (rewrite map_length; apply nth_error_Some; congruence).
  assert (Hnl : (n < length schemes)%nat) by (apply nth_error_Some; congruence).
  rewrite (find_scheme schemes n i _ Hsn Hil).
  replace (Z.of_nat (S n) - 1) with (Z.of_nat n) by lia.
  replace (Z.of_nat n + 1) with (Z.of_nat (S n)) by lia.
  unfold py_index.
  replace (0 <=? Z.of_nat n) with true by lia. replace (0 <=? Z.of_nat (S n)) with true by lia.
  rewrite !Nat2Z.id, !nv_ptr_nth by lia. unfold total.
  rewrite !Z.add_0_l, (concat_slice schemes n _ Hsn).
  destruct (index_of Z.eqb (vnum w) (map vnum vs)) as [j|]; cbn; [f_equal; lia|reflexivity].
Qed.

Lemma sym_loop_spec vs : forall k,
  match sym_loop st axis k vs with
  | Some r => Forall2 (fun p i => sym_index st axis (fst p) (snd p) = Some i)
                (combine (map (fun j => k + Z.of_nat j) (seq 0 (length vs))) vs) r
  | None => exists j v, nth_error vs j = Some v /\ sym_index st axis (k + Z.of_nat j) v = None
  end.
Proof.
  induction vs as [|v vs IH]; intros k; cbn [sym_loop length seq map combine]; [constructor|].
  destruct (sym_index st axis k v) as [i|] eqn:E.
  - specialize (IH (k + 1)). destruct (sym_loop st axis (k + 1) vs) as [r|].
    + constructor; [cbn; rewrite Z.add_0_r; exact E|].
      rewrite <- seq_shift, map_map.
      erewrite map_ext; [exact IH|]. intros a; cbn; lia.
    + destruct IH as (j & w & H1 & H2). exists (S j), w. split; [exact H1|]. rewrite <- H2. f_equal. lia.
  - exists 0%nat, v. split; [reflexivity|]. rewrite Z.add_0_r. exact E.
Qed.

Lemma sym_table_some r : stencil_get_symmetric st axis = Some r ->
  length r = length (concat (sv st)) /\
  forall k v, nth_error (concat (sv st)) k = Some v ->
    exists i, nth_error r k = Some i /\ sym_index st axis (Z.of_nat k) v = Some i.
Proof.
  intros H. unfold stencil_get_symmetric in H.
  pose proof (sym_loop_spec (concat (sv st)) 0) as HL. rewrite H in HL.
  set (L := concat (sv st)) in *.
  assert (Hlen : length (combine (map (fun j => 0 + Z.of_nat j) (seq 0 (length L))) L) = length L).
  { rewrite combine_length, map_length, seq_length. lia. }
  split; [rewrite <- Hlen; symmetry; eapply Forall2_length; eauto|].
  intros k v Hk.
  assert (Hkl : (k < length L)%nat) by (apply nth_error_Some; congruence).
  assert (Hc : nth_error (combine (map (fun j => 0 + Z.of_nat j) (seq 0 (length L))) L) k = Some (Z.of_nat k, v)).
  { assert (HG : forall (s : nat) (M : list velocity) k, nth_error M k = Some v ->
      nth_error (combine (map (fun j => 0 + Z.of_nat j) (seq s (length M))) M) k = Some (Z.of_nat (s + k), v)).
    { clear. intros s M. revert s. induction M as [|m M IH]; intros s k H; [destruct k; discriminate|].
      destruct k as [|k]; cbn in *; [inversion H; f_equal; f_equal; lia|].
      specialize (IH (S s) k H). cbn in IH. rewrite IH. f_equal. f_equal. lia. }
    apply (HG 0%nat); exact Hk. }
  revert HL Hc. generalize (combine (map (fun j => 0 + Z.of_nat j) (seq 0 (length L))) L) as cl.
  generalize (Z.of_nat k) as kz.
  clear. intros kz cl HL. revert k. induction HL as [|p i l r H1 H2 IH]; intros k Hc; [destruct k; discriminate|].
  destruct k as [|k]; cbn [nth_error] in *.
  - inversion Hc; subst. exists i. split; [reflexivity|exact H1].
  - apply IH in Hc. destruct Hc as (i' & Hi1 & Hi2). exists i'. split; [exact Hi1|].
    exact Hi2.
Qed.

Lemma index_of_In_Z x l : (exists i, index_of Z.eqb x l = Some i) <-> In x l.
Proof.
  pose proof (index_of_None Z.eqb Z.eqb_eq l x) as H.
  destruct (index_of Z.eqb x l) as [i|].
  - split; [|eauto]. intros _. destruct (in_dec Z.eq_dec x l) as [|Hn]; [assumption|].
    apply H in Hn. discriminate.
  - split; [intros [i Hi]; discriminate|]. intros Hin. exfalso. now apply H.
Qed.

(* membership of the symmetric in terms of coordinates *)
Lemma sym_in_scheme vs v w : In vs (sv st) -> In v vs ->
  wf_velocity w -> vdim w = dim -> vcoords w = sym_coords axis (vcoords v) ->
  (In (vnum w) (map vnum vs) <-> exists u, In u vs /\ vcoords u = sym_coords axis (vcoords v)).
Proof.
  intros Hvs Hv Hw Hdw Hc. split.
  - intros Hin. apply in_map_iff in Hin. destruct Hin as (u & Hu & Huv).
    exists u. split; [exact Huv|]. destruct (sv_wf vs u Hvs Huv) as [Hwu Hdu].
    (* same dimension and same number: same velocity *)
    assert (u = w); [|congruence].
    unfold wf_velocity, vel_of_coord in Hwu, Hw.
    pose proof (wf_dim u Hwu) as [Hu1 _]. pose proof (wf_dim w Hw) as [Hw1 _].
    destruct u as [du nu xu yu zu], w as [dw nw xw yw zw]. cbn in *. subst nu.
    destruct zu as [zu|], yu as [yu|]; try discriminate;
    destruct zw as [zw|], yw as [yw|]; try discriminate; cbn in Hu1, Hw1; try lia.
    + destruct (set_num3 100 (xu, yu, zu)) as [n1|] eqn:E1; [|discriminate].
      destruct (set_num3 100 (xw, yw, zw)) as [n2|] eqn:E2; [|discriminate].
      inversion Hwu; inversion Hw; subst.
      destruct C03_lemma as (_ & HC2 & _).
      apply HC2 in E1. apply HC2 in E2. destruct E1 as [_ E1], E2 as [_ E2]. congruence.
    + destruct (set_num2 xu yu) as [n1|] eqn:E1; [|discriminate].
      destruct (set_num2 xw yw) as [n2|] eqn:E2; [|discriminate].
      inversion Hwu; inversion Hw; subst.
      apply coord2_num2 in E1. apply coord2_num2 in E2. congruence.
    + inversion Hwu; inversion Hw. assert (xu = xw) by (apply set_num1_inj; congruence). congruence.
  - intros (u & Hu & Hcu). assert (u = w) by (apply wf_coords_inj; [apply (sv_wf vs u Hvs Hu)|exact Hw|congruence]).
    subst u. now apply in_map.
Qed.

Lemma sym_table_defined :
  (exists r, stencil_get_symmetric st axis = Some r) <-> Forall (scheme_closed axis) (sv st).
Proof.
  split.
  - intros [r Hr]. apply Forall_forall. intros vs Hvs v Hv.
    apply sym_table_some in Hr. destruct Hr as [_ Hr].
    apply In_nth_error in Hvs as Hn. destruct Hn as [n Hn].
    apply In_nth_error in Hv as Hi. destruct Hi as [i Hi].
    destruct (sym_index_eq n i vs v Hn Hi) as (w & E & Hw & Hdw & Hc & HI).
    destruct (Hr _ v (concat_nth_inv _ n i vs v Hn Hi)) as (x & _ & Hx).
    rewrite HI in Hx. apply (sym_in_scheme vs v w); auto.
    apply index_of_In_Z. destruct (index_of Z.eqb (vnum w) (map vnum vs)) as [j|]; [eauto|discriminate].
  - intros HF. unfold stencil_get_symmetric.
    pose proof (sym_loop_spec (concat (sv st)) 0) as HL.
    destruct (sym_loop st axis 0 (concat (sv st))) as [r|]; [eauto|].
    exfalso. destruct HL as (k & v & Hk & HN). rewrite Z.add_0_l in HN.
    destruct (concat_nth _ _ _ Hk) as (n & i & vs & Hn & Hi & Hki). subst k.
    destruct (sym_index_eq n i vs v Hn Hi) as (w & E & Hw & Hdw & Hc & HI).
    rewrite HI in HN.
    rewrite Forall_forall in HF.
    assert (Hvs : In vs (sv st)) by (eapply nth_error_In; eauto).
    assert (Hv : In v vs) by (eapply nth_error_In; eauto).
    pose proof (HF vs Hvs v Hv) as Hcl.
    apply (sym_in_scheme vs v w) in Hcl; auto. apply index_of_In_Z in Hcl. destruct Hcl as [j Hj].
    rewrite Hj in HN. discriminate.
Qed.

(* Entry of the table: position in the same scheme of the symmetric velocity. *)
Lemma sym_table_entry r : stencil_get_symmetric st axis = Some r ->
  length r = length (concat (sv st)) /\
  forall n i vs v, nth_error (sv st) n = Some vs -> nth_error vs i = Some v ->
    exists j u, nth_error vs j = Some u /\ vcoords u = sym_coords axis (vcoords v) /\
      nth_error r (length (concat (firstn n (sv st))) + i) =
        Some (Z.of_nat (length (concat (firstn n (sv st))) + j)) /\
      (forall j' u', (j' < j)%nat -> nth_error vs j' = Some u' -> u' <> u).
Proof.
  intros Hr. apply sym_table_some in Hr. destruct Hr as [Hlen Hr]. split; [exact Hlen|].
  intros n i vs v Hn Hi.
  assert (Hvs : In vs (sv st)) by (eapply nth_error_In; eauto).
  assert (Hv : In v vs) by (eapply nth_error_In; eauto).
  destruct (sym_index_eq n i vs v Hn Hi) as (w & E & Hw & Hdw & Hc & HI).
  destruct (Hr _ v (concat_nth_inv _ n i vs v Hn Hi)) as (x & Hx1 & Hx2).
  rewrite HI in Hx2. destruct (index_of Z.eqb (vnum w) (map vnum vs)) as [j|] eqn:Ej; [|discriminate].
  cbn in Hx2. inversion Hx2; subst x.
  (* first occurrence *)
  assert (Hfirst : forall l j x, index_of Z.eqb x l = Some j ->
     nth_error l j = Some x /\ forall j', (j' < j)%nat -> nth_error l j' <> Some x).
  { clear. induction l as [|a l IH]; intros j x H; [discriminate|]. cbn in H.
    destruct (x =? a) eqn:E.
    - inversion H; subst. split; [cbn; f_equal; lia|intros; lia].
    - destruct (index_of Z.eqb x l) as [k|] eqn:F; [|discriminate]. inversion H; subst.
      destruct (IH k x F) as [H1 H2]. split; [exact H1|].
      intros [|j'] Hj'; cbn; [intros G; inversion G; lia|apply H2; lia]. }
  destruct (Hfirst _ _ _ Ej) as [Hj1 Hj2].
  assert (Hcl : exists u, In u vs /\ vcoords u = sym_coords axis (vcoords v)).
  { apply (sym_in_scheme vs v w); auto. eapply nth_error_In; eauto. }
  destruct Hcl as (u & Hu & Hcu).
  assert (u = w) by (apply wf_coords_inj; [apply (sv_wf vs u Hvs Hu)|exact Hw|congruence]). subst u.
  rewrite nth_error_map in Hj1. destruct (nth_error vs j) as [u|] eqn:Eu; [|discriminate].
  cbn in Hj1. inversion Hj1.
  assert (Huv : In u vs) by (eapply nth_error_In; eauto).
  assert (u = w).
  { destruct (sv_wf vs u Hvs Huv) as [Hwu Hdu].
    destruct (sym_in_scheme vs v w Hvs Hv Hw Hdw Hc) as [_ _].
    pose proof (b_ustrict _ _ _ Hb) as HS. apply strictly_NoDup in HS.
    assert (HU : forall a b, In a (sunique st) -> In b (sunique st) -> vnum a = vnum b -> a = b).
    { clear -HS. induction (sunique st) as [|c l IH]; intros a b Ha Hb' E; [destruct Ha|].
      cbn in HS. inversion HS; subst. destruct Ha as [->|Ha], Hb' as [->|Hb']; auto.
      - exfalso. apply H1. rewrite E. now apply in_map.
      - exfalso. apply H1. rewrite <- E. now apply in_map. }
    apply HU; auto; eapply b_vin; eauto. }
  subst u. exists j, w. repeat split; auto.
  - rewrite Hx1. f_equal. lia.
  - intros j' u' Hlt Hu' ->. apply (Hj2 j' Hlt). rewrite nth_error_map, Hu'. reflexivity.
Qed.

(* Without repetition inside a scheme, the table is an involution. *)
Lemma sym_table_invol r : Forall (@NoDup Z) schemes -> stencil_get_symmetric st axis = Some r ->
  forall k i, nth_error r k = Some i -> nth_error r (Z.to_nat i) = Some (Z.of_nat k).
Proof.
  intros HND Hr k i Hk.
  destruct (sym_table_entry r Hr) as [Hlen HE].
  assert (Hkl : (k < length (concat (sv st)))%nat) by (rewrite <- Hlen; apply nth_error_Some; congruence).
  destruct (nth_error (concat (sv st)) k) as [v|] eqn:Ev; [|apply nth_error_None in Ev; lia].
  destruct (concat_nth _ _ _ Ev) as (n & a & vs & Hn & Ha & Hka). subst k.
  destruct (HE n a vs v Hn Ha) as (j & u & Hj & Hcu & Hrj & _).
  rewrite Hrj in Hk. inversion Hk; subst i. rewrite Nat2Z.id.
  destruct (HE n j vs u Hn Hj) as (a' & v' & Ha' & Hcv' & Hra & _).
  rewrite Hra. f_equal. f_equal.
  assert (v' = v).
  { assert (Hvs : In vs (sv st)) by (eapply nth_error_In; eauto).
    apply wf_coords_inj.
    - apply (sv_wf vs v' Hvs). eapply nth_error_In; eauto.
    - apply (sv_wf vs v Hvs). eapply nth_error_In; eauto.
    - rewrite Hcv', Hcu. apply sym_coords_invol. }
  subst v'.
  assert (HNv : NoDup (map vnum vs)).
  { rewrite Forall_forall in HND. apply HND. eapply nth_error_In. apply sv_nth. exact Hn. }
  f_equal. eapply NoDup_nth_error; [exact HNv| |].
  - rewrite map_length. apply nth_error_Some. congruence.
  - rewrite !nth_error_map, Ha, Ha'. reflexivity.
Qed.
End SymTable.

(* ------------------------------------------------------ is_symmetric ---- *)
Section IsSym.
Variables (dim : Z) (schemes : list (list Z)) (st : stencil).
Hypothesis Hb : built dim schemes st.

Lemma none_axis_ok : forall a, @None Z = Some a -> 0 <= a < dim.
Proof. discriminate. Qed.

Lemma scheme_is_sym_spec vs : In vs (sv st) ->
  exists b, scheme_is_sym vs = Some b /\ (b = true <-> scheme_closed None vs).
Proof.
  intros Hvs. unfold scheme_is_sym.
  assert (H : forall l b0, (forall v, In v l -> In v vs) ->
    exists b, fold_left (fun acc v =>
      match acc, VelocityModel.get_symmetric v None with
      | Some b, SymOk w => Some (b && existsb (Z.eqb (vnum w)) (map vnum vs))
      | _, _ => None
      end) l (Some b0) = Some b /\
      (b = true <-> b0 = true /\ forall v, In v l -> exists w, In w vs /\ vcoords w = sym_coords None (vcoords v))).
  { induction l as [|v l IH]; intros b0 Hl; cbn [fold_left].
    - exists b0. split; [reflexivity|]. split; [intros; split; auto; intros v []|tauto].
    - assert (Hv : In v vs) by (apply Hl; now left).
      destruct (sv_wf _ _ _ Hb vs v Hvs Hv) as [Hwf Hd].
      destruct (get_symmetric_ok v None Hwf) as (w & E & Hw & Hdw & Hc).
      { intros (a & Ha & _). discriminate. }
      rewrite E.
      destruct (IH (b0 && existsb (Z.eqb (vnum w)) (map vnum vs))) as (b & Eb & Hbb).
      { intros; apply Hl; now right. }
      exists b. split; [exact Eb|]. rewrite Hbb, andb_true_iff.
      assert (Hex : existsb (Z.eqb (vnum w)) (map vnum vs) = true <-> In (vnum w) (map vnum vs)).
      { rewrite existsb_exists. split; [intros (x & Hx & Hxe); apply Z.eqb_eq in Hxe; congruence|].
        intros Hin. exists (vnum w). split; [exact Hin|]. apply Z.eqb_refl. }
      rewrite Hex.
      rewrite (sym_in_scheme dim schemes st Hb None none_axis_ok vs v w); auto; [|congruence].
      split.
      + intros [[H1 H2] H3]. split; [exact H1|]. intros v' [<-|Hv']; auto.
      + intros [H1 H2]. repeat split; auto; [apply H2; now left|intros; apply H2; now right]. }
  destruct (H vs true) as (b & Eb & Hbb); [auto|]. exists b. split; [exact Eb|].
  rewrite Hbb. unfold scheme_closed. intuition.
Qed.

Lemma is_symmetric_last : sv st <> [] ->
  exists b vs front, is_symmetric st = Some b /\ sv st = front ++ [vs] /\
    (b = true <-> scheme_closed None vs).
Proof.
  intros Hne. unfold is_symmetric.
  destruct (mapM_total scheme_is_sym (sv st)) as [bs Ebs].
  { intros vs Hvs. destruct (scheme_is_sym_spec vs Hvs) as (b & E & _). eauto. }
  rewrite Ebs. apply mapM_spec in Ebs.
  destruct (exists_last Hne) as (front & vs & Hfv). rewrite Hfv in Ebs.
  apply Forall2_app_inv_l in Ebs. destruct Ebs as (b1 & b2 & H1 & H2 & ->).
  inversion H2 as [|? b ? b2' Hb' H2']; subst. inversion H2'; subst.
  rewrite rev_app_distr. cbn. exists b, vs, front. repeat split; auto.
  - destruct (scheme_is_sym_spec vs) as (b' & E & HH); [rewrite Hfv; apply in_or_app; right; now left|].
    assert (b' = b) by congruence. subst. tauto.
  - destruct (scheme_is_sym_spec vs) as (b' & E & HH); [rewrite Hfv; apply in_or_app; right; now left|].
    assert (b' = b) by congruence. subst. tauto.
Qed.
End IsSym.

(* ------------------------------------------------------ halo width ------ *)
(* Allocation of the storage (storage.py 76-86): along axis d a region of n inner
   cells is stored with vmax[d] more cells on each side; the inner cells are
   the indices vmax .. vmax+n-1 of an array of n + 2 vmax cells
   (algorithm/base.py 170-189). *)
Definition in_array (n h i : Z) : Prop := 0 <= i < n + 2 * h.
Definition inner (n h i : Z) : Prop := h <= i < n + h.

Lemma vcomp_bounds st d mx v : vmax st d = Some mx -> In v (sunique st) ->
  forall c, vcomp d v = Some c -> c <= mx.
Proof.
  unfold vmax. destruct (mapM (vcomp d) (sunique st)) as [l|] eqn:E; [|discriminate].
  intros Hm Hv c Hc. apply zmax_list_spec in Hm. apply Hm.
  apply mapM_spec in E. clear -E Hv Hc.
  induction E as [|x y l r H1 H2 IH]; [destruct Hv|]. destruct Hv as [->|Hv]; [left; congruence|right; auto].
Qed.
Lemma vcomp_bounds_min st d mn v : vmin st d = Some mn -> In v (sunique st) ->
  forall c, vcomp d v = Some c -> mn <= c.
Proof.
  unfold vmin. destruct (mapM (vcomp d) (sunique st)) as [l|] eqn:E; [|discriminate].
  intros Hm Hv c Hc. apply zmin_list_spec in Hm. apply Hm.
  apply mapM_spec in E. clear -E Hv Hc.
  induction E as [|x y l r H1 H2 IH]; [destruct Hv|]. destruct Hv as [->|Hv]; [left; congruence|right; auto].
Qed.
Lemma vmin_attained st d mn : vmin st d = Some mn ->
  exists v, In v (sunique st) /\ vcomp d v = Some mn.
Proof.
  unfold vmin. destruct (mapM (vcomp d) (sunique st)) as [l|] eqn:E; [|discriminate].
  intros Hm. apply zmin_list_spec in Hm. destruct Hm as [Hin _]. apply mapM_spec in E. clear -E Hin.
  induction E as [|x y l r H1 H2 IH]; [destruct Hin|]. destruct Hin as [->|Hin]; [exists x; cbn; auto|].
  destruct (IH Hin) as (v & ? & ?). exists v; cbn; auto.
Qed.

(* Transport reads x - v: always inside exactly when the signed minimum is not
   below minus the signed maximum. *)
Lemma halo_iff st d mx mn n : vmax st d = Some mx -> vmin st d = Some mn -> 1 <= n ->
  ((forall v c i, In v (sunique st) -> vcomp d v = Some c -> inner n mx i -> in_array n mx (i - c))
   <-> - mx <= mn).
Proof.
  intros HM Hm Hn. split.
  - intros H. destruct (vmin_attained st d mn Hm) as (v & Hv & Hc).
    specialize (H v mn (n + mx - 1) Hv Hc). unfold inner, in_array in H. lia.
  - intros H v c i Hv Hc Hi. pose proof (vcomp_bounds st d mx v HM Hv c Hc).
    pose proof (vcomp_bounds_min st d mn v Hm Hv c Hc). unfold inner, in_array in *. lia.
Qed.

Lemma vcomp_coords v d c : wf_velocity v -> vcomp d v = Some c -> nth_error (vcoords v) d = Some c.
Proof.
  unfold wf_velocity, vel_of_coord, vcoords. destruct d as [|[|[|d]]]; cbn; intros Hw H;
  destruct (vz v), (vy v); try discriminate; cbn; congruence.
Qed.
Lemma coords_vcomp v d c : nth_error (vcoords v) d = Some c -> vcomp d v = Some c.
Proof.
  unfold vcoords. destruct d as [|[|[|d]]]; destruct (vy v) eqn:Ey, (vz v) eqn:Ez; cbn; intros H; rewrite ?Ey, ?Ez;
  try congruence; try discriminate; try (destruct d; discriminate).
Qed.
Lemma sym_coords_nth l d c : nth_error l d = Some c -> nth_error (sym_coords None l) d = Some (- c).
Proof.
  unfold sym_coords.
  assert (H : forall s d, nth_error l d = Some c ->
    nth_error (map (fun p => sym_coord None (Z.of_nat (fst p)) (snd p)) (combine (seq s (length l)) l)) d = Some (- c)).
  { clear. induction l as [|a l IH]; intros s d H; [destruct d; discriminate|].
    destruct d as [|d]; cbn in *; [congruence|auto]. }
  apply H.
Qed.

(* Symmetric stencils have a wide enough halo. *)
Lemma halo_symmetric dim schemes st d mx n : built dim schemes st ->
  Forall (scheme_closed None) (sv st) -> vmax st d = Some mx ->
  forall v c i, In v (sunique st) -> vcomp d v = Some c -> inner n mx i -> in_array n mx (i - c).
Proof.
  intros Hb HC HM v c i Hv Hc Hi.
  pose proof (vcomp_bounds st d mx v HM Hv c Hc) as Hle.
  assert (Hge : - c <= mx).
  { (* v belongs to some scheme *)
    assert (Hn : In (vnum v) (map vnum (sunique st))) by now apply in_map.
    apply (b_uin _ _ _ Hb) in Hn. destruct Hn as (s & Hs & Hns).
    rewrite <- (b_v _ _ _ Hb) in Hs. apply in_map_iff in Hs. destruct Hs as (vs & <- & Hvs).
    apply in_map_iff in Hns. destruct Hns as (v' & Hv'n & Hv').
    assert (v' = v).
    { pose proof (b_ustrict _ _ _ Hb) as HS. apply strictly_NoDup in HS.
      assert (HU : forall a b, In a (sunique st) -> In b (sunique st) -> vnum a = vnum b -> a = b).
      { clear -HS. induction (sunique st) as [|c l IH]; intros a b Ha Hb' E; [destruct Ha|].
        cbn in HS. inversion HS; subst. destruct Ha as [->|Ha], Hb' as [->|Hb']; auto.
        - exfalso. apply H1. rewrite E. now apply in_map.
        - exfalso. apply H1. rewrite <- E. now apply in_map. }
      apply HU; auto. eapply b_vin; eauto. }
    subst v'. rewrite Forall_forall in HC. destruct (HC vs Hvs v Hv') as (w & Hw & Hcw).
    apply (vcomp_bounds st d mx w HM); [eapply b_vin; eauto|].
    apply coords_vcomp. rewrite Hcw. apply sym_coords_nth. apply vcomp_coords; [|exact Hc].
    apply (sv_wf _ _ _ Hb vs v Hvs Hv'). }
  unfold inner, in_array in *. lia.
Qed.

(* ------------------------------------------------------ C06 ------------- *)
Lemma wf_vel_of_num v : wf_velocity v -> vel_of_num (vdim v) (vnum v) = Some v.
Proof.
  unfold wf_velocity, vel_of_coord, vel_of_num. intros H.
  destruct v as [d n x y z]. cbn in *. destruct z as [z|], y as [y|]; try discriminate.
  - destruct (set_num3 100 (x, y, z)) as [m|] eqn:E; [|discriminate]. inversion H; subst. cbn [Z.eqb Pos.eqb].
    destruct C03_lemma as (_ & H2 & _). apply H2 in E. destruct E as [_ ->]. reflexivity.
  - destruct (set_num2 x y) as [m|] eqn:E; [|discriminate]. inversion H; subst. cbn [Z.eqb Pos.eqb].
    apply coord2_num2 in E. rewrite E. reflexivity.
  - inversion H; subst. cbn [Z.eqb Pos.eqb]. now rewrite set_coord1_num1.
Qed.

Lemma C06_lemma dim schemes : nonneg schemes ->
  ((exists st, build_stencil dim schemes = Some st) <->
   schemes <> [] /\ ~ In [] schemes /\ (forall s n, In s schemes -> In n s -> has_velocity dim n)) /\
  forall st, build_stencil dim schemes = Some st ->
    StronglySorted Z.lt (map vnum (sunique st)) /\
    (forall v, In v (sunique st) <-> (exists s, In s schemes /\ In (vnum v) s) /\ vel_of_num dim (vnum v) = Some v) /\
    map (map vnum) (sv st) = schemes /\
    (forall vs v, In vs (sv st) -> In v vs ->
       exists i, nth_error (sunum2index st) (Z.to_nat (vnum v)) = Some (Z.of_nat i) /\ nth_error (sunique st) i = Some v) /\
    (forall m x, (forall s, In s schemes -> ~ In (Z.of_nat m) s) ->
       nth_error (sunum2index st) m = Some x -> x = -1000) /\
    snv st = map (fun s => Z.of_nat (length s)) schemes /\
    length (snv_ptr st) = S (length schemes) /\
    (forall k, (k <= length schemes)%nat ->
       nth_error (snv_ptr st) k = Some (Z.of_nat (length (concat (firstn k schemes))))) /\
    snum2index st = concat schemes /\
    length (get_all_velocities st) = length (concat schemes) /\
    (forall k n, nth_error (concat schemes) k = Some n ->
       exists v, vel_of_num dim n = Some v /\ nth_error (get_all_velocities st) k = Some (vcoords v)) /\
    (forall s n i l, nth_error schemes s = Some l -> nth_error l i = Some n ->
       exists v row, vel_of_num dim n = Some v /\ get_scheme_velocities st s = Some row /\
         nth_error row i = Some (vcoords v)).
Proof.
  intros Hnn. split; [now apply build_iff|]. intros st H. pose proof (build_facts dim schemes st Hnn H) as Hb.
  assert (Hwf : forall v, In v (sunique st) -> wf_velocity v /\ vdim v = dim).
  { intros v Hv. pose proof (b_uwf _ _ _ Hb) as HF. rewrite Forall_forall in HF. auto. }
  assert (Hcc : map vnum (concat (sv st)) = concat schemes).
  { rewrite <- (b_v _ _ _ Hb). apply concat_map. }
  split; [exact (b_ustrict _ _ _ Hb)|]. split.
  { intros v. split.
    - intros Hv. split; [apply (b_uin _ _ _ Hb); now apply in_map|].
      destruct (Hwf v Hv) as [Hw <-]. now apply wf_vel_of_num.
    - intros [Hex Hv]. apply (b_uin _ _ _ Hb) in Hex. apply in_map_iff in Hex.
      destruct Hex as (w & Hnw & Hw). destruct (Hwf w Hw) as [Hww Hdw].
      apply wf_vel_of_num in Hww. rewrite Hdw, Hnw in Hww. assert (v = w) by congruence. now subst. }
  split; [exact (b_v _ _ _ Hb)|]. split.
  { intros vs v Hvs Hv. assert (Hu : In v (sunique st)) by (eapply b_vin; eauto).
    apply In_nth_error in Hu. destruct Hu as [i Hi]. exists i. split; [|exact Hi].
    apply (b_u2i _ _ _ Hb). now apply map_nth_error. }
  split.
  { intros m x Hm Hx. eapply (b_u2i_out _ _ _ Hb); [|exact Hx]. intros Hin.
    apply (b_uin _ _ _ Hb) in Hin. destruct Hin as (s & Hs & Hin). eapply Hm; eauto. }
  split; [exact (b_nv _ _ _ Hb)|]. rewrite (b_ptr _ _ _ Hb).
  split; [apply nv_ptr_length|]. split; [intros k Hk; now apply nv_ptr_nth|].
  split; [exact (b_n2i _ _ _ Hb)|].
  split; [unfold get_all_velocities; rewrite map_length, <- Hcc, map_length; reflexivity|].
  assert (Hvl : forall v, vel_list v = vcoords v) by reflexivity.
  split.
  - intros k n Hk. rewrite <- Hcc, nth_error_map in Hk.
    destruct (nth_error (concat (sv st)) k) as [v|] eqn:E; [|discriminate]. cbn in Hk. inversion Hk; subst n.
    exists v. split.
    + apply nth_error_In in E. apply in_concat in E. destruct E as (vs & Hvs & Hv).
      destruct (Hwf v) as [Hw <-]; [eapply b_vin; eauto|]. now apply wf_vel_of_num.
    + unfold get_all_velocities. rewrite nth_error_map, E. reflexivity.
  - intros s n i l Hs Hi. rewrite <- (b_v _ _ _ Hb), nth_error_map in Hs.
    destruct (nth_error (sv st) s) as [vs|] eqn:E; [|discriminate]. cbn in Hs. inversion Hs; subst l.
    rewrite nth_error_map in Hi. destruct (nth_error vs i) as [v|] eqn:Ev; [|discriminate].
    cbn in Hi. inversion Hi; subst n. exists v, (map vel_list vs). repeat split.
    + destruct (Hwf v) as [Hw <-]; [|now apply wf_vel_of_num].
      eapply b_vin; eauto; eapply nth_error_In; eauto.
    + unfold get_scheme_velocities. rewrite E. reflexivity.
    + rewrite nth_error_map, Ev. reflexivity.
Qed.

(* ------------------------------------------------------ C07 ------------- *)
(* closed under the symmetry: the spec speaks of the user's numbers. *)
Lemma C07_lemma dim schemes st axis : nonneg schemes -> build_stencil dim schemes = Some st ->
  (forall a, axis = Some a -> 0 <= a < dim) ->
  ((exists r, stencil_get_symmetric st axis = Some r) <-> Forall (scheme_closed axis) (sv st)) /\
  forall r, stencil_get_symmetric st axis = Some r ->
    length r = length (concat schemes) /\
    (forall n i vs v, nth_error (sv st) n = Some vs -> nth_error vs i = Some v ->
      exists j u, nth_error vs j = Some u /\ vcoords u = sym_coords axis (vcoords v) /\
        nth_error r (length (concat (firstn n schemes)) + i) = Some (Z.of_nat (length (concat (firstn n schemes)) + j))) /\
    (Forall (@NoDup Z) schemes ->
      forall k i, nth_error r k = Some i -> nth_error r (Z.to_nat i) = Some (Z.of_nat k)).
Proof.
  intros Hnn H Hax. pose proof (build_facts dim schemes st Hnn H) as Hb.
  split; [eapply sym_table_defined; eauto|].
  intros r Hr. pose proof (sym_table_entry dim schemes st Hb axis Hax r Hr) as [H1 H2].
  split; [|split].
  - rewrite H1, <- (b_v _ _ _ Hb), <- concat_map, map_length. reflexivity.
  - intros n i vs v Hn Hi. destruct (H2 n i vs v Hn Hi) as (j & u & Ha & Hb' & Hc & _).
    exists j, u. rewrite (concat_sv_len dim schemes st Hb) in Hc. auto.
  - intros HN. eapply sym_table_invol; eauto.
Qed.

Lemma C07_bad_axis dim schemes st a : nonneg schemes -> build_stencil dim schemes = Some st ->
  ~ (0 <= a < dim) -> stencil_get_symmetric st (Some a) = None.
Proof.
  intros Hnn H Ha. pose proof (build_facts dim schemes st Hnn H) as Hb.
  destruct (proj1 (build_iff dim schemes Hnn) (ex_intro _ st H)) as (Hne & Hnil & _).
  unfold stencil_get_symmetric. pose proof (b_v _ _ _ Hb) as Hv.
  destruct (concat (sv st)) as [|v l] eqn:E.
  - exfalso. destruct (sv st) as [|vs t] eqn:F; [cbn in Hv; congruence|].
    cbn in E. apply app_eq_nil in E. destruct E as [-> _]. apply Hnil. rewrite <- Hv. now left.
  - assert (Hin : In v (concat (sv st))) by (rewrite E; now left).
    apply in_concat in Hin. destruct Hin as (vs & Hvs & Hin).
    destruct (sv_wf _ _ _ Hb vs v Hvs Hin) as [_ Hd].
    cbn. assert (HE : VelocityModel.get_symmetric v (Some a) = SymErr).
    { apply get_symmetric_err. exists a. split; [reflexivity|]. rewrite Hd. lia. }
    unfold sym_index at 1. rewrite HE. reflexivity.
Qed.

Lemma C07_one dim s st : nonneg [s] -> build_stencil dim [s] = Some st ->
  exists b, is_symmetric st = Some b /\ (b = true <-> Forall (scheme_closed None) (sv st)).
Proof.
  intros Hnn H. pose proof (build_facts dim [s] st Hnn H) as Hb. pose proof (b_v _ _ _ Hb) as Hv.
  destruct (sv st) as [|vs [|? ?]] eqn:E; try discriminate.
  destruct (is_symmetric_last dim [s] st Hb) as (b & vs' & front & E1 & E2 & E3); [congruence|].
  rewrite E in E2. destruct front as [|? [|? ?]]; inversion E2; subst.
  exists b. split; [exact E1|]. rewrite E3. split; [intros; constructor; auto|inversion 1; auto].
Qed.
