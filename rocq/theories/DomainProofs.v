(* Lemmas about the model of the Domain. *)
From Verif Require Import PyBase GridModel DomainModel.
From Coq Require Import QArith Qround Lqa FinFun.
Open Scope Z_scope.

Lemma Qltb_true a b : Qltb a b = true <-> (a < b)%Q.
Proof.
  unfold Qltb. rewrite Bool.negb_true_iff. split.
  - intros H. apply Qnot_le_lt. intros C. apply Qle_bool_iff in C. congruence.
  - intros H. destruct (Qle_bool b a) eqn:E; [|reflexivity]. apply Qle_bool_iff in E.
    exfalso. exact (Qlt_not_le _ _ H E).
Qed.
Lemma Qltb_false a b : Qltb a b = false <-> (b <= a)%Q.
Proof. unfold Qltb. rewrite Bool.negb_false_iff. apply Qle_bool_iff. Qed.

Lemma axes_in g d : In d (axes g) <-> (d < dim g)%nat.
Proof. unfold axes. rewrite in_seq. lia. Qed.
Lemma forallb_axes g (P : nat -> bool) : forallb P (axes g) = true <-> forall d, (d < dim g)%nat -> P d = true.
Proof.
  rewrite forallb_forall. split; intros H d Hd; apply H; now apply axes_in.
Qed.
Lemma interior_spec g c : interior g c = true <->
  forall d, (d < dim g)%nat -> (g_h g)@d <= c@d < (g_h g)@d + (g_n g)@d.
Proof.
  unfold interior. rewrite forallb_axes. split; intros H d Hd; specialize (H d Hd).
  - apply andb_prop in H. destruct H as [H1 H2]. apply Z.leb_le in H1. apply Z.ltb_lt in H2. lia.
  - apply andb_true_intro. split; [apply Z.leb_le|apply Z.ltb_lt]; lia.
Qed.

(* ------------------------------------------------------------- C14 ------- *)
Section Init.
Variable g : grid.
Variable k0 : nat.
Variable c : cell.

Definition improve (d : nat) (right : bool) (dv : Q) (lab : Z) (l : link) : link :=
  if Qltb dv (l_dist l) then
    mkLink dv lab (fun j => if Nat.ltb j d then 0%Q else if Nat.eqb j d then (if right then 1%Q else (-1)%Q)
                            else l_norm l j)
  else l.
Definition gap (right : bool) (d : nat) : Z :=
  if right then (g_n g)@d - 1 - (c@d - (g_h g)@d) else c@d - (g_h g)@d.

Lemma set_row_cell d k right i dv lab L :
  set_row g d k right i dv lab L k0 c =
  if Nat.eqb k0 k && interior g c && (i =? gap right d) then improve d right dv lab (L k0 c) else L k0 c.
Proof.
  unfold set_row, improve, gap. cbv zeta.
  assert (E : (c@d - (g_h g)@d =? (if right then (g_n g)@d - 1 - i else i)) =
              (i =? (if right then (g_n g)@d - 1 - (c@d - (g_h g)@d) else c@d - (g_h g)@d))).
  { destruct right; apply Bool.eq_iff_eq_true; rewrite !Z.eqb_eq; lia. }
  rewrite E. destruct (Nat.eqb k0 k && interior g c && (i =? _)); reflexivity.
Qed.

Lemma rows_fold d k right vk lab is : NoDup is -> forall L,
  fold_left (fun L i => set_row g d k right i (dvik vk i) lab L) is L k0 c =
  if Nat.eqb k0 k && interior g c && existsb (Z.eqb (gap right d)) is
  then improve d right (dvik vk (gap right d)) lab (L k0 c) else L k0 c.
Proof.
  induction 1 as [|i is Hi Hn IH]; intros L; cbn [fold_left existsb]; [now rewrite andb_false_r|].
  rewrite IH, set_row_cell. destruct (Nat.eqb k0 k && interior g c) eqn:E; cbn [andb]; [|reflexivity].
  rewrite (Z.eqb_sym i). destruct (Z.eqb_spec (gap right d) i) as [<-|Hne]; cbn [orb]; [|reflexivity].
  assert (existsb (Z.eqb (gap right d)) is = false) as ->; [|reflexivity].
  apply Bool.not_true_is_false. intros C. apply existsb_exists in C. destruct C as (x & Hx & Ex).
  apply Z.eqb_eq in Ex. subst x. contradiction.
Qed.
Lemma rows_spec vk x : existsb (Z.eqb x) (rows vk) = true <-> 0 <= x < Z.abs vk.
Proof.
  unfold rows. rewrite existsb_exists. split.
  - intros (y & Hy & E). apply Z.eqb_eq in E. subst y. apply in_map_iff in Hy. destruct Hy as (n & <- & Hn).
    apply in_seq in Hn. lia.
  - intros H. exists x. split; [|now apply Z.eqb_refl]. apply in_map_iff. exists (Z.to_nat x).
    split; [lia|]. apply in_seq. lia.
Qed.
Lemma rows_nodup vk : NoDup (rows vk).
Proof.
  unfold rows. apply FinFun.Injective_map_NoDup; [|apply seq_NoDup]. intros a b. lia.
Qed.

(* The side of axis d towards which v goes is a wall. *)
Definition exits (v : list Z) (d : nat) : bool :=
  ((v@d <? 0) && negb ((g_lab g)@(2 * d) =? -2)) || ((0 <? v@d) && negb ((g_lab g)@(2 * d + 1) =? -2)).
Definition toright (v : list Z) (d : nat) : bool := 0 <? v@d.
Definition wall_label (v : list Z) (d : nat) : Z := (g_lab g)@(if toright v d then 2 * d + 1 else 2 * d).
Definition T (v : list Z) (d : nat) : Q := dvik v@d (gap (toright v d) d).
Definition crosses (v : list Z) (d : nat) : bool := exits v d && (gap (toright v d) d <? Z.abs v@d).

Lemma init_axis_cell d L k v : (d < dim g)%nat -> interior g c = true ->
  init_axis_vel g d L (k, v) k0 c =
  if Nat.eqb k0 k && crosses v d then improve d (toright v d) (T v d) (wall_label v d) (L k0 c) else L k0 c.
Proof.
  intros Hd Hi. pose proof (proj1 (interior_spec g c) Hi d Hd) as Hc.
  unfold init_axis_vel, crosses, exits, T, wall_label.
  assert (R : forall right, existsb (Z.eqb (gap right d)) (rows v@d) = (gap right d <? Z.abs v@d)).
  { intros right. apply Bool.eq_iff_eq_true. rewrite rows_spec, Z.ltb_lt. unfold gap. destruct right; lia. }
  destruct (v@d <? 0) eqn:E1.
  - apply Z.ltb_lt in E1. assert (E2 : (0 <? v@d) = false) by (apply Z.ltb_ge; lia).
    unfold toright. rewrite E2. cbn [andb orb]. rewrite orb_false_r.
    destruct (negb ((g_lab g)@(2 * d) =? -2)) eqn:En; cbn [andb]; [|now rewrite andb_false_r].
    rewrite rows_fold by apply rows_nodup. rewrite Hi, andb_true_r, R. reflexivity.
  - cbn [andb orb]. destruct (0 <? v@d) eqn:E2; cbn [andb orb]; [|now rewrite andb_false_r].
    unfold toright. rewrite E2.
    destruct (negb ((g_lab g)@(2 * d + 1) =? -2)) eqn:En; cbn [andb]; [|now rewrite andb_false_r].
    rewrite rows_fold by apply rows_nodup. rewrite Hi, andb_true_r, R. reflexivity.
Qed.

Lemma numbered_fold {A} (f : A -> link -> link) (F : (nat -> cell -> link) -> nat * A -> nat -> cell -> link) :
  (forall L k a, F L (k, a) k0 c = if Nat.eqb k0 k then f a (L k0 c) else L k0 c) ->
  forall l s L, fold_left F (combine (seq s (length l)) l) L k0 c =
    match nth_error l (k0 - s) with
    | Some a => if Nat.leb s k0 then f a (L k0 c) else L k0 c
    | None => L k0 c
    end.
Proof.
  intros HF. induction l as [|a l IH]; intros s L; cbn [length seq combine fold_left].
  - now destruct (k0 - s)%nat.
  - rewrite IH, !HF. destruct (Nat.eqb_spec k0 s) as [->|Hne].
    + rewrite Nat.sub_diag. cbn [nth_error]. assert (Nat.leb (S s) s = false) as -> by (apply Nat.leb_gt; lia).
      rewrite Nat.leb_refl. now destruct (nth_error l (s - S s)).
    + destruct (Nat.leb_spec s k0).
      * replace (k0 - s)%nat with (S (k0 - S s)) by lia. cbn [nth_error].
        destruct (nth_error l (k0 - S s)); [|reflexivity].
        assert (Nat.leb (S s) k0 = true) as -> by (apply Nat.leb_le; lia). reflexivity.
      * assert (Nat.leb (S s) k0 = false) as -> by (apply Nat.leb_gt; lia).
        destruct (nth_error l (k0 - S s)), (nth_error (a :: l) (k0 - s)); reflexivity.
Qed.

Definition axis_step (v : list Z) (d : nat) (l : link) : link :=
  if crosses v d then improve d (toright v d) (T v d) (wall_label v d) l else l.

Lemma init_links_cell v : interior g c = true -> nth_error (g_vel g) k0 = Some v ->
  init_links g k0 c = fold_left (fun l d => axis_step v d l) (axes g) link0.
Proof.
  intros Hi Hv. unfold init_links.
  assert (G : forall ds L, (forall d, In d ds -> (d < dim g)%nat) ->
    fold_left (fun L d => fold_left (init_axis_vel g d) (numbered (g_vel g)) L) ds L k0 c =
    fold_left (fun l d => axis_step v d l) ds (L k0 c)).
  { induction ds as [|d ds IH]; intros L H; cbn [fold_left]; [reflexivity|].
    rewrite IH by (intros; apply H; now right). f_equal.
    unfold numbered. rewrite (numbered_fold (fun v l => axis_step v d l)).
    - rewrite Nat.sub_0_r, Hv. reflexivity.
    - intros L' k v'. rewrite init_axis_cell by (auto; apply H; now left). unfold axis_step.
      destruct (Nat.eqb k0 k), (crosses v' d); reflexivity. }
  rewrite G; [reflexivity|]. intros d Hd. now apply axes_in.
Qed.
Lemma init_links_out : interior g c = false -> init_links g k0 c = link0.
Proof.
  intros Hi. unfold init_links.
  assert (G : forall d kv L, init_axis_vel g d L kv k0 c = L k0 c).
  { intros d [k v] L. unfold init_axis_vel.
    destruct (_ && _); [|destruct (_ && _)]; try reflexivity;
      rewrite rows_fold by apply rows_nodup; now rewrite Hi, andb_false_r. }
  assert (G2 : forall d kvs L, fold_left (init_axis_vel g d) kvs L k0 c = L k0 c).
  { intros d. induction kvs as [|kv kvs IH]; intros L; cbn [fold_left]; [reflexivity|]. now rewrite IH, G. }
  assert (G3 : forall ds L, fold_left (fun L d => fold_left (init_axis_vel g d) (numbered (g_vel g)) L) ds L k0 c = L k0 c).
  { induction ds as [|d ds IH]; intros L; cbn [fold_left]; [reflexivity|]. now rewrite IH, G2. }
  now rewrite G3.
Qed.
Lemma init_links_novel : nth_error (g_vel g) k0 = None -> init_links g k0 c = link0.
Proof.
  intros Hv. destruct (interior g c) eqn:Hi; [|now apply init_links_out]. unfold init_links.
  assert (G3 : forall ds L, (forall d, In d ds -> (d < dim g)%nat) ->
    fold_left (fun L d => fold_left (init_axis_vel g d) (numbered (g_vel g)) L) ds L k0 c = L k0 c).
  { induction ds as [|d ds IH]; intros L H; cbn [fold_left]; [reflexivity|].
    rewrite IH by (intros; apply H; now right).
    unfold numbered. rewrite (numbered_fold (fun v l => axis_step v d l)).
    - now rewrite Nat.sub_0_r, Hv.
    - intros L' k v'. rewrite init_axis_cell by (auto; apply H; now left). unfold axis_step.
      destruct (Nat.eqb k0 k), (crosses v' d); reflexivity. }
  rewrite G3; [reflexivity|]. intros d Hd. now apply axes_in.
Qed.

(* What the loop over the axes gives. *)
Definition first_wall (v : list Z) (m : nat) (l : link) : Prop :=
  ((forall d, (d < m)%nat -> crosses v d = false) /\ l = link0) \/
  exists d, (d < m)%nat /\ crosses v d = true /\
    l_dist l = T v d /\ l_flag l = wall_label v d /\
    (forall j, l_norm l j = if Nat.eqb j d then (if toright v d then 1%Q else (-1)%Q) else 0%Q) /\
    (forall d', (d' < m)%nat -> crosses v d' = true -> (T v d <= T v d')%Q) /\
    (forall d', (d' < d)%nat -> crosses v d' = true -> (T v d < T v d')%Q).

Lemma T_range v d : (d < dim g)%nat -> interior g c = true -> crosses v d = true -> (0 < T v d < 1)%Q.
Proof.
  intros Hd Hi H. pose proof (proj1 (interior_spec g c) Hi d Hd) as Hc. unfold crosses in H. apply andb_prop in H. destruct H as [_ H].
  apply Z.ltb_lt in H. unfold T, dvik. set (y := gap (toright v d) d) in *.
  assert (0 <= y) by (unfold y, gap; destruct (toright v d); lia).
  assert (Hv : (0 < inject_Z (Z.abs v@d))%Q) by (change 0%Q with (inject_Z 0); rewrite <- Zlt_Qlt; lia).
  assert (Hy : (0 <= inject_Z y)%Q) by (change 0%Q with (inject_Z 0); rewrite <- Zle_Qle; lia).
  assert (Hy1 : (inject_Z y + 1 <= inject_Z (Z.abs v@d))%Q)
    by (change 1%Q with (inject_Z 1); rewrite <- inject_Z_plus, <- Zle_Qle; lia).
  split; [apply Qlt_shift_div_l; [exact Hv|lra]|apply Qlt_shift_div_r; [exact Hv|lra]].
Qed.

Lemma axes_fold v : interior g c = true -> forall m, (m <= dim g)%nat ->
  first_wall v m (fold_left (fun l d => axis_step v d l) (seq 0 m) link0).
Proof.
  intros Hi. induction m as [|m IH]; intros Hm; [left; split; [intros; lia|reflexivity]|].
  rewrite seq_S, fold_left_app. cbn [plus fold_left]. specialize (IH (Nat.lt_le_incl _ _ Hm)).
  set (l := fold_left _ (seq 0 m) link0) in *. unfold axis_step.
  destruct (crosses v m) eqn:Ec.
  - unfold improve. destruct IH as [[Hno ->]|(d & Hd & Hcd & Hl & Hf & Hn & Hmin & Hfirst)].
    + right. exists m. assert (Qltb (T v m) (l_dist link0) = true) as ->.
      { apply Qltb_true. cbn. pose proof (T_range v m Hm Hi Ec). unfold qvalin. change (inject_Z 999) with 999%Q. lra. }
      split; [lia|]. split; [exact Ec|]. split; [reflexivity|]. split; [reflexivity|].
      split; [|split].
      * intros j. cbn [l_norm link0]. destruct (Nat.ltb_spec j m), (Nat.eqb_spec j m); try lia; reflexivity.
      * intros d' Hd' Hc'. assert (d' = m) as ->; [|apply Qle_refl].
        destruct (Nat.eq_dec d' m); [assumption|]. rewrite Hno in Hc' by lia. discriminate.
      * intros d' Hd' Hc'. rewrite Hno in Hc' by lia. discriminate.
    + right. destruct (Qltb (T v m) (l_dist l)) eqn:El.
      * apply Qltb_true in El. rewrite Hl in El. exists m.
        split; [lia|]. split; [exact Ec|]. split; [reflexivity|]. split; [reflexivity|].
        split; [|split].
        { intros j. cbn [l_norm]. destruct (Nat.ltb_spec j m), (Nat.eqb_spec j m); try lia; try reflexivity.
          rewrite Hn. destruct (Nat.eqb_spec j d); [lia|reflexivity]. }
        { intros d' Hd' Hc'. destruct (Nat.eq_dec d' m) as [->|]; [apply Qle_refl|].
          apply Qlt_le_weak. eapply Qlt_le_trans; [exact El|]. apply Hmin; [lia|exact Hc']. }
        { intros d' Hd' Hc'. eapply Qlt_le_trans; [exact El|]. now apply Hmin. }
      * apply Qltb_false in El. rewrite Hl in El. exists d. repeat (split; [first [lia|assumption]|]).
        split; [|exact Hfirst]. intros d' Hd' Hc'. destruct (Nat.eq_dec d' m) as [->|]; [exact El|].
        apply Hmin; [lia|exact Hc'].
  - destruct IH as [[Hno ->]|(d & Hd & Hcd & Hl & Hf & Hn & Hmin & Hfirst)].
    + left. split; [|reflexivity]. intros d Hd. destruct (Nat.eq_dec d m) as [->|]; [exact Ec|]. apply Hno. lia.
    + right. exists d. repeat (split; [first [lia|assumption]|]).
      split; [|exact Hfirst]. intros d' Hd' Hc'. destruct (Nat.eq_dec d' m) as [->|]; [congruence|].
      apply Hmin; [lia|exact Hc'].
Qed.

(* Position of the cell centre in units of dx from the corner of the box, moved
   by t velocities. *)
Definition pos (v : list Z) (t : Q) (d : nat) : Q :=
  (inject_Z (c@d - (g_h g)@d) + (1 # 2) + t * inject_Z v@d)%Q.
(* The box, closed; a side labelled -2 (interface between processes) is no wall. *)
Definition in_box (y : nat -> Q) : Prop := forall d, (d < dim g)%nat ->
  ((g_lab g)@(2 * d) <> -2 -> (0 <= y d)%Q) /\
  ((g_lab g)@(2 * d + 1) <> -2 -> (y d <= inject_Z (g_n g)@d)%Q).

Lemma in_box_iff v t : interior g c = true -> (0 <= t)%Q ->
  (in_box (pos v t) <-> forall d, (d < dim g)%nat -> exits v d = true -> (t <= T v d)%Q).
Proof.
  intros Hi Ht. unfold in_box.
  assert (D : forall d, (d < dim g)%nat ->
    (((g_lab g)@(2 * d) <> -2 -> (0 <= pos v t d)%Q) /\
     ((g_lab g)@(2 * d + 1) <> -2 -> (pos v t d <= inject_Z (g_n g)@d)%Q)) <->
    (exits v d = true -> (t <= T v d)%Q)).
  { intros d Hd. pose proof (proj1 (interior_spec g c) Hi d Hd) as Hc.
    unfold pos, exits, T, dvik, gap, toright. set (p := c@d - (g_h g)@d).
    assert (Hp0 : (0 <= inject_Z p)%Q) by (change 0%Q with (inject_Z 0); rewrite <- Zle_Qle; unfold p; lia).
    assert (Hp1 : (inject_Z p + 1 <= inject_Z (g_n g)@d)%Q)
      by (change 1%Q with (inject_Z 1); rewrite <- inject_Z_plus, <- Zle_Qle; unfold p; lia).
    assert (Htri : v@d < 0 \/ v@d = 0 \/ 0 < v@d) by lia. destruct Htri as [Hv|[Hv|Hv]].
    - assert (Q0 : (0 < inject_Z (Z.abs v@d))%Q) by (change 0%Q with (inject_Z 0); rewrite <- Zlt_Qlt; lia).
      assert (Qv : (inject_Z v@d == - inject_Z (Z.abs v@d))%Q).
      { rewrite <- inject_Z_opp. apply inject_Z_injective. lia. }
      rewrite (proj2 (Z.ltb_lt _ _) Hv), (proj2 (Z.ltb_ge 0 v@d)) by lia. cbn [andb orb]. rewrite orb_false_r.
      rewrite Qv. set (a := inject_Z (Z.abs v@d)) in *. clearbody a.
      assert (X : (t <= (inject_Z p + (1 # 2)) / a)%Q <-> (0 <= inject_Z p + (1 # 2) + t * - a)%Q).
      { split; intros H.
        - assert (t * a <= inject_Z p + (1#2))%Q; [|nra].
          apply (Qmult_le_compat_r _ _ a) in H; [|lra]. unfold Qdiv in H. rewrite <- Qmult_assoc, (Qmult_comm (/ a)), Qmult_inv_r in H by lra. lra.
        - apply Qle_shift_div_l; [exact Q0|]. lra. }
      rewrite X. split.
      + intros [H _] E. apply H. intros C. rewrite C in E. discriminate.
      + intros H. split; [|intros _; nra]. intros C. apply H. destruct (Z.eqb_spec (g_lab g)@(2 * d) (-2)); [congruence|reflexivity].
    - rewrite Hv. cbn [Z.ltb Z.compare andb orb]. change (inject_Z 0) with 0%Q. split; [discriminate|]. intros _. split; intros _; lra.
    - assert (Q0 : (0 < inject_Z (Z.abs v@d))%Q) by (change 0%Q with (inject_Z 0); rewrite <- Zlt_Qlt; lia).
      assert (Qv : (inject_Z v@d == inject_Z (Z.abs v@d))%Q) by (apply inject_Z_injective; lia).
      rewrite (proj2 (Z.ltb_lt 0 _) Hv), (proj2 (Z.ltb_ge v@d 0)) by lia. cbn [andb orb].
      rewrite Qv. set (a := inject_Z (Z.abs v@d)) in *. clearbody a.
      assert (Qn : (inject_Z ((g_n g)@d - 1 - p) == inject_Z (g_n g)@d - 1 - inject_Z p)%Q).
      { unfold Z.sub. rewrite !inject_Z_plus, !inject_Z_opp. change (inject_Z 1) with 1%Q. ring. }
      rewrite Qn.
      assert (X : (t <= (inject_Z (g_n g)@d - 1 - inject_Z p + (1 # 2)) / a)%Q <->
                  (inject_Z p + (1 # 2) + t * a <= inject_Z (g_n g)@d)%Q).
      { split; intros H.
        - apply (Qmult_le_compat_r _ _ a) in H; [|lra]. unfold Qdiv in H. rewrite <- Qmult_assoc, (Qmult_comm (/ a)), Qmult_inv_r in H by lra. lra.
        - apply Qle_shift_div_l; [exact Q0|]. lra. }
      rewrite X. split.
      + intros [_ H] E. apply H. intros C. rewrite C in E. discriminate.
      + intros H. split; [intros _; nra|]. intros C. apply H. destruct (Z.eqb_spec (g_lab g)@(2 * d + 1) (-2)); [congruence|reflexivity]. }
  split; intros H d Hd; apply D; auto.
Qed.
Lemma exits_cases v d : (d < dim g)%nat -> interior g c = true -> exits v d = true ->
  (crosses v d = true /\ (T v d < 1)%Q) \/ (crosses v d = false /\ (1 < T v d)%Q).
Proof.
  intros Hd Hi He. destruct (crosses v d) eqn:Ec; [left; split; [reflexivity|]; now apply T_range|].
  right. split; [reflexivity|]. unfold crosses in Ec. rewrite He in Ec. cbn [andb] in Ec. apply Z.ltb_ge in Ec.
  unfold T, dvik. set (y := gap (toright v d) d) in *.
  assert (Hvn : v@d <> 0).
  { intros C. unfold exits in He. rewrite C in He. discriminate. }
  assert (Hv : (0 < inject_Z (Z.abs v@d))%Q) by (change 0%Q with (inject_Z 0); rewrite <- Zlt_Qlt; lia).
  assert (Hy1 : (inject_Z (Z.abs v@d) <= inject_Z y)%Q) by (rewrite <- Zle_Qle; lia).
  apply Qlt_shift_div_l; [exact Hv|lra].
Qed.
End Init.

(* ------------------------------------------------------------- C15 ------- *)
Lemma qtrunc_ge q z : 0 <= z -> (inject_Z z <= q)%Q -> z <= qtrunc q.
Proof.
  intros Hz H. unfold qtrunc. destruct q as [a b]. unfold Qle in H. cbn [Qnum Qden inject_Z] in *.
  rewrite Z.quot_div_nonneg by nia. apply Z.div_le_lower_bound; nia.
Qed.
Lemma qtrunc_le q z : 0 <= z -> (q <= inject_Z z)%Q -> qtrunc q <= z.
Proof.
  intros Hz H. unfold qtrunc. destruct q as [a b]. unfold Qle in H. cbn [Qnum Qden inject_Z] in *.
  destruct (Z_le_gt_dec 0 a).
  - rewrite Z.quot_div_nonneg by lia. apply Z.div_le_upper_bound; nia.
  - assert (- (Z.quot a (Zpos b)) >= 0); [|lia]. rewrite <- Z.quot_opp_l by lia.
    rewrite Z.quot_div_nonneg by lia. apply Z.le_ge, Z.div_pos; lia.
Qed.
Lemma qtrunc_gt q z : z < 0 -> (inject_Z z < q)%Q -> z < qtrunc q.
Proof.
  intros Hz H. unfold qtrunc. destruct q as [a b]. unfold Qlt in H. cbn [Qnum Qden inject_Z] in *.
  destruct (Z_le_gt_dec 0 a).
  - rewrite Z.quot_div_nonneg by lia. pose proof (Z.div_pos a (Zpos b)). lia.
  - assert (E : Z.quot a (Zpos b) = - (Z.quot (- a) (Zpos b))) by (rewrite Z.quot_opp_l by lia; lia).
    rewrite E, Z.quot_div_nonneg by lia. assert (- a / Zpos b < - z); [|lia]. apply Z.div_lt_upper_bound; nia.
Qed.
Lemma qtrunc_le_neg q z : z <= 0 -> (q <= inject_Z z)%Q -> qtrunc q <= z.
Proof.
  intros Hz H. unfold qtrunc. destruct q as [a b]. unfold Qle in H. cbn [Qnum Qden inject_Z] in *.
  assert (E : Z.quot a (Zpos b) = - (Z.quot (- a) (Zpos b))) by (rewrite Z.quot_opp_l by lia; lia).
  rewrite E, Z.quot_div_nonneg by nia. assert (- z <= - a / Zpos b); [|lia]. apply Z.div_le_lower_bound; nia.
Qed.

Lemma nth_axes {A} g (f : nat -> A) d x : (d < dim g)%nat -> nth d (map f (axes g)) x = f d.
Proof.
  intros H. rewrite (nth_indep _ x (f 0%nat)) by (rewrite map_length; unfold axes; now rewrite seq_length).
  rewrite map_nth. unfold axes. now rewrite seq_nth.
Qed.
Lemma shift_nth g c v d : (d < dim g)%nat -> (shift g c v)@d = c@d + v@d.
Proof. intros H. unfold shift. now rewrite nth_axes. Qed.
Lemma point_nth g c d : (d < dim g)%nat -> (point g c)@@d = ((g_x0 g)@@d + g_dx g * inject_Z c@d)%Q.
Proof. intros H. unfold point. now rewrite nth_axes. Qed.

(* What is asked of a grid and of the elements. *)
Definition wf_grid (g : grid) : Prop :=
  (0 < g_dx g)%Q /\
  (forall d, (d < dim g)%nat -> 0 <= (g_h g)@d /\ 0 < (g_n g)@d) /\
  (forall v d, In v (g_vel g) -> (d < dim g)%nat -> Z.abs v@d <= (g_h g)@d).
(* get_bounds gives a box that contains the points of the grid in the element *)
Definition bounds_ok (g : grid) (e : elem) : Prop :=
  forall c d, e_in e (point g c) = true -> (d < dim g)%nat -> ((e_lo e)@@d <= (point g c)@@d <= (e_hi e)@@d)%Q.
(* The distance to the element along a segment: at most one; positive only if the
   segment meets the box of the element; positive if the segment crosses the
   border, from the outside for a solid, from the inside for a fluid. *)
Definition distance_ok (g : grid) (e : elem) : Prop :=
  forall c v, In v (g_vel g) ->
    let a := e_alpha e (point g c) (displacement g v) in
    (a <= 1)%Q /\
    ((0 < a)%Q -> exists t, (0 <= t <= 1)%Q /\ forall d, (d < dim g)%nat ->
       ((e_lo e)@@d <= (point g c)@@d + t * (displacement g v)@@d <= (e_hi e)@@d)%Q) /\
    (e_in e (point g c) = e_fluid e -> e_in e (point g (shift g c v)) = negb (e_fluid e) -> (0 < a)%Q).

Section Elem.
Variable g : grid.
Hypothesis W : wf_grid g.
Variable e : elem.
Hypothesis B : bounds_ok g e.

Lemma wf_dx : (0 < g_dx g)%Q. Proof. apply W. Qed.
Lemma wf_h d : (d < dim g)%nat -> 0 <= (g_h g)@d. Proof. intros. now apply W. Qed.
Lemma wf_n d : (d < dim g)%nat -> 0 < (g_n g)@d. Proof. intros. now apply W. Qed.
Lemma wf_v v d : In v (g_vel g) -> (d < dim g)%nat -> Z.abs v@d <= (g_h g)@d. Proof. now apply W. Qed.

(* indices of the element *)
Lemma cell_bounds c d : e_in e (point g c) = true -> (d < dim g)%nat ->
  (((e_lo e)@@d - (g_x0 g)@@d) / g_dx g <= inject_Z c@d <= ((e_hi e)@@d - (g_x0 g)@@d) / g_dx g)%Q.
Proof.
  intros Hin Hd. pose proof (B _ d Hin Hd) as H. rewrite point_nth in H by exact Hd. pose proof wf_dx.
  split; [apply Qle_shift_div_r|apply Qle_shift_div_l]; auto; lra.
Qed.
Lemma view_of_near c c' : e_in e (point g c') = true ->
  (forall d, (d < dim g)%nat -> 0 <= c'@d /\ Z.abs (c'@d - c@d) <= (g_h g)@d) ->
  interior g c = true -> in_view g e c = true.
Proof.
  intros Hin Hnear Hc. unfold in_view. apply forallb_axes. intros d Hd. cbv zeta.
  pose proof (proj1 (interior_spec g c) Hc d Hd) as Hcd. destruct (Hnear d Hd) as [H0 H1].
  pose proof (cell_bounds c' d Hin Hd) as [H2 H3].
  apply (qtrunc_le _ _ H0) in H2. apply (qtrunc_ge _ _ H0) in H3.
  pose proof (wf_h d Hd). pose proof (wf_n d Hd).
  assert (E1 : nmin g e d <= c@d) by (unfold nmin; lia).
  assert (E2 : c@d < nmax g e d) by (unfold nmax; lia).
  assert (E3 : 0 <= nmin g e d) by (unfold nmin; lia).
  assert (E4 : nmax g e d <= total g d) by (unfold nmax, total; lia).
  unfold sl_start, sl_len, norm_slice. assert (T0 : total g d = (g_n g)@d + 2 * (g_h g)@d) by reflexivity.
  destruct (nmin g e d <? 0) eqn:A1; [apply Z.ltb_lt in A1; lia|].
  destruct (nmax g e d <? 0) eqn:A2; [apply Z.ltb_lt in A2; lia|].
  apply andb_true_intro. split; [apply Z.leb_le|apply Z.ltb_lt]; lia.
Qed.
Lemma view_inside c : (forall d, (d < dim g)%nat -> 0 <= c@d) -> e_in e (point g c) = true ->
  in_view g e c = interior g c.
Proof.
  intros Hpos Hin. destruct (interior g c) eqn:Ei.
  - apply (view_of_near c c Hin); [|exact Ei]. intros d Hd. pose proof (wf_h d Hd). pose proof (Hpos d Hd). lia.
  - apply Bool.not_true_is_false. intros Hv. apply Bool.not_true_iff_false in Ei. apply Ei. apply interior_spec.
    intros d Hd. unfold in_view in Hv. rewrite forallb_axes in Hv. specialize (Hv d Hd). cbv zeta in Hv.
    apply andb_prop in Hv. destruct Hv as [V1 V2]. apply Z.leb_le in V1. apply Z.ltb_lt in V2.
    pose proof (cell_bounds c d Hin Hd) as [H2 H3]. pose proof (Hpos d Hd) as H0.
    apply (qtrunc_ge _ _ H0) in H3. pose proof (wf_h d Hd). pose proof (wf_n d Hd).
    assert (E2 : 0 < nmax g e d <= (g_h g)@d + (g_n g)@d) by (unfold nmax; lia).
    assert (E3 : (g_h g)@d <= nmin g e d) by (unfold nmin; lia).
    unfold sl_start, sl_len, norm_slice in *. assert (T0 : total g d = (g_n g)@d + 2 * (g_h g)@d) by reflexivity.
    destruct (nmin g e d <? 0) eqn:A1; [apply Z.ltb_lt in A1; lia|].
    destruct (nmax g e d <? 0) eqn:A2; [apply Z.ltb_lt in A2; lia|]. lia.
Qed.
Lemma view_pos c d : in_view g e c = true -> (d < dim g)%nat -> nmin g e d <= c@d.
Proof.
  intros Hv Hd. unfold in_view in Hv. rewrite forallb_axes in Hv. specialize (Hv d Hd). cbv zeta in Hv.
  apply andb_prop in Hv. destruct Hv as [V1 V2]. apply Z.leb_le in V1. apply Z.ltb_lt in V2.
  pose proof (wf_h d Hd). pose proof (wf_n d Hd).
  assert (E3 : (g_h g)@d <= nmin g e d) by (unfold nmin; lia).
  assert (T0 : total g d = (g_n g)@d + 2 * (g_h g)@d) by reflexivity.
  unfold sl_start, sl_len, norm_slice in *.
  destruct (nmin g e d <? 0) eqn:A1; [apply Z.ltb_lt in A1; lia|].
  destruct (nmax g e d <? 0) eqn:A2; lia.
Qed.

Lemma ioo_elem_spec ioo c : (forall d, (d < dim g)%nat -> 0 <= c@d) ->
  ioo_elem g e ioo c = if interior g c && e_in e (point g c) then e_fluid e else ioo c.
Proof.
  intros Hpos. unfold ioo_elem. destruct (e_in e (point g c)) eqn:Ein; [|now rewrite !andb_false_r].
  now rewrite view_inside.
Qed.

Lemma shifted_eq v c : In v (g_vel g) -> interior g c = true -> in_view g e c = true ->
  shifted g e v c = shift g c v.
Proof.
  intros Hvel Hc Hv. unfold shifted, shift. apply map_ext_in. intros d Hd. apply axes_in in Hd.
  pose proof (view_pos c d Hv Hd). pose proof (proj1 (interior_spec g c) Hc d Hd).
  pose proof (wf_h d Hd). pose proof (wf_n d Hd). pose proof (wf_v _ _ Hvel Hd).
  assert (E3 : (g_h g)@d <= nmin g e d) by (unfold nmin; lia).
  assert (T0 : total g d = (g_n g)@d + 2 * (g_h g)@d) by reflexivity.
  unfold sl_start, norm_slice.
  destruct (nmin g e d + v@d <? 0) eqn:A1; [apply Z.ltb_lt in A1; lia|].
  destruct (nmin g e d <? 0) eqn:A2; [apply Z.ltb_lt in A2; lia|]. lia.
Qed.

Lemma not_empty_shift v c : In v (g_vel g) -> interior g c = true -> in_view g e c = true ->
  distance_ok g e -> (0 < e_alpha e (point g c) (displacement g v))%Q -> empty_shift g e v = false.
Proof.
  intros Hvel Hc Hv Hdist Ha. destruct (Hdist c v Hvel) as (_ & H2 & _). destruct (H2 Ha) as (t & Ht & Hb). clear H2.
  apply Bool.not_true_is_false. intros C. unfold empty_shift in C. apply existsb_exists in C.
  destruct C as (d & Hd & C). apply axes_in in Hd. apply Z.eqb_eq in C. unfold view_len in C.
  specialize (Hb d Hd). rewrite point_nth in Hb by exact Hd. unfold displacement in Hb. rewrite nth_axes in Hb by exact Hd.
  pose proof (proj1 (interior_spec g c) Hc d Hd). pose proof (wf_h d Hd). pose proof (wf_n d Hd).
  pose proof (wf_v _ _ Hvel Hd). pose proof wf_dx.
  assert (Hhi : (inject_Z 0 <= ((e_hi e)@@d - (g_x0 g)@@d) / g_dx g)%Q).
  { apply Qle_shift_div_l; [assumption|].
    assert (P1 : (0 <= inject_Z c@d)%Q) by (change 0%Q with (inject_Z 0); rewrite <- Zle_Qle; lia).
    assert (P2 : (0 <= inject_Z c@d + inject_Z v@d)%Q)
      by (rewrite <- inject_Z_plus; change 0%Q with (inject_Z 0); rewrite <- Zle_Qle; lia).
    change (inject_Z 0) with 0%Q.
    assert (P3 : (0 <= inject_Z c@d + t * inject_Z v@d)%Q).
    { setoid_replace (inject_Z c@d + t * inject_Z v@d)%Q
        with ((1 - t) * inject_Z c@d + t * (inject_Z c@d + inject_Z v@d))%Q by ring. 
      assert (0 <= (1 - t) * inject_Z c@d)%Q by (apply Qmult_le_0_compat; lra).
      assert (0 <= t * (inject_Z c@d + inject_Z v@d))%Q by (apply Qmult_le_0_compat; lra). lra. }
    assert (P4 : (0 <= g_dx g * (inject_Z c@d + t * inject_Z v@d))%Q) by (apply Qmult_le_0_compat; lra).
    assert (P5 : (g_dx g * (inject_Z c@d + t * inject_Z v@d) ==
                  g_dx g * inject_Z c@d + t * (g_dx g * inject_Z v@d))%Q) by ring. lra. }
  apply qtrunc_ge in Hhi; [|lia]. unfold in_view in Hv. rewrite forallb_axes in Hv. specialize (Hv d Hd). cbv zeta in Hv.
  apply andb_prop in Hv. destruct Hv as [V1 V2]. apply Z.leb_le in V1. apply Z.ltb_lt in V2.
  assert (E3 : (g_h g)@d <= nmin g e d) by (unfold nmin; lia).
  assert (E4 : 0 < nmax g e d <= (g_h g)@d + (g_n g)@d) by (unfold nmax; lia).
  assert (T0 : total g d = (g_n g)@d + 2 * (g_h g)@d) by reflexivity.
  unfold sl_start, sl_len, norm_slice in *.
  destruct (nmin g e d <? 0) eqn:A1; [apply Z.ltb_lt in A1; lia|].
  destruct (nmax g e d <? 0) eqn:A2; [apply Z.ltb_lt in A2; lia|].
  destruct (nmin g e d + v@d <? 0) eqn:A3; [apply Z.ltb_lt in A3; lia|].
  destruct (nmax g e d + v@d <? 0) eqn:A4; [apply Z.ltb_lt in A4; lia|]. lia.
Qed.
Lemma link_elem_eq ioo v c l : In v (g_vel g) -> interior g c = true -> in_view g e c = true ->
  distance_ok g e ->
  let a := e_alpha e (point g c) (displacement g v) in
  let out := negb (ioo (shift g c v)) in
  let inside := e_in e (point g c) in
  let l1 := if e_fluid e then if negb out && ioo c then mkLink qvalin valin (l_norm l) else l
            else if inside then mkLink qvalin valin (l_norm l) else l in
  link_elem g e ioo v c l =
  if Qltb 0 a && Bool.eqb inside (e_fluid e) && out &&
     (if e_fluid e then Qltb (l_dist l1) a || Qeq_bool (l_dist l1) qvalin else Qltb a (l_dist l1))
  then mkLink a (e_border e (point g c) (displacement g v)) (fun j => (- e_norm e (point g c) (displacement g v) j)%Q)
  else l1.
Proof.
  intros Hvel Hc Hv Hdist. cbv zeta. unfold link_elem. cbv zeta. rewrite shifted_eq by assumption.
  destruct (Qltb 0 (e_alpha e (point g c) (displacement g v))) eqn:Ea; cbn [andb]; [|reflexivity].
  apply Qltb_true in Ea. rewrite (not_empty_shift v c Hvel Hc Hv Hdist Ea). cbn [orb].
  destruct (e_fluid e), (e_in e (point g c)); reflexivity.
Qed.
End Elem.

(* Which cells are fluid, whatever the arrays: the last element that contains the
   cell decides; a cell of no element is fluid. *)
Definition last_decides (es : list elem) (x : list Q) (b : bool) : Prop :=
  ((forall e, In e es -> e_in e x = false) /\ b = true) \/
  exists l e r, es = l ++ e :: r /\ e_in e x = true /\ (forall e', In e' r -> e_in e' x = false) /\
    b = e_fluid e.
Lemma last_decides_fun es x b b' : last_decides es x b -> last_decides es x b' -> b = b'.
Proof.
  revert b b'. induction es as [|e es IH] using rev_ind; intros b b'.
  - intros [[_ ->]|(l & e & r & E & _)] [[_ ->]|(l' & e' & r' & E' & _)]; try reflexivity;
      match goal with E : [] = ?l ++ _ :: _ |- _ => destruct l; discriminate E end.
  - assert (C : forall c, last_decides (es ++ [e]) x c ->
      if e_in e x then c = e_fluid e else last_decides es x c).
    { intros c [[H ->]|(l & e1 & r & E & Hin & Hr & ->)].
      - rewrite H by (apply in_or_app; right; now left). left. split; [|reflexivity]. intros e' He'. apply H.
        apply in_or_app. now left.
      - destruct r as [|e2 r _] using rev_ind.
        + apply app_inj_tail in E. destruct E as [_ <-]. now rewrite Hin.
        + rewrite app_comm_cons, app_assoc in E. apply app_inj_tail in E. destruct E as [-> <-].
          rewrite Hr by (apply in_or_app; right; now left). right. exists l, e1, r. repeat split; auto.
          intros e' He'. apply Hr. apply in_or_app. now left. }
    intros H H'. apply C in H. apply C in H'. destruct (e_in e x); [congruence|]. eauto.
Qed.
Lemma last_decides_snoc es e x b : last_decides es x b ->
  last_decides (es ++ [e]) x (if e_in e x then e_fluid e else b).
Proof.
  intros H. destruct (e_in e x) eqn:E.
  - right. exists es, e, []. repeat split; auto. intros e' [].
  - destruct H as [[H ->]|(l & e1 & r & -> & Hin & Hr & ->)].
    + left. split; [|reflexivity]. intros e' He'. apply in_app_or in He'. destruct He' as [He'|[<-|[]]]; auto.
    + right. exists l, e1, (r ++ [e]). repeat split; auto; [now rewrite <- app_assoc|].
      intros e' He'. apply in_app_or in He'. destruct He' as [He'|[<-|[]]]; auto.
Qed.

Lemma add_elems_app g a b D : add_elems g (a ++ b) D =
  match add_elems g a D with Some D' => add_elems g b D' | None => None end.
Proof.
  revert D. induction a as [|e a IH]; intros D; cbn [add_elems app]; [reflexivity|].
  destruct (add_elem g e D); [apply IH|reflexivity].
Qed.

Definition nonneg_cell (g : grid) (c : cell) : Prop := forall d, (d < dim g)%nat -> 0 <= c@d.
Lemma interior_nonneg g c : wf_grid g -> interior g c = true -> nonneg_cell g c.
Proof. intros W H d Hd. pose proof (proj1 (interior_spec g c) H d Hd). pose proof (wf_h g W d Hd). lia. Qed.

Lemma ioo_elems g es D D' : wf_grid g -> (forall e, In e es -> bounds_ok g e) ->
  add_elems g es D = Some D' -> d_ioo D = interior g ->
  forall c, nonneg_cell g c ->
    (interior g c = false /\ d_ioo D' c = false) \/
    (interior g c = true /\ last_decides es (point g c) (d_ioo D' c)).
Proof.
  intros W. revert D'. induction es as [|e es IH] using rev_ind; intros D' HB H HD c Hc.
  - cbn in H. injection H as <-. rewrite HD. destruct (interior g c); [right|left]; split; auto.
    left. split; [|reflexivity]. intros e [].
  - rewrite add_elems_app in H. destruct (add_elems g es D) as [D1|] eqn:E1; [|discriminate].
    cbn [add_elems] in H. destruct (add_elem g e D1) as [D2|] eqn:E2; [|discriminate]. injection H as <-.
    assert (Be : bounds_ok g e) by (apply HB, in_or_app; right; now left).
    specialize (IH D1 (fun e' He' => HB e' (in_or_app _ _ _ (or_introl He'))) eq_refl HD c Hc).
    unfold add_elem in E2. destruct (existsb _ _); [discriminate|]. injection E2 as <-. cbn [d_ioo].
    rewrite (ioo_elem_spec g W e Be _ _ Hc).
    destruct IH as [[Hi H1]|[Hi H1]]; rewrite Hi; cbn [andb]; [left|right]; split; auto.
    destruct (e_in e (point g c)) eqn:Ein.
    + pose proof (last_decides_snoc es e (point g c) _ H1) as H2. now rewrite Ein in H2.
    + pose proof (last_decides_snoc es e (point g c) _ H1) as H2. now rewrite Ein in H2.
Qed.

(* Links *)
Definition unflagged (l : link) : Prop := l_dist l = qvalin /\ l_flag l = valin.
Definition flagged (l : link) : Prop := (0 < l_dist l <= 1)%Q.
Lemma flag_excl l : unflagged l -> flagged l -> False.
Proof. intros [H _] [_ H2]. rewrite H in H2. unfold qvalin in H2. revert H2. now compute. Qed.

Definition beyond_wall (g : grid) (c : cell) (v : list Z) : Prop := ~ in_box g (pos g c v 1).

Lemma link_step g e D D' k v c : wf_grid g -> bounds_ok g e -> distance_ok g e ->
  nth_error (g_vel g) k = Some v -> interior g c = true ->
  (e_fluid e = true -> interior g (shift g c v) = false -> e_in e (point g (shift g c v)) = false) ->
  (forall c', nonneg_cell g c' -> interior g c' = false -> d_ioo D c' = false) ->
  add_elem g e D = Some D' ->
  (unflagged (d_link D k c) \/ flagged (d_link D k c)) ->
  (d_ioo D c = true -> if d_ioo D (shift g c v) then unflagged (d_link D k c) else flagged (d_link D k c)) ->
  (unflagged (d_link D' k c) \/ flagged (d_link D' k c)) /\
  (vzero g v = false -> d_ioo D' c = true ->
   if d_ioo D' (shift g c v) then unflagged (d_link D' k c) else flagged (d_link D' k c)).
Proof.
  intros W B DK Hk Hc H3 Hhalo He Hsh Hinv.
  assert (Hvel : In v (g_vel g)) by (eapply nth_error_In; eassumption).
  unfold add_elem in He. destruct (existsb _ _); [discriminate|]. injection He as <-. cbn [d_ioo d_link].
  rewrite Hk. pose proof (interior_nonneg g c W Hc) as Hc0.
  assert (Hs0 : nonneg_cell g (shift g c v)).
  { intros d Hd. rewrite shift_nth by exact Hd. pose proof (proj1 (interior_spec g c) Hc d Hd).
    pose proof (wf_v g W _ _ Hvel Hd). lia. }
  rewrite !(ioo_elem_spec g W e B) by assumption. rewrite Hc. cbn [andb].
  destruct (in_view g e c) eqn:Ev.
  - cbn [andb]. destruct (vzero g v) eqn:Ez; cbn [negb].
    { split; [exact Hsh|]. discriminate. }
    rewrite (link_elem_eq g W e _ v c _ Hvel Hc Ev DK). cbv zeta.
    rewrite !(ioo_elem_spec g W e B) by assumption. rewrite Hc. cbn [andb].
    destruct (DK c v Hvel) as (A1 & _ & A2).
    set (a := e_alpha e (point g c) (displacement g v)) in *.
    set (l := d_link D k c) in *. set (s := shift g c v) in *.
    assert (Hup : forall b n, (0 < a)%Q -> flagged (mkLink a b n)) by (intros; split; assumption).
    destruct (e_fluid e) eqn:Ef.
    + destruct (interior g s) eqn:Es; cbn [andb].
      * destruct (e_in e (point g s)) eqn:Eins; cbn [negb andb].
        { rewrite !andb_false_r. cbn [andb].
          destruct (e_in e (point g c)) eqn:Einc.
          - split; [left; split; reflexivity|]. intros _ _. split; reflexivity.
          - destruct (d_ioo D c) eqn:Ec; split; auto; try discriminate; [left; split; reflexivity|].
            intros _ _. split; reflexivity. }
        destruct (d_ioo D s) eqn:Eds; cbn [negb andb].
        { rewrite !andb_false_r. cbn [andb].
          destruct (e_in e (point g c)) eqn:Einc.
          - split; [left; split; reflexivity|]. intros _ _. split; reflexivity.
          - destruct (d_ioo D c) eqn:Ec; split; auto; try discriminate; [left; split; reflexivity|].
            intros _ _. split; reflexivity. }
        rewrite andb_true_r. destruct (e_in e (point g c)) eqn:Einc; cbn [Bool.eqb].
        { specialize (A2 eq_refl eq_refl). rewrite (proj2 (Qltb_true 0 a) A2). cbn [andb].
          destruct Hsh as [[Hu1 Hu2]|Hf].
          - rewrite Hu1. change (Qeq_bool qvalin qvalin) with true. rewrite orb_true_r. split; [right|intros _ _]; now apply Hup.
          - destruct (_ || _); split; try (intros _ _); try (right; now apply Hup); try (right; assumption); auto. }
        { rewrite andb_false_r. cbn [andb]. split; [exact Hsh|]. intros _ Hcc. now apply Hinv in Hcc. }
      * rewrite (Hhalo s Hs0 Es) in *. cbn [negb andb].
        rewrite andb_true_r. destruct (e_in e (point g c)) eqn:Einc; cbn [Bool.eqb].
        { specialize (A2 eq_refl (H3 eq_refl eq_refl)). rewrite (proj2 (Qltb_true 0 a) A2). cbn [andb].
          destruct Hsh as [[Hu1 Hu2]|Hf].
          - rewrite Hu1. change (Qeq_bool qvalin qvalin) with true. rewrite orb_true_r. split; [right|intros _ _]; now apply Hup.
          - destruct (_ || _); split; try (intros _ _); try (right; now apply Hup); try (right; assumption); auto. }
        { rewrite andb_false_r. cbn [andb]. split; [exact Hsh|]. intros _ Hcc. now apply Hinv in Hcc. }
    + destruct (e_in e (point g c)) eqn:Einc; cbn [Bool.eqb].
      { rewrite andb_false_r. cbn [andb]. split; [left; split; reflexivity|]. discriminate. }
      rewrite andb_true_r.
      destruct (interior g s) eqn:Es; cbn [andb].
      * destruct (e_in e (point g s)) eqn:Eins; cbn [negb andb].
        { rewrite andb_true_r. specialize (A2 eq_refl eq_refl). rewrite (proj2 (Qltb_true 0 a) A2). cbn [andb].
          destruct (Qltb a (l_dist l)) eqn:El.
          - split; [right|intros _ _]; now apply Hup.
          - split; [exact Hsh|]. intros _ _. destruct Hsh as [[Hu1 _]|Hf]; [|exact Hf].
            rewrite Hu1 in El. apply Qltb_false in El. exfalso. unfold qvalin in El. change (inject_Z 999) with 999%Q in El. lra. }
        destruct (d_ioo D s) eqn:Eds; cbn [negb andb].
        { rewrite !andb_false_r. cbn [andb]. split; [exact Hsh|]. intros _ Hcc. now apply Hinv in Hcc. }
        { rewrite andb_true_r. destruct (Qltb 0 a) eqn:Ea; cbn [andb];
            [apply Qltb_true in Ea; destruct (Qltb a (l_dist l)) eqn:El|]; split; auto; try (right; now apply Hup);
            intros _ Hcc; try (now apply Hup); now apply Hinv in Hcc. }
      * rewrite (Hhalo s Hs0 Es) in *. cbn [negb]. rewrite andb_true_r.
        destruct (Qltb 0 a) eqn:Ea; cbn [andb];
            [apply Qltb_true in Ea; destruct (Qltb a (l_dist l)) eqn:El|]; split; auto; try (right; now apply Hup);
            intros _ Hcc; try (now apply Hup); now apply Hinv in Hcc.
  - cbn [andb]. split; [exact Hsh|]. intros _.
    assert (Nc : e_in e (point g c) = false).
    { apply Bool.not_true_is_false. intros C. rewrite (view_inside g W e B c Hc0 C) in Ev. congruence. }
    rewrite Nc. intros Hcc. specialize (Hinv Hcc).
    destruct (interior g (shift g c v)) eqn:Es; [|exact Hinv]. cbn [andb].
    assert (Ns : e_in e (point g (shift g c v)) = false).
    { apply Bool.not_true_is_false. intros C. apply Bool.not_true_iff_false in Ev. apply Ev.
      apply (view_of_near g W e B c (shift g c v) C); [|exact Hc]. intros d Hd. split; [now apply Hs0|].
      rewrite shift_nth by exact Hd. pose proof (wf_v g W _ _ Hvel Hd). lia. }
    now rewrite Ns.
Qed.

Lemma init_unflagged g c k v : interior g c = true -> nth_error (g_vel g) k = Some v ->
  (in_box g (pos g c v 1) -> init_links g k c = link0) /\
  (beyond_wall g c v -> flagged (init_links g k c)).
Proof.
  intros Hc Hk. rewrite (init_links_cell g k c v Hc Hk).
  pose proof (axes_fold g c v Hc (dim g) (Nat.le_refl _)) as F. unfold axes.
  set (l := fold_left _ _ _) in *. assert (H01 : (0 <= 1)%Q) by lra.
  pose proof (in_box_iff g c v 1 Hc H01) as IB. destruct F as [[Hno ->]|(d & Hd & Hcd & Hl & _)].
  - split; [reflexivity|]. intros H. exfalso. apply H. apply IB. intros d Hd He.
    destruct (exits_cases g c v d Hd Hc He) as [[C _]|[_ C]]; [rewrite Hno in C by exact Hd; discriminate|lra].
  - pose proof (T_range g c v d Hd Hc Hcd) as HT. split.
    + intros H. exfalso. rewrite IB in H. assert (exits g v d = true) by (unfold crosses in Hcd; now apply andb_prop in Hcd).
      specialize (H d Hd H0). lra.
    + intros _. unfold flagged. rewrite Hl. lra.
Qed.

Lemma interior_in_box g c v : interior g c = true -> interior g (shift g c v) = true -> in_box g (pos g c v 1).
Proof.
  intros Hc Hs d Hd. pose proof (proj1 (interior_spec _ _) Hs d Hd) as H. rewrite shift_nth in H by exact Hd.
  unfold pos.
  assert (E : (inject_Z (c@d - (g_h g)@d) + (1 # 2) + 1 * inject_Z v@d == inject_Z (c@d + v@d - (g_h g)@d) + (1 # 2))%Q).
  { unfold Z.sub. rewrite !inject_Z_plus. ring. }
  rewrite E.
  assert (P1 : (0 <= inject_Z (c@d + v@d - (g_h g)@d))%Q) by (change 0%Q with (inject_Z 0); rewrite <- Zle_Qle; lia).
  assert (P2 : (inject_Z (c@d + v@d - (g_h g)@d) + 1 <= inject_Z (g_n g)@d)%Q)
    by (change 1%Q with (inject_Z 1); rewrite <- inject_Z_plus, <- Zle_Qle; lia).
  split; intros _; lra.
Qed.

Lemma elems_links g es D D' : wf_grid g ->
  (forall e, In e es -> bounds_ok g e /\ distance_ok g e) ->
  add_elems g es D = Some D' -> d_ioo D = interior g -> d_link D = init_links g ->
  forall k v c, nth_error (g_vel g) k = Some v -> vzero g v = false -> interior g c = true ->
  (interior g (shift g c v) = true \/
   (beyond_wall g c v /\ forall e, In e es -> e_fluid e = true -> e_in e (point g (shift g c v)) = false)) ->
  (unflagged (d_link D' k c) \/ flagged (d_link D' k c)) /\
  (d_ioo D' c = true -> if d_ioo D' (shift g c v) then unflagged (d_link D' k c) else flagged (d_link D' k c)).
Proof.
  intros W HE HD Hi Hl k v c Hk Hz Hc. revert D' HE HD. induction es as [|e es IH] using rev_ind; intros D' HE HD Ht.
  - cbn in HD. injection HD as <-. rewrite Hl. destruct (init_unflagged g c k v Hc Hk) as [I1 I2].
    destruct (interior g (shift g c v)) eqn:Es.
    + rewrite (I1 (interior_in_box g c v Hc Es)). split; [left; split; reflexivity|].
      intros _. rewrite Hi, Es. split; reflexivity.
    + destruct Ht as [Ht|[Ht _]]; [discriminate|]. split; [right; now apply I2|]. intros _. rewrite Hi, Es. now apply I2.
  - rewrite add_elems_app in HD. destruct (add_elems g es D) as [D1|] eqn:E1; [|discriminate].
    cbn [add_elems] in HD. destruct (add_elem g e D1) as [D2|] eqn:E2; [|discriminate]. injection HD as <-.
    assert (HE' : forall e', In e' es -> bounds_ok g e' /\ distance_ok g e')
      by (intros e' He'; apply HE, in_or_app; now left).
    destruct (HE e) as [Be De]; [apply in_or_app; right; now left|].
    destruct (IH D1 HE' eq_refl) as [I1 I2].
    { destruct Ht as [Ht|[Ht1 Ht2]]; [now left|right]. split; [exact Ht1|]. intros e' He'. apply Ht2, in_or_app. now left. }
    destruct (link_step g e D1 D2 k v c W Be De Hk Hc) as [S1 S2]; auto.
    + intros Hf Hsn. destruct Ht as [Ht|[_ Ht]]; [congruence|]. apply Ht; [|exact Hf]. apply in_or_app. right. now left.
    + intros c' Hc' Hn'. destruct (ioo_elems g es D D1 W (fun e' He' => proj1 (HE' e' He')) E1 Hi c' Hc') as [[_ H]|[H _]]; congruence.
    + split; [exact S1|exact (S2 Hz)].
Qed.

(* Existence: no shape error *)
Lemma no_shape_error g e v : wf_grid g -> In v (g_vel g) ->
  (forall d, (d < dim g)%nat -> (g_h g)@d <= nmax g e d \/ nmax g e d < - (g_h g)@d) ->
  shape_error g e v = false.
Proof.
  intros W Hvel H. unfold shape_error.
  assert (same_shape g e v = true) as ->; [|cbn; now rewrite andb_false_r].
  unfold same_shape. apply forallb_axes. intros d Hd. apply Z.eqb_eq. unfold view_len, zero_v.
  assert (N0 : ([] : list Z)@d = 0) by (destruct d; reflexivity). rewrite N0, !Z.add_0_r.
  pose proof (wf_h g W d Hd). pose proof (wf_n g W d Hd). pose proof (wf_v g W _ _ Hvel Hd). specialize (H d Hd).
  assert (E3 : (g_h g)@d <= nmin g e d) by (unfold nmin; lia).
  assert (E4 : nmax g e d <= (g_h g)@d + (g_n g)@d) by (unfold nmax; lia).
  assert (T0 : total g d = (g_n g)@d + 2 * (g_h g)@d) by reflexivity.
  unfold sl_len, norm_slice.
  destruct (nmin g e d <? 0) eqn:A1; [apply Z.ltb_lt in A1; lia|].
  destruct (nmin g e d + v@d <? 0) eqn:A3; [apply Z.ltb_lt in A3; lia|].
  destruct (nmax g e d <? 0) eqn:A2; destruct (nmax g e d + v@d <? 0) eqn:A4; try apply Z.ltb_lt in A2; try apply Z.ltb_lt in A4;
    try apply Z.ltb_ge in A2; try apply Z.ltb_ge in A4; lia.
Qed.
Lemma add_elems_exist g es : wf_grid g ->
  (forall e, In e es -> forall d, (d < dim g)%nat -> (g_h g)@d <= nmax g e d \/ nmax g e d < - (g_h g)@d) ->
  forall D, exists D', add_elems g es D = Some D'.
Proof.
  intros W H. induction es as [|e es IH]; intros D; cbn [add_elems]; [eauto|].
  unfold add_elem. assert (existsb (shape_error g e) (g_vel g) = false) as ->.
  { apply Bool.not_true_is_false. intros C. apply existsb_exists in C. destruct C as (v & Hv & C).
    rewrite no_shape_error in C; auto; [discriminate|]. apply H. now left. }
  apply IH. intros e' He'. apply H. now right.
Qed.
Lemma nmax_far g e d : wf_grid g -> (d < dim g)%nat ->
  ((g_x0 g)@@d - 2 * g_dx g < (e_hi e)@@d)%Q \/
  ((e_hi e)@@d <= (g_x0 g)@@d - inject_Z (2 * (g_h g)@d + 2) * g_dx g)%Q ->
  (g_h g)@d <= nmax g e d \/ nmax g e d < - (g_h g)@d.
Proof.
  intros W Hd H. pose proof (wf_h g W d Hd). pose proof (wf_n g W d Hd). pose proof (wf_dx g W).
  destruct H as [H|H].
  - left. assert (Q1 : (inject_Z (-2) < ((e_hi e)@@d - (g_x0 g)@@d) / g_dx g)%Q).
    { apply Qlt_shift_div_l; [assumption|]. change (inject_Z (-2)) with (-2)%Q. lra. }
    apply qtrunc_gt in Q1; [|lia]. unfold nmax. lia.
  - right. assert (Q1 : (((e_hi e)@@d - (g_x0 g)@@d) / g_dx g <= inject_Z (- (2 * (g_h g)@d + 2)))%Q).
    { apply Qle_shift_div_r; [assumption|]. rewrite inject_Z_opp. lra. }
    apply qtrunc_le_neg in Q1; [|lia]. unfold nmax. lia.
Qed.

(* the stored distances are positive *)
Lemma init_pos g k c : (0 < l_dist (init_links g k c))%Q.
Proof.
  assert (P0 : (0 < l_dist link0)%Q) by reflexivity.
  destruct (interior g c) eqn:Hi; [|now rewrite init_links_out].
  destruct (nth_error (g_vel g) k) as [v|] eqn:Hk; [|now rewrite init_links_novel].
  destruct (init_unflagged g c k v Hi Hk) as [I1 I2].
  rewrite (init_links_cell g k c v Hi Hk).
  pose proof (axes_fold g c v Hi (dim g) (Nat.le_refl _)) as F. unfold axes.
  destruct F as [[Hno ->]|(d & Hd & Hcd & Hl & _)]; [exact P0|]. rewrite Hl. now apply (T_range g c v d Hd Hi Hcd).
Qed.
Lemma elem_pos g e ioo v c l : (0 < l_dist l)%Q -> (0 < l_dist (link_elem g e ioo v c l))%Q.
Proof.
  intros H. unfold link_elem. cbv zeta.
  set (a := e_alpha e (point g c) (displacement g v)).
  destruct (Qltb 0 a) eqn:Ea; [apply Qltb_true in Ea|]; cbn [andb];
    repeat match goal with
    | |- context [l_dist (if ?b then _ else _)] => destruct b
    end; first [exact H|exact Ea|reflexivity].
Qed.
Lemma elems_pos g es D D' : add_elems g es D = Some D' ->
  (forall k c, (0 < l_dist (d_link D k c))%Q) -> forall k c, (0 < l_dist (d_link D' k c))%Q.
Proof.
  revert D. induction es as [|e es IH]; intros D H HD; cbn [add_elems] in H; [now injection H as <-|].
  destruct (add_elem g e D) as [D1|] eqn:E; [|discriminate]. apply (IH D1 H).
  unfold add_elem in E. destruct (existsb _ _); [discriminate|]. injection E as <-. cbn [d_link].
  intros k c. destruct (nth_error (g_vel g) k) as [v|]; [|apply HD].
  destruct (in_view g e c && negb (vzero g v)); [|apply HD]. apply elem_pos, HD.
Qed.

(* positions and exit times *)
Lemma pos_left g c v d t : v@d < 0 -> (pos g c v t d == inject_Z (Z.abs v@d) * (T g c v d - t))%Q.
Proof.
  intros Hv. unfold pos, T, dvik, toright, gap. rewrite (proj2 (Z.ltb_ge 0 v@d)) by lia.
  assert (Q0 : ~ (inject_Z (Z.abs v@d) == 0)%Q).
  { intros C. apply (proj1 (inject_Z_injective _ 0)) in C. lia. }
  assert (Qv : (inject_Z v@d == - inject_Z (Z.abs v@d))%Q) by (rewrite <- inject_Z_opp; apply inject_Z_injective; lia).
  rewrite Qv. field. exact Q0.
Qed.
Lemma pos_right g c v d t : 0 < v@d ->
  (inject_Z (g_n g)@d - pos g c v t d == inject_Z (Z.abs v@d) * (T g c v d - t))%Q.
Proof.
  intros Hv. unfold pos, T, dvik, toright, gap. rewrite (proj2 (Z.ltb_lt 0 v@d)) by lia.
  assert (Q0 : ~ (inject_Z (Z.abs v@d) == 0)%Q).
  { intros C. apply (proj1 (inject_Z_injective _ 0)) in C. lia. }
  assert (Qv : (inject_Z v@d == inject_Z (Z.abs v@d))%Q) by (apply inject_Z_injective; lia).
  rewrite Qv. unfold Z.sub. rewrite !inject_Z_plus, !inject_Z_opp, !inject_Z_plus, !inject_Z_opp. change (inject_Z 1) with 1%Q. field. exact Q0.
Qed.
