(* Specifications and lemmas for the generated kernels. *)
From Verif Require Import PyBase AlgoModel AlgoProofs GlobalModel GlobalProofs TorusProofs GenModel.
Require Import Lia.
Open Scope Z_scope.

Section GenP.
Variable V : Type.
Implicit Types (A B : arrays V) (x y : list Z) (p : list (stmt V)).

(* ------------------------------------------------------------------ accesses *)
Fixpoint gets (e : expr V) : list access := match e with
  | ENum _ | ELoc _ => []
  | EGet a => [a]
  | EUn _ e => gets e
  | EBin _ e1 e2 => gets e1 ++ gets e2
  end.
Fixpoint locs (e : expr V) : list nat := match e with
  | ENum _ | EGet _ => []
  | ELoc k => [k]
  | EUn _ e => locs e
  | EBin _ e1 e2 => locs e1 ++ locs e2
  end.
Definition sets1 (s : stmt V) : list access := match s with SSet a _ => [a] | SLoc _ _ => [] end.
Definition gets1 (s : stmt V) : list access := match s with SSet _ e => gets e | SLoc _ e => gets e end.
Definition sets p : list access := flat_map sets1 p.
Definition uses p : list access := flat_map (fun s => sets1 s ++ gets1 s) p.

(* the cells of the loop *)
Definition inbox (rs : ranges) (x : list Z) : Prop := Forall2 (fun r i => fst r <= i < snd r) rs x.

(* every index is in the array, at each cell of the loop *)
Definition in_array (rs : ranges) (shape : list Z) (a : access) : Prop :=
  forall x, inbox rs x -> Forall2 (fun n i => 0 <= i < n) shape (addr x a).
(* the Idx of an Indexed are those of the target, in the same order *)
Definition idx_of (a : access) : list nat := flat_map (fun t => match t with ICst _ => [] | IIdx j _ => [j] end) (a_idx a).
Definition aligned (rs : ranges) (a : access) : Prop := idx_of a = seq 0 (length rs).

(* two cells never touch the same element if one of them writes it *)
Definition independent (rs : ranges) p : Prop :=
  forall w t x y, In w (sets p) -> In t (uses p) -> a_name w = a_name t -> inbox rs x -> inbox rs y -> addr x w = addr y t -> x = y.
(* a local symbol is assigned before it is used *)
Fixpoint assigned (D : list nat) p : Prop := match p with
  | [] => True
  | SSet _ e :: p => incl (locs e) D /\ assigned D p
  | SLoc k e :: p => incl (locs e) D /\ assigned (k :: D) p
  end.
(* no local symbol is another name of a part of an array *)
Definition computed (s : stmt V) : Prop := match s with SLoc _ (EGet _) => False | _ => True end.

Record printable (rs : ranges) (sh : nat -> list Z) p : Prop := {
  p_range : Forall (fun r => fst r < snd r) rs;
  p_in : forall a, In a (uses p) -> in_array rs (sh (a_name a)) a;
  p_al : forall a, In a (uses p) -> aligned rs a;
  p_ind : independent rs p;
  p_loc : assigned [] p;
  p_new : Forall computed p }.

(* ------------------------------------------------------------------ one cell *)
Lemma same_spec n m q r : same n m q r = true <-> n = m /\ q = r.
Proof. unfold same. rewrite andb_true_iff, Nat.eqb_eq, list_eqb_spec. tauto. Qed.
Lemma store_same A n q v : store V A n q v n q = v.
Proof. unfold store. assert (same n n q q = true) as -> by (now apply same_spec). reflexivity. Qed.
Lemma store_other A n q v m r : ~ (m = n /\ r = q) -> store V A n q v m r = A m r.
Proof. intro H. unfold store. destruct (same m n r q) eqn:E; [|reflexivity]. apply same_spec in E. tauto. Qed.
Lemma store_cases A n q v m r : (m = n /\ r = q /\ store V A n q v m r = v) \/ (~ (m = n /\ r = q) /\ store V A n q v m r = A m r).
Proof.
  destruct (same m n r q) eqn:E.
  - apply same_spec in E as [-> ->]. left. now rewrite store_same.
  - assert (~ (m = n /\ r = q)) as H by (intro H; apply same_spec in H; congruence). right. split; [exact H|]. now apply store_other.
Qed.

Lemma ceval_ext A B L M x e :
  (forall a, In a (gets e) -> A (a_name a) (addr x a) = B (a_name a) (addr x a)) -> (forall k, In k (locs e) -> L k = M k) ->
  ceval V A L x e = ceval V B M x e.
Proof.
  induction e as [v|k|a|o e IH|o e1 IH1 e2 IH2]; cbn; intros HA HL.
  - reflexivity.
  - apply HL. now left.
  - apply HA. now left.
  - f_equal. apply IH; assumption.
  - f_equal; [apply IH1|apply IH2]; intros; [apply HA|apply HL|apply HA|apply HL]; apply in_or_app; tauto.
Qed.

(* two runs of a cell which agree on the elements it uses *)
Lemma cell_agree (T : access -> Prop) x p : forall D (st1 st2 : arrays V * (nat -> V)),
  (forall a, In a (uses p) -> T a) -> assigned D p ->
  (forall a, T a -> fst st1 (a_name a) (addr x a) = fst st2 (a_name a) (addr x a)) ->
  (forall k, In k D -> snd st1 k = snd st2 k) ->
  (forall a, T a -> fst (ccell V p st1 x) (a_name a) (addr x a) = fst (ccell V p st2 x) (a_name a) (addr x a)).
Proof.
  induction p as [|s p IH]; intros D st1 st2 HT HD HA HL a Ha; [now apply HA|].
  unfold ccell in *. cbn [fold_left].
  assert (HT' : forall b, In b (uses p) -> T b) by (intros b Hb; apply HT; cbn; apply in_or_app; now right).
  destruct s as [w e|k e]; cbn in HD; destruct HD as [Hi HD].
  - assert (E : ceval V (fst st1) (snd st1) x e = ceval V (fst st2) (snd st2) x e).
    { apply ceval_ext; [intros b Hb; apply HA, HT; cbn; right; apply in_or_app; now left|intros k Hk; apply HL, Hi, Hk]. }
    apply (IH D); [exact HT'|exact HD| |exact HL|exact Ha].
    intros b Hb. cbn [cexec fst]. rewrite E.
    destruct (store_cases (fst st1) (a_name w) (addr x w) (ceval V (fst st2) (snd st2) x e) (a_name b) (addr x b)) as [(E1 & E2 & ->)|[N ->]].
    + rewrite E1, E2, store_same. reflexivity.
    + rewrite store_other by exact N. now apply HA.
  - assert (E : ceval V (fst st1) (snd st1) x e = ceval V (fst st2) (snd st2) x e).
    { apply ceval_ext; [intros b Hb; apply HA, HT; cbn; apply in_or_app; now left|intros j Hj; apply HL, Hi, Hj]. }
    apply (IH (k :: D)); [exact HT'|exact HD|exact HA| |exact Ha].
    intros j Hj. cbn [cexec snd]. destruct (Nat.eq_dec j k) as [->|N]; [now rewrite !updf_same|].
    rewrite !updf_other by exact N. apply HL. destruct Hj; [congruence|assumption].
Qed.

(* a cell changes only the elements it writes *)
Lemma cell_frame x p : forall (st : arrays V * (nat -> V)) n q, (forall w, In w (sets p) -> ~ (n = a_name w /\ q = addr x w)) -> fst (ccell V p st x) n q = fst st n q.
Proof.
  induction p as [|s p IH]; intros st n q H; [reflexivity|]. unfold ccell in *. cbn [fold_left]. rewrite IH.
  - destruct s as [w e|k e]; cbn [cexec fst]; [|reflexivity]. apply store_other. apply H. now left.
  - intros w Hw. apply H. cbn. apply in_or_app. now right.
Qed.

(* ------------------------------------------------------------------ the loops *)
Section Loop.
Variables (rs : ranges) (p : list (stmt V)) (A0 : arrays V) (L0 : nat -> V).
Hypothesis Ind : independent rs p.
Hypothesis Ass : assigned [] p.

Definition alone (x : list Z) : arrays V := fst (ccell V p (A0, L0) x).
Definition writes_at (n : nat) (q : list Z) (x : list Z) : Prop := exists w, In w (sets p) /\ n = a_name w /\ q = addr x w.

Lemma sets_uses w : In w (sets p) -> In w (uses p).
Proof. unfold sets, uses. rewrite !in_flat_map. intros (s & Hs & Hw). exists s. split; [exact Hs|]. apply in_or_app. now left. Qed.

Lemma loop_alone cells : NoDup cells -> (forall x, In x cells -> inbox rs x) ->
  forall st : arrays V * (nat -> V), (forall x t, In x cells -> In t (uses p) -> fst st (a_name t) (addr x t) = A0 (a_name t) (addr x t)) ->
  let B := fst (cython V p cells st) in
  (forall x t, In x cells -> In t (uses p) -> B (a_name t) (addr x t) = alone x (a_name t) (addr x t)) /\
  (forall n q, (forall x, In x cells -> ~ writes_at n q x) -> B n q = fst st n q).
Proof using Ind Ass.
  induction cells as [|c cells IH]; intros ND HB st H0; cbn zeta; [split; [intros x t []|reflexivity]|].
  unfold cython in *. cbn [fold_left]. inversion ND as [|? ? Nc ND']; subst.
  destruct (IH ND' (fun x Hx => HB x (or_intror Hx)) (ccell V p st c)) as [I1 I2].
  { intros x t Hx Ht. rewrite cell_frame; [apply H0; [now right|exact Ht]|].
    intros w Hw [E1 E2]. apply Nc. rewrite (Ind w t c x Hw Ht (eq_sym E1) (HB c (or_introl eq_refl)) (HB x (or_intror Hx)) (eq_sym E2)). exact Hx. }
  split.
  - intros x t [<-|Hx] Ht; [|now apply I1].
    rewrite I2.
    + unfold alone. apply (cell_agree (fun a => In a (uses p)) c p [] st (A0, L0)); [tauto|exact Ass| |intros k []|exact Ht].
      intros a Ha. apply H0; [now left|exact Ha].
    + intros x Hx (w & Hw & E1 & E2). apply Nc.
      rewrite <- (Ind w t x c Hw Ht (eq_sym E1) (HB x (or_intror Hx)) (HB c (or_introl eq_refl)) (eq_sym E2)). exact Hx.
  - intros n q N. rewrite I2.
    + apply cell_frame. intros w Hw [E1 E2]. apply (N c (or_introl eq_refl)). exists w. tauto.
    + intros x Hx. apply N. now right.
Qed.
End Loop.

(* the nested loops run once through each cell *)
Lemma nest_in rs : forall x, In x (nest rs) <-> inbox rs x.
Proof.
  induction rs as [|[l u] rs IH]; intro x; cbn; unfold inbox.
  - split; [intros [<-|[]]; constructor|inversion 1; tauto].
  - rewrite in_flat_map. split.
    + intros (i & Hi & Hx). apply in_map_iff in Hx as (y & <- & Hy). apply zrange_in in Hi. constructor; [cbn; lia|now apply IH].
    + inversion 1 as [|? i ? y Hi Hy]; subst. exists i. split; [apply zrange_in; cbn in Hi; lia|]. apply in_map. now apply IH.
Qed.
Lemma nest_NoDup rs : NoDup (nest rs).
Proof.
  induction rs as [|[l u] rs IH]; cbn; [constructor; [tauto|constructor]|].
  generalize (zrange_NoDup l u). induction (zrange l u) as [|i L IHL]; intro ND; cbn; [constructor|].
  inversion ND as [|? ? Ni ND']; subst. apply NoDup_app; [|now apply IHL|].
  - apply FinFun.Injective_map_NoDup; [|exact IH]. now intros a b [= ->].
  - intros x Hx Hy. apply in_map_iff in Hx as (y & <- & _). apply in_flat_map in Hy as (j & Hj & Hy).
    apply in_map_iff in Hy as (z & [= -> _] & _). contradiction.
Qed.

(* ------------------------------------------------------------------ the slices *)
Definition box_shape (rs : ranges) : list Z := map (fun r => snd r - fst r) rs.
Definition inside (s i : list Z) : Prop := Forall2 (fun n k => 0 <= k < n) s i.
Fixpoint cell_of (rs : ranges) (i : list Z) : list Z := match rs, i with r :: rs, k :: i => (fst r + k) :: cell_of rs i | _, _ => [] end.

Lemma cell_of_in rs : forall i, inside (box_shape rs) i -> inbox rs (cell_of rs i).
Proof.
  induction rs as [|r rs IH]; intros i H; inversion H as [|? k ? i' Hk Hi]; subst; cbn; constructor; [lia|]. now apply IH.
Qed.
Lemma cell_of_onto rs : forall x, inbox rs x -> exists i, inside (box_shape rs) i /\ cell_of rs i = x.
Proof.
  induction rs as [|r rs IH]; intros x H; inversion H as [|? k ? x' Hk Hx]; subst.
  - exists []. split; [constructor|reflexivity].
  - destruct (IH x' Hx) as (i & Hi & <-). exists (k - fst r :: i). split; [constructor; [lia|exact Hi]|]. cbn. f_equal. lia.
Qed.
Lemma cell_of_inj rs : forall i k, inside (box_shape rs) i -> inside (box_shape rs) k -> cell_of rs i = cell_of rs k -> i = k.
Proof.
  induction rs as [|r rs IH]; intros i k Hi Hk E; inversion Hi; inversion Hk; subst; [reflexivity|]. cbn in E. injection E as E1 E2.
  f_equal; [lia|]. now apply IH.
Qed.
Lemma cell_of_nth rs : forall i j, inside (box_shape rs) i -> (j < length rs)%nat -> nth j (cell_of rs i) 0 = fst (nth j rs (0, 0)) + nth j i 0.
Proof.
  induction rs as [|r rs IH]; intros i j Hi Hj; [cbn in Hj; lia|]. inversion Hi; subst. destruct j as [|j]; cbn; [reflexivity|].
  apply IH; [assumption|cbn in Hj; lia].
Qed.

Lemma inside_length s i : inside s i -> length i = length s.
Proof. induction 1; cbn; congruence. Qed.
Lemma inside_nth s i j : inside s i -> (j < length s)%nat -> 0 <= nth j i 0 < nth j s 0.
Proof. intro H. revert j. induction H as [|n k s i Hk Hi IH]; intros j Hj; cbn in *; [lia|]. destruct j; [exact Hk|]. apply IH. lia. Qed.
Lemma skipn_cons {X} (d : X) (l : list X) : forall j, (j < length l)%nat -> skipn j l = nth j l d :: skipn (S j) l.
Proof. induction l as [|a l IH]; intros [|j] Hj; cbn in *; try lia; [reflexivity|]. apply IH. lia. Qed.

Lemma sel_find_spec l : forall q i, sel_find l q = Some i <-> inside (sel_shape l) i /\ q = sel_addr l i.
Proof.
  induction l as [|[z|s n] l IH]; intros q i; cbn.
  - destruct q; split; [intros [= <-]; split; [constructor|reflexivity]|intros [H _]; now inversion H|discriminate|intros [_ H]; discriminate].
  - destruct q as [|b q]; [split; [discriminate|intros [_ H]; discriminate]|]. destruct (b =? z) eqn:E.
    + rewrite IH. assert (b = z) by lia. subst. split; [intros [H ->]; tauto|intros [H [= ->]]; tauto].
    + split; [discriminate|]. intros [_ [= -> _]]. lia.
  - destruct q as [|b q]; [split; [discriminate|intros [_ H]; discriminate]|]. destruct ((s <=? b) && (b <? s + n)) eqn:E.
    + destruct (sel_find l q) as [i'|] eqn:F; cbn.
      * pose proof F as F0. apply IH in F as [F1 F2]. split.
        -- intros [= <-]. split; [constructor; [lia|exact F1]|]. cbn. f_equal; [lia|exact F2].
        -- intros [H E2]. inversion H as [|? k ? i2 Hk Hi]; subst. cbn in E2. injection E2 as -> E3. f_equal. f_equal; [lia|].
           assert (Some i' = Some i2) as [=]; [|assumption]. rewrite <- F0, E3. apply IH. tauto.
      * split; [discriminate|]. intros [H E2]. inversion H as [|? k ? i2 Hk Hi]; subst. cbn in E2. injection E2 as -> E3.
        assert (sel_find l q = Some i2) by (apply IH; tauto). congruence.
    + split; [discriminate|]. intros [H E2]. inversion H as [|? k ? i2 Hk Hi]; subst. cbn in E2. injection E2 as -> _. lia.
Qed.

Section Slice.
Variables (rs : ranges).
Hypothesis R : Forall (fun r => fst r < snd r) rs.
Let d := length rs.

Lemma low_in : inbox rs (map fst rs).
Proof using R. clear d. induction R as [|r l H Hl IH]; constructor; [lia|apply IH; exact Hl]. Qed.
Lemma high_in : inbox rs (map (fun r => snd r - 1) rs).
Proof using R. clear d. induction R as [|r l H Hl IH]; constructor; [lia|apply IH; exact Hl]. Qed.

Lemma resolve_from idx : forall shape j, (j <= d)%nat ->
  flat_map (fun t => match t with ICst _ => [] | IIdx j _ => [j] end) idx = seq j (d - j) ->
  (forall x, inbox rs x -> Forall2 (fun n i => 0 <= i < n) shape (map (ix_at x) idx)) ->
  exists l, resolve rs shape idx = Some l /\ sel_shape l = skipn j (box_shape rs) /\
    forall i, inside (box_shape rs) i -> sel_addr l (skipn j i) = map (ix_at (cell_of rs i)) idx.
Proof using R.
  induction idx as [|t idx IH]; intros shape j Hj HI HB.
  - pose proof (HB _ low_in) as H. inversion H; subst. exists []. split; [reflexivity|].
    assert (d - j = 0)%nat by (destruct (d - j)%nat; [reflexivity|discriminate HI]).
    split; [|reflexivity]. symmetry. apply skipn_all2. unfold box_shape. rewrite map_length. fold d. lia.
  - pose proof (HB _ low_in) as H. inversion H as [|n ? shape' ? H1 H2]; subst.
    assert (HB' : forall x, inbox rs x -> Forall2 (fun n i => 0 <= i < n) shape' (map (ix_at x) idx)).
    { intros x Hx. pose proof (HB x Hx) as K. inversion K; subst. assumption. }
    destruct t as [z|k c]; cbn in HI.
    + destruct (IH shape' j Hj HI HB') as (l & E1 & E2 & E3). exists (SelAt z :: l). cbn in H1 |- *.
      assert ((- n <=? z) && (z <? n) = true) as -> by lia. assert (z <? 0 = false) as -> by lia. rewrite E1.
      split; [reflexivity|]. split; [exact E2|]. intros i Hi. f_equal. now apply E3.
    + assert (Hd : (d - j = S (d - S j))%nat) by (destruct (d - j)%nat eqn:E; [discriminate HI|lia]).
      rewrite Hd in HI. cbn in HI. injection HI as -> HI. assert (Hjd : (j < d)%nat) by lia.
      destruct (IH shape' (S j) Hjd HI HB') as (l & E1 & E2 & E3).
      pose proof (HB _ high_in) as K. inversion K as [|? ? ? ? K1 K2]; subst. cbn in H1, K1.
      assert (N1 : nth j (map fst rs) 0 = fst (nth j rs (0, 0))) by (change 0 with (fst (0, 0)) at 1; apply map_nth).
      assert (N2 : nth j (map (fun r => snd r - 1) rs) 0 = snd (nth j rs (0, 0)) - 1).
      { rewrite (nth_indep _ 0 ((fun r => snd r - 1) (0, 0))) by (rewrite map_length; exact Hjd). apply (map_nth (fun r => snd r - 1)). }
      assert (N3 : nth j (box_shape rs) 0 = snd (nth j rs (0, 0)) - fst (nth j rs (0, 0))).
      { unfold box_shape. change 0 with ((fun r : Z * Z => snd r - fst r) (0, 0)) at 1. apply (map_nth (fun r => snd r - fst r)). }
      rewrite N1 in H1. rewrite N2 in K1.
      assert (Hr : fst (nth j rs (0, 0)) < snd (nth j rs (0, 0))).
      { rewrite Forall_forall in R. apply R. apply nth_In. exact Hjd. }
      cbn. rewrite E1.
      set (a := fst (nth j rs (0, 0))) in *. set (b := snd (nth j rs (0, 0))) in *.
      assert (M1 : norm n (a + c) = a + c) by (unfold norm; destruct (a + c <? 0) eqn:?; lia).
      assert (M2 : norm n (b + c) = b + c) by (unfold norm; destruct (b + c <? 0) eqn:?; lia).
      rewrite M1, M2. eexists. split; [reflexivity|]. cbn. fold (sel_shape l). rewrite E2. split.
      * rewrite (skipn_cons 0 (box_shape rs) j) by (unfold box_shape; rewrite map_length; exact Hjd). f_equal. rewrite N3. lia.
      * intros i Hi. assert (Li : length i = d) by (rewrite (inside_length _ _ Hi); unfold box_shape; now rewrite map_length).
        rewrite (skipn_cons 0 i j) by lia. cbn [hd tl]. rewrite (E3 i Hi). f_equal.
        rewrite cell_of_nth by (assumption || exact Hjd). fold a. lia.
Qed.

Lemma resolve_ok shape a : aligned rs a -> in_array rs shape a ->
  exists l, resolve rs shape (a_idx a) = Some l /\ sel_shape l = box_shape rs /\
    forall i, inside (box_shape rs) i -> sel_addr l i = addr (cell_of rs i) a.
Proof using R.
  intros HA HI. apply (resolve_from (a_idx a) shape 0%nat); [lia| |exact HI].
  rewrite Nat.sub_0_r. exact HA.
Qed.

(* ---- broadcasting between the numbers and the arrays of the shape of the loop *)
Lemma bidx_id s : forall i, inside s i -> bidx s i = i.
Proof.
  induction s as [|n s IH]; intros i H; inversion H as [|? k ? i' Hk Hi]; subst; [reflexivity|]. cbn. rewrite IH by exact Hi.
  f_equal. destruct (n =? 1) eqn:E; lia.
Qed.
Lemma inside_rev s i : inside s i -> inside (rev s) (rev i).
Proof. induction 1; cbn; [constructor|]. apply Forall2_app; [assumption|]. constructor; [assumption|constructor]. Qed.
Lemma bidx_rev s i : inside s i -> rev (bidx (rev s) (rev i)) = i.
Proof. intro H. rewrite bidx_id by now apply inside_rev. apply rev_involutive. Qed.
Lemma bzip_refl s : bzip s s = Some s.
Proof. induction s as [|n s IH]; [reflexivity|]. cbn. rewrite Z.eqb_refl, IH. reflexivity. Qed.
Lemma bzip_nil s : bzip s [] = Some s.
Proof. destruct s; reflexivity. Qed.
Lemma bshape_refl s : bshape s s = Some s.
Proof. unfold bshape. rewrite bzip_refl. cbn. now rewrite rev_involutive. Qed.
Lemma bshape_nil_r s : bshape s [] = Some s.
Proof. unfold bshape. cbn [rev]. rewrite bzip_nil. cbn. now rewrite rev_involutive. Qed.
Lemma bshape_nil_l s : bshape [] s = Some s.
Proof. unfold bshape. cbn. now rewrite rev_involutive. Qed.

Definition flat_or_box (s : list Z) : Prop := s = [] \/ s = box_shape rs.
Definition value_ok (A : arrays V) (v : nval V) (g : list Z -> V) : Prop :=
  flat_or_box (nshape V v) /\ forall i, inside (box_shape rs) i -> bget V A v i = g (cell_of rs i).
Definition fresh (v : nval V) : Prop := match v with NView _ _ => False | NVal _ _ => True end.

Lemma bget_flat A v i k : nshape V v = [] -> bget V A v i = bget V A v k.
Proof. intro E. unfold bget. rewrite E. reflexivity. Qed.
Lemma bshape_ok s t : flat_or_box s -> flat_or_box t -> exists r, bshape s t = Some r /\ flat_or_box r /\ (r = [] -> s = [] /\ t = []).
Proof.
  intros [->| ->] [->| ->].
  - exists []. repeat split. now left.
  - rewrite bshape_nil_l. eexists. split; [reflexivity|]. split; [now right|tauto].
  - rewrite bshape_nil_r. eexists. split; [reflexivity|]. split; [now right|tauto].
  - rewrite bshape_refl. eexists. split; [reflexivity|]. split; [now right|tauto].
Qed.

Variable sh : nat -> list Z.
Lemma neval_ok A (L : nlocals V) (C : list Z -> arrays V) (M : list Z -> nat -> V) e :
  (forall a, In a (gets e) -> aligned rs a /\ in_array rs (sh (a_name a)) a) ->
  (forall a x, In a (gets e) -> inbox rs x -> A (a_name a) (addr x a) = C x (a_name a) (addr x a)) ->
  (forall k, In k (locs e) -> exists v, L k = Some v /\ fresh v /\ value_ok A v (fun x => M x k)) ->
  exists v, neval V rs sh A L e = Some v /\ (match e with EGet _ => True | _ => fresh v end) /\
    value_ok A v (fun x => ceval V (C x) (M x) x e).
Proof using R.
  induction e as [v|k|a|o e IH|o e1 IH1 e2 IH2]; cbn [neval gets locs ceval]; intros HW HA HL.
  - eexists. split; [reflexivity|]. split; [exact I|]. split; [now left|reflexivity].
  - destruct (HL k (or_introl eq_refl)) as (v & E & F & O). exists v. tauto.
  - destruct (HW a (or_introl eq_refl)) as [W1 W2]. destruct (resolve_ok _ _ W1 W2) as (l & E1 & E2 & E3). rewrite E1.
    destruct (sel_shape l) as [|n s] eqn:Es.
    + eexists. split; [reflexivity|]. split; [exact I|]. split; [now left|]. intros i Hi. unfold bget. cbn.
      rewrite <- E2 in Hi. inversion Hi; subst. rewrite E3 by (rewrite <- E2; constructor). apply HA; [now left|]. apply cell_of_in. rewrite <- E2. constructor.
    + eexists. split; [reflexivity|]. split; [exact I|]. split; [right; cbn; congruence|]. intros i Hi. unfold bget. cbn [nget nshape].
      rewrite Es, E2, bidx_rev by exact Hi. rewrite E3 by exact Hi. apply HA; [now left|]. now apply cell_of_in.
  - destruct (IH HW HA HL) as (v & E & F & O1 & O2). rewrite E. eexists. split; [reflexivity|]. split; [exact I|]. split; [exact O1|].
    intros i Hi. unfold bget. cbn. f_equal. apply (O2 i Hi).
  - destruct IH1 as (v1 & E1 & F1 & O1 & P1); [intros; apply HW|intros; apply HA|intros; apply HL|]; try (try apply in_or_app; tauto).
    destruct IH2 as (v2 & E2 & F2 & O2 & P2); [intros; apply HW|intros; apply HA|intros; apply HL|]; try (try apply in_or_app; tauto).
    rewrite E1, E2. destruct (bshape_ok _ _ O1 O2) as (r & Er & Or & Hr). rewrite Er. eexists. split; [reflexivity|]. split; [exact I|].
    split; [exact Or|]. intros i Hi. rewrite <- (P1 i Hi), <- (P2 i Hi). unfold bget at 1. cbn [nget nshape].
    destruct Or as [->| ->].
    + destruct (Hr eq_refl) as [Z1 Z2]. f_equal; apply bget_flat; assumption.
    + rewrite bidx_rev by exact Hi. reflexivity.
Qed.
End Slice.

(* ------------------------------------------------------------------ the statements one after the other *)
Section Whole.
Variables (rs : ranges) (sh : nat -> list Z) (p : list (stmt V)).
Hypothesis W : printable rs sh p.

Lemma fresh_ok A B v g : fresh v -> value_ok rs A v g -> value_ok rs B v g.
Proof. destruct v as [n l|s f]; [intros []|]. intros _ [H1 H2]. split; [exact H1|]. intros i Hi. exact (H2 i Hi). Qed.

Lemma numpy_from suf : incl (uses suf) (uses p) -> incl (sets suf) (sets p) -> Forall computed suf ->
  forall D A (L : nlocals V) (C : list Z -> arrays V) (M : list Z -> nat -> V), assigned D suf ->
  (forall t x, In t (uses p) -> inbox rs x -> A (a_name t) (addr x t) = C x (a_name t) (addr x t)) ->
  (forall k, In k D -> exists v, L k = Some v /\ fresh v /\ value_ok rs A v (fun x => M x k)) ->
  exists A' L', fold_left (nexec V rs sh) suf (Some (A, L)) = Some (A', L') /\
    (forall t x, In t (uses p) -> inbox rs x -> A' (a_name t) (addr x t) = fst (ccell V suf (C x, M x) x) (a_name t) (addr x t)) /\
    (forall n q, (forall x w, inbox rs x -> In w (sets suf) -> ~ (n = a_name w /\ q = addr x w)) -> A' n q = A n q).
Proof using W.
  destruct W as [WR WI WA WD _ _].
  induction suf as [|s suf IH]; intros HU HS HC D A L C M HD I1 I2.
  { exists A, L. split; [reflexivity|]. split; [exact I1|reflexivity]. }
  assert (HU' : incl (uses suf) (uses p)) by (intros a Ha; apply HU; cbn; apply in_or_app; now right).
  assert (HS' : incl (sets suf) (sets p)) by (intros a Ha; apply HS; cbn; apply in_or_app; now right).
  inversion HC as [|? ? HC1 HC2]; subst.
  assert (HE : forall e, gets1 s = gets e -> incl (locs e) D -> exists v, neval V rs sh A L e = Some v /\
    (match e with EGet _ => True | _ => fresh v end) /\ value_ok rs A v (fun x => ceval V (C x) (M x) x e)).
  { intros e Ee Hi. assert (Hg : forall a, In a (gets e) -> In a (uses p)).
    { intros a Ha. apply HU. cbn. rewrite Ee. apply in_or_app. left. apply in_or_app. now right. }
    apply neval_ok; [exact WR|intros a Ha; split; [apply WA|apply WI]; apply Hg, Ha| |intros k Hk; apply I2, Hi, Hk].
    intros a x Ha Hx. apply I1; [apply Hg, Ha|exact Hx]. }
  destruct s as [w e|k e]; cbn in HD; destruct HD as [Hi HD]; destruct (HE e eq_refl Hi) as (v & Ev & Fv & Ov); cbn [fold_left].
  - assert (Hw : In w (uses p)) by (apply HU; cbn; now left).
    assert (Hws : In w (sets p)) by (apply HS; cbn; now left).
    destruct (resolve_ok rs WR _ _ (WA w Hw) (WI w Hw)) as (l & E1 & E2 & E3).
    assert (Hf : forall q i, sel_find l q = Some i <-> inside (box_shape rs) i /\ q = addr (cell_of rs i) w).
    { intros q i. rewrite sel_find_spec, E2. split; intros [H ->]; split; try assumption; [now apply E3|symmetry; now apply E3]. }
    assert (Es : nexec V rs sh (Some (A, L)) (SSet w e) =
      Some ((fun m q => if Nat.eqb m (a_name w) then match sel_find l q with Some i => bget V A v i | None => A m q end else A m q), L)).
    { cbn. rewrite E1, Ev, E2. assert (bshape (box_shape rs) (nshape V v) = Some (box_shape rs)) as ->.
      { destruct Ov as [[->| ->] _]; [apply bshape_nil_r|apply bshape_refl]. }
      assert (shape_eqb (box_shape rs) (box_shape rs) = true) as -> by (now apply list_eqb_spec). reflexivity. }
    rewrite Es. set (A1 := fun m q => _).
    destruct (IH HU' HS' HC2 D A1 L (fun x => store V (C x) (a_name w) (addr x w) (ceval V (C x) (M x) x e)) M HD) as (A' & L' & F1 & F2 & F3).
    + intros t x Ht Hx. unfold A1. destruct (Nat.eqb (a_name t) (a_name w)) eqn:En.
      * apply Nat.eqb_eq in En. destruct (sel_find l (addr x t)) as [i|] eqn:Ei.
        -- apply Hf in Ei as [Hin Ea]. pose proof (cell_of_in rs i Hin) as Hc.
           assert (cell_of rs i = x) by (apply (WD w t _ _ Hws Ht); auto). subst x.
           destruct Ov as [_ Ov]. rewrite (Ov i Hin), En, Ea, store_same. reflexivity.
        -- rewrite store_other; [now apply I1|]. intros [_ Ea]. destruct (cell_of_onto rs x Hx) as (i & Hin & Ec).
           rewrite <- Ec in Ea at 2. pose proof (proj2 (Hf (addr x t) i) (conj Hin Ea)). congruence.
      * apply Nat.eqb_neq in En. rewrite store_other by tauto. now apply I1.
    + intros k Hk. destruct (I2 k Hk) as (u & U1 & U2 & U3). exists u. split; [exact U1|]. split; [exact U2|]. now apply (fresh_ok A).
    + exists A', L'. split; [exact F1|]. split; [exact F2|].
      intros n q N. rewrite F3 by (intros x b Hx Hb; apply N; [exact Hx|now right]). unfold A1.
      destruct (Nat.eqb n (a_name w)) eqn:En; [|reflexivity]. apply Nat.eqb_eq in En. destruct (sel_find l q) as [i|] eqn:Ei; [|reflexivity].
      apply Hf in Ei as [Hin Ea]. exfalso. apply (N (cell_of rs i) w); [now apply cell_of_in|now left|tauto].
  - cbn [nexec]. rewrite Ev.
    assert (Fv' : fresh v) by (destruct e; cbn in HC1; tauto).
    destruct (IH HU' HS' HC2 (k :: D) A (updf L k (Some v)) C (fun x => updf (M x) k (ceval V (C x) (M x) x e)) HD I1) as (A' & L' & F1 & F2 & F3).
    + intros j Hj. destruct (Nat.eq_dec j k) as [->|Nj].
      * exists v. rewrite updf_same. split; [reflexivity|]. split; [exact Fv'|]. destruct Ov as [O1 O2]. split; [exact O1|].
        intros i Hin. rewrite updf_same. now apply O2.
      * destruct Hj as [->|Hj]; [congruence|]. destruct (I2 j Hj) as (u & U1 & U2 & U3). exists u. rewrite updf_other by exact Nj.
        split; [exact U1|]. split; [exact U2|]. destruct U3 as [O1 O2]. split; [exact O1|]. intros i Hin. rewrite updf_other by exact Nj. now apply O2.
    + exists A', L'. split; [exact F1|]. split; [exact F2|]. intros n q N. apply F3. intros x b Hx Hb. apply N; [exact Hx|exact Hb].
Qed.

Lemma numpy_alone A (L0 : nat -> V) : exists A' L', numpy V rs sh p A = Some (A', L') /\
  (forall t x, In t (uses p) -> inbox rs x -> A' (a_name t) (addr x t) = alone p A L0 x (a_name t) (addr x t)) /\
  (forall n q, (forall x w, inbox rs x -> In w (sets p) -> ~ (n = a_name w /\ q = addr x w)) -> A' n q = A n q).
Proof using W.
  unfold numpy. apply (numpy_from p (incl_refl _) (incl_refl _) (p_new _ _ _ W) [] A _ (fun _ => A) (fun _ => L0)); [apply (p_loc _ _ _ W)|reflexivity|intros k []].
Qed.

Lemma written_dec n q : {exists x w, inbox rs x /\ In w (sets p) /\ n = a_name w /\ q = addr x w} +
  {forall x w, inbox rs x -> In w (sets p) -> ~ (n = a_name w /\ q = addr x w)}.
Proof.
  destruct (existsb (fun x => existsb (fun w => same n (a_name w) q (addr x w)) (sets p)) (nest rs)) eqn:E.
  - left. apply existsb_exists in E as (x & Hx & E). apply existsb_exists in E as (w & Hw & E). apply same_spec in E.
    exists x, w. split; [now apply nest_in|tauto].
  - right. intros x w Hx Hw H. apply same_spec in H. assert (false = true); [|discriminate]. rewrite <- E.
    apply existsb_exists. exists x. split; [now apply nest_in|]. apply existsb_exists. exists w. tauto.
Qed.

(* in every order of the cells *)
Lemma numpy_is_loop cells A (L0 : nat -> V) : NoDup cells -> (forall x, In x cells <-> inbox rs x) ->
  exists A' L', numpy V rs sh p A = Some (A', L') /\ forall n q, A' n q = fst (cython V p cells (A, L0)) n q.
Proof using W.
  intros ND HC. destruct (numpy_alone A L0) as (A' & L' & E & N1 & N2). exists A', L'. split; [exact E|]. intros n q.
  destruct (loop_alone rs p A L0 (p_ind _ _ _ W) (p_loc _ _ _ W) cells ND (fun x Hx => proj1 (HC x) Hx) (A, L0)) as [C1 C2]; [reflexivity|].
  destruct (written_dec n q) as [(x & w & Hx & Hw & -> & ->)|N].
  - pose proof (sets_uses p w Hw) as Hu. rewrite (N1 w x Hu Hx). symmetry. apply C1; [now apply HC|exact Hu].
  - rewrite (N2 n q N). symmetry. apply C2. intros x Hx (w & Hw & E'). exact (N x w (proj1 (HC x) Hx) Hw E').
Qed.
End Whole.

(* ------------------------------------------------------------------ the Indexed of the algorithms *)
(* lower + v and upper + v are in the axis *)
Definition fits (rs : ranges) (sizes v : list Z) : Prop :=
  Forall2 (fun r nc => 0 <= fst r + snd nc /\ snd r + snd nc <= fst nc) rs (combine sizes v) /\ length sizes = length rs /\ length v = length rs.
Record regular (rs : ranges) (sizes : list Z) (pos : nat) (sh : nat -> list Z) p : Prop := {
  g_range : Forall (fun r => fst r < snd r) rs;
  g_use : forall a, In a (uses p) -> exists k v N, a = indexed_at pos (a_name a) k v /\ fits rs sizes v /\ sh (a_name a) = ins pos N sizes /\ Z.of_nat k < N;
  g_here : forall w a, In w (sets p) -> In a (uses p) -> a_name w = a_name a -> exists k, a = here pos (length rs) (a_name a) k;
  g_loc : assigned [] p;
  g_new : Forall computed p }.

Fixpoint shifted (x v : list Z) : list Z := match x, v with a :: x, b :: v => (a + b) :: shifted x v | _, _ => [] end.
Lemma idx_from_at v : forall j x, length x = length v -> forall y, length y = j -> map (ix_at (y ++ x)) (idx_from j v) = shifted x v.
Proof.
  induction v as [|b v IH]; intros j x Hx y Hy; destruct x as [|a x]; try discriminate; [reflexivity|].
  unfold idx_from. cbn. f_equal.
  - rewrite app_nth2 by lia. rewrite Hy, Nat.sub_diag. reflexivity.
  - specialize (IH (S j) x (eq_add_S _ _ Hx) (y ++ [a])). rewrite <- app_assoc in IH. apply IH. rewrite app_length. cbn. lia.
Qed.
Lemma addr_indexed pos n k v x : length x = length v -> addr x (indexed_at pos n k v) = ins pos (Z.of_nat k) (shifted x v).
Proof.
  intro H. unfold addr, indexed_at, ins. cbn [a_idx]. rewrite map_app. cbn [map ix_at].
  rewrite <- firstn_map, <- skipn_map. pose proof (idx_from_at v 0 x H [] eq_refl) as E. cbn [app] in E. rewrite E. reflexivity.
Qed.
Lemma idx_of_indexed pos n k v : idx_of (indexed_at pos n k v) = seq 0 (length v).
Proof.
  unfold idx_of, indexed_at, ins. cbn [a_idx]. rewrite flat_map_app. cbn. rewrite <- flat_map_app, firstn_skipn.
  unfold idx_from. generalize 0%nat. induction v as [|b v IH]; intro j; cbn; [reflexivity|]. f_equal. apply IH.
Qed.
Lemma shifted_zero x : shifted x (repeat 0 (length x)) = x.
Proof. induction x as [|a x IH]; cbn; [reflexivity|]. rewrite IH. f_equal. lia. Qed.
Lemma Forall2_firstn {X Y} (P : X -> Y -> Prop) l m : Forall2 P l m -> forall k, Forall2 P (firstn k l) (firstn k m).
Proof. induction 1; intros [|k]; cbn; constructor; auto. Qed.
Lemma Forall2_skipn {X Y} (P : X -> Y -> Prop) l m : Forall2 P l m -> forall k, Forall2 P (skipn k l) (skipn k m).
Proof. induction 1; intros [|k]; cbn; auto; constructor; auto. Qed.
Lemma Forall2_ins {X Y} (P : X -> Y -> Prop) pos a b l m : P a b -> Forall2 P l m -> Forall2 P (ins pos a l) (ins pos b m).
Proof. intros H1 H2. unfold ins. apply Forall2_app; [now apply Forall2_firstn|]. constructor; [exact H1|now apply Forall2_skipn]. Qed.
Lemma ins_inj {X} pos (a b : X) l m : length l = length m -> ins pos a l = ins pos b m -> l = m.
Proof.
  revert l m. induction pos as [|pos IH]; intros l m Hl E.
  - cbn in E. now injection E.
  - destruct l as [|c l], m as [|e m]; try discriminate; [reflexivity|]. cbn in Hl, E. injection E as -> E. f_equal. apply IH; [lia|exact E].
Qed.
Lemma inbox_length rs x : inbox rs x -> length x = length rs.
Proof. induction 1; cbn; congruence. Qed.
Lemma fits_in rs sizes v x : fits rs sizes v -> inbox rs x -> inside sizes (shifted x v).
Proof.
  intros (H & L1 & L2) Hx. revert sizes v H L1 L2. induction Hx as [|r i rs x Hi Hx IH]; intros [|n sizes] [|c v] H L1 L2; try discriminate; [constructor|].
  inversion H; subst. cbn in *. constructor; [lia|]. apply IH; [assumption|lia|lia].
Qed.

Lemma regular_printable rs sizes pos sh p : regular rs sizes pos sh p -> printable rs sh p.
Proof.
  intros [GR GU GH GL GN]. constructor; [exact GR| | | |exact GL|exact GN].
  - intros a Ha x Hx. destruct (GU a Ha) as (k & v & N & Ea & Hf & Es & Hk). rewrite Es, Ea.
    rewrite addr_indexed by (destruct Hf as (_ & _ & ->); now apply inbox_length). apply Forall2_ins; [lia|]. now apply (fits_in rs).
  - intros a Ha. destruct (GU a Ha) as (k & v & N & Ea & (_ & _ & Lv) & _). rewrite Ea. unfold aligned. now rewrite idx_of_indexed, Lv.
  - intros w t x y Hw Ht En Hx Hy E. destruct (GH w t Hw Ht En) as (k & Et). destruct (GH w w Hw (sets_uses p w Hw) eq_refl) as (j & Ew).
    rewrite Ew, Et in E. unfold here in E. pose proof (inbox_length rs x Hx) as Lx. pose proof (inbox_length rs y Hy) as Ly.
    rewrite !addr_indexed in E by (rewrite repeat_length; assumption).
    rewrite <- Lx in E at 1. rewrite <- Ly in E. rewrite !shifted_zero in E. eapply ins_inj; [|exact E]. congruence.
Qed.

(* ------------------------------------------------------------------ the moments as local symbols *)
Section Loc.
Variables (rs : ranges) (mn : nat) (code : access -> nat) (p : list (stmt V)).
Definition stmt_loc (s : stmt V) : list nat := match s with SLoc k e => k :: locs e | SSet _ e => locs e end.
(* each element of m has its own local variable *)
Definition own_symbols : Prop :=
  (forall a b x, In a (uses p) -> In b (uses p) -> a_name a = mn -> a_name b = mn -> inbox rs x -> (code a = code b <-> addr x a = addr x b)) /\
  (forall a k, In a (uses p) -> a_name a = mn -> In k (flat_map stmt_loc p) -> code a <> k).
Hypothesis Own : own_symbols.
Let lp := map (loc_stmt V mn code) p.

Lemma gets_loc e a : In a (gets (loc_expr V mn code e)) <-> In a (gets e) /\ a_name a <> mn.
Proof.
  induction e as [v|k|b|o e IH|o e1 IH1 e2 IH2]; cbn; [tauto|tauto| |exact IH|rewrite !in_app_iff, IH1, IH2; tauto].
  destruct (Nat.eqb (a_name b) mn) eqn:E; cbn.
  - apply Nat.eqb_eq in E. split; [tauto|intros [[<-|[]] H]; congruence].
  - apply Nat.eqb_neq in E. split; [intros [<-|[]]; tauto|tauto].
Qed.
Lemma sets_loc s a : In a (sets1 (loc_stmt V mn code s)) <-> In a (sets1 s) /\ a_name a <> mn.
Proof.
  destruct s as [b e|k e]; cbn; [|tauto]. destruct (Nat.eqb (a_name b) mn) eqn:E; cbn.
  - apply Nat.eqb_eq in E. split; [tauto|intros [[<-|[]] H]; congruence].
  - apply Nat.eqb_neq in E. split; [intros [<-|[]]; tauto|tauto].
Qed.
Lemma gets1_loc s a : In a (gets1 (loc_stmt V mn code s)) <-> In a (gets1 s) /\ a_name a <> mn.
Proof. destruct s as [b e|k e]; cbn; [destruct (Nat.eqb (a_name b) mn); cbn|]; apply gets_loc. Qed.
Lemma sets_map a : In a (sets lp) <-> In a (sets p) /\ a_name a <> mn.
Proof.
  unfold sets, lp. rewrite !in_flat_map. split.
  - intros (s & Hs & Ha). apply in_map_iff in Hs as (s' & <- & Hs). apply sets_loc in Ha. split; [exists s'|]; tauto.
  - intros ((s & Hs & Ha) & N). exists (loc_stmt V mn code s). split; [now apply in_map|]. now apply sets_loc.
Qed.
Lemma uses_map a : In a (uses lp) <-> In a (uses p) /\ a_name a <> mn.
Proof.
  unfold uses, lp. rewrite !in_flat_map. split.
  - intros (s & Hs & Ha). apply in_map_iff in Hs as (s' & <- & Hs). apply in_app_or in Ha.
    rewrite sets_loc, gets1_loc in Ha. split; [exists s'; rewrite in_app_iff|]; tauto.
  - intros ((s & Hs & Ha) & N). exists (loc_stmt V mn code s). split; [now apply in_map|]. rewrite in_app_iff in *. rewrite sets_loc, gets1_loc. tauto.
Qed.

Lemma ceval_loc A B L M x e D : inbox rs x ->
  (forall a, In a (gets e) -> a_name a <> mn -> A (a_name a) (addr x a) = B (a_name a) (addr x a)) ->
  (forall a, In a (gets e) -> a_name a = mn -> In (code a) D -> A mn (addr x a) = M (code a)) ->
  (forall k, In k (locs e) -> L k = M k) ->
  incl (locs (loc_expr V mn code e)) D ->
  ceval V A L x e = ceval V B M x (loc_expr V mn code e).
Proof.
  intro Hx. induction e as [v|k|a|o e IH|o e1 IH1 e2 IH2]; cbn; intros HA HM HL HD.
  - reflexivity.
  - apply HL. now left.
  - destruct (Nat.eqb (a_name a) mn) eqn:E; cbn.
    + apply Nat.eqb_eq in E. rewrite E. apply HM; [now left|exact E|]. apply HD. cbn. now left.
    + apply Nat.eqb_neq in E. apply HA; [now left|exact E].
  - f_equal. now apply IH.
  - f_equal; [apply IH1|apply IH2]; intros; (apply HA || apply HM || apply HL || idtac); try (apply in_or_app; tauto); try assumption;
    intros k Hk; apply HD, in_or_app; tauto.
Qed.

Lemma cell_loc x suf : inbox rs x -> incl (uses suf) (uses p) -> incl (flat_map stmt_loc suf) (flat_map stmt_loc p) ->
  forall D (st1 st2 : arrays V * (nat -> V)), assigned D (map (loc_stmt V mn code) suf) ->
  (forall a, In a (uses p) -> a_name a <> mn -> fst st1 (a_name a) (addr x a) = fst st2 (a_name a) (addr x a)) ->
  (forall a, In a (uses p) -> a_name a = mn -> In (code a) D -> fst st1 mn (addr x a) = snd st2 (code a)) ->
  (forall k, In k (flat_map stmt_loc p) -> In k D -> snd st1 k = snd st2 k) ->
  forall a, In a (uses p) -> a_name a <> mn ->
    fst (ccell V suf st1 x) (a_name a) (addr x a) = fst (ccell V (map (loc_stmt V mn code) suf) st2 x) (a_name a) (addr x a).
Proof using Own.
  destruct Own as [O1 O2]. intro Hx.
  induction suf as [|s suf IH]; intros HU HK D st1 st2 HD I1 I2 I3 a Ha Na; [now apply I1|].
  unfold ccell in *. cbn [map fold_left].
  assert (HU' : incl (uses suf) (uses p)) by (intros b Hb; apply HU; cbn; apply in_or_app; now right).
  assert (HK' : incl (flat_map stmt_loc suf) (flat_map stmt_loc p)) by (intros b Hb; apply HK; cbn; apply in_or_app; now right).
  assert (HE : forall e, gets1 s = gets e -> incl (locs e) (stmt_loc s) -> incl (locs (loc_expr V mn code e)) D ->
    ceval V (fst st1) (snd st1) x e = ceval V (fst st2) (snd st2) x (loc_expr V mn code e)).
  { intros e Ee Es Hi. assert (Hg : forall b, In b (gets e) -> In b (uses p)).
    { intros b Hb. apply HU. cbn. rewrite Ee. apply in_or_app. left. apply in_or_app. now right. }
    apply (ceval_loc _ _ _ _ _ _ D Hx); [intros b Hb; apply I1, Hg, Hb|intros b Hb; apply I2, Hg, Hb| |exact Hi].
    intros k Hk. apply I3; [apply HK; cbn; apply in_or_app; left; apply Es, Hk|].
    apply Hi. clear -Hk. induction e as [v|j|b|o e IHe|o e1 IH1 e2 IH2]; cbn in *; [tauto|tauto|tauto|now apply IHe|].
    apply in_app_or in Hk. apply in_or_app. tauto. }
  destruct s as [w e|k e]; cbn [loc_stmt map] in HD |- *.
  - assert (Hw : In w (uses p)) by (apply HU; cbn; now left).
    destruct (Nat.eqb (a_name w) mn) eqn:Ew; cbn in HD; destruct HD as [Hi HD]; pose proof (HE e eq_refl (incl_refl _) Hi) as Ee.
    + apply Nat.eqb_eq in Ew. apply (IH HU' HK' (code w :: D)); [exact HD| | | |exact Ha|exact Na]; cbn [cexec fst snd].
      * intros b Hb Nb. rewrite store_other by (rewrite Ew; tauto). now apply I1.
      * intros b Hb Nb Hc. destruct (Nat.eq_dec (code b) (code w)) as [Ec|Nc].
        -- rewrite Ec, updf_same. assert (addr x b = addr x w) as -> by (apply (O1 b w x Hb Hw Nb Ew Hx), Ec). rewrite Ee, Ew, store_same. reflexivity.
        -- rewrite updf_other by exact Nc. rewrite store_other; [|intros [_ E]; apply Nc, (O1 b w x Hb Hw Nb Ew Hx), E].
           destruct Hc as [Hc|Hc]; [congruence|]. now apply I2.
      * intros k Hk Hd. assert (code w <> k) by (apply (O2 w k Hw Ew Hk)). rewrite updf_other by congruence. apply I3; [exact Hk|].
        destruct Hd; [congruence|assumption].
    + apply Nat.eqb_neq in Ew. apply (IH HU' HK' D); [exact HD| | |exact I3|exact Ha|exact Na]; cbn [cexec fst snd].
      * intros b Hb Nb. rewrite <- Ee.
        destruct (store_cases (fst st1) (a_name w) (addr x w) (ceval V (fst st1) (snd st1) x e) (a_name b) (addr x b)) as [(E1 & E2 & ->)|[N ->]].
        -- rewrite E1, E2, store_same. reflexivity.
        -- rewrite store_other by exact N. now apply I1.
      * intros b Hb Nb Hc. rewrite store_other by (intros [E _]; congruence). now apply I2.
  - cbn in HD. destruct HD as [Hi HD].
    assert (Hk : In k (flat_map stmt_loc p)) by (apply HK; cbn; now left).
    pose proof (HE e eq_refl (fun j Hj => or_intror Hj) Hi) as Ee.
    apply (IH HU' HK' (k :: D)); [exact HD|exact I1| | |exact Ha|exact Na]; cbn [cexec fst snd].
    + intros b Hb Nb Hc. assert (code b <> k) by (apply (O2 b k Hb Nb Hk)). rewrite updf_other by assumption. apply I2; [exact Hb|exact Nb|].
      destruct Hc; [congruence|assumption].
    + intros j Hj Hd. rewrite Ee. destruct (Nat.eq_dec j k) as [->|Nj]; [now rewrite !updf_same|]. rewrite !updf_other by exact Nj.
      apply I3; [exact Hj|]. destruct Hd; [congruence|assumption].
Qed.
End Loc.

Lemma numpy_is_local rs sh p mn code cells A (L0 M0 : nat -> V) : printable rs sh p -> own_symbols rs mn code p ->
  assigned [] (map (loc_stmt V mn code) p) -> NoDup cells -> (forall x, In x cells <-> inbox rs x) ->
  exists A' L', numpy V rs sh p A = Some (A', L') /\
    forall n q, n <> mn -> A' n q = fst (cython V (map (loc_stmt V mn code) p) cells (A, M0)) n q.
Proof.
  intros W Own HD ND HC. destruct (numpy_alone rs sh p W A L0) as (A' & L' & E & N1 & N2). exists A', L'. split; [exact E|].
  intros n q Nn. set (lp := map (loc_stmt V mn code) p) in *.
  assert (Ind : independent rs lp).
  { intros w t x y Hw Ht. apply (sets_map mn code) in Hw as [Hw _]. apply (uses_map mn code) in Ht as [Ht _]. exact (p_ind _ _ _ W w t x y Hw Ht). }
  destruct (loop_alone rs lp A M0 Ind HD cells ND (fun x Hx => proj1 (HC x) Hx) (A, M0)) as [C1 C2]; [reflexivity|].
  destruct (written_dec rs p n q) as [(x & w & Hx & Hw & -> & ->)|N].
  - pose proof (sets_uses p w Hw) as Hu. rewrite (N1 w x Hu Hx). symmetry. rewrite C1; [|now apply HC|apply uses_map; tauto].
    symmetry. unfold alone. apply (cell_loc rs mn code p Own x p Hx (incl_refl _) (incl_refl _) []); [exact HD|reflexivity|intros a _ _ []|intros k _ []|exact Hu|exact Nn].
  - rewrite (N2 n q N). symmetry. apply C2. intros x Hx (w & Hw & E'). apply (sets_map mn code) in Hw as [Hw _]. exact (N x w (proj1 (HC x) Hx) Hw E').
Qed.

(* ------------------------------------------------------------------ a loop for each statement *)
Section Split.
Variables (rs : ranges) (sh : nat -> list Z) (p : list (stmt V)) (cells : list (list Z)).
Hypothesis W : printable rs sh p.
Hypothesis ND : NoDup cells.
Hypothesis HC : forall x, In x cells <-> inbox rs x.
Definition no_symbol (s : stmt V) : Prop := match s with SLoc _ _ => False | SSet _ _ => True end.

Lemma split_from suf : incl (uses suf) (uses p) -> incl (sets suf) (sets p) -> Forall no_symbol suf -> assigned [] suf ->
  forall (st : arrays V * (nat -> V)) (C : list Z -> arrays V) (M : nat -> V),
  (forall t x, In t (uses p) -> inbox rs x -> fst st (a_name t) (addr x t) = C x (a_name t) (addr x t)) ->
  let B := fst (cython_split V suf cells st) in
    (forall t x, In t (uses p) -> inbox rs x -> B (a_name t) (addr x t) = fst (ccell V suf (C x, M) x) (a_name t) (addr x t)) /\
    (forall n q, (forall x w, inbox rs x -> In w (sets suf) -> ~ (n = a_name w /\ q = addr x w)) -> B n q = fst st n q).
Proof using W ND HC.
  induction suf as [|s suf IH]; intros HU HS HN HD st C M I1; cbn zeta; [split; [exact I1|reflexivity]|].
  assert (HU' : incl (uses suf) (uses p)) by (intros a Ha; apply HU; cbn; apply in_or_app; now right).
  assert (HS' : incl (sets suf) (sets p)) by (intros a Ha; apply HS; cbn; apply in_or_app; now right).
  inversion HN as [|? ? HN1 HN2]; subst. destruct s as [w e|k e]; [|destruct HN1]. destruct HD as [Hi HD].
  assert (Hu1 : incl (uses [SSet w e]) (uses p)) by (intros a Ha; apply HU; cbn in *; rewrite app_nil_r in Ha; rewrite in_app_iff; tauto).
  assert (Hw : In w (sets p)) by (apply HS; cbn; now left).
  assert (Ind : independent rs [SSet w e]).
  { intros a t x y Ha Ht. apply (p_ind _ _ _ W); [apply HS; destruct Ha as [<-|[]]; now left|apply Hu1, Ht]. }
  destruct (loop_alone rs [SSet w e] (fst st) (snd st) Ind (conj Hi I) cells ND (fun x Hx => proj1 (HC x) Hx) st) as [C1 C2]; [reflexivity|].
  cbn [cython_split fold_left]. set (st1 := cython V [SSet w e] cells st) in *.
  destruct (IH HU' HS' HN2 HD st1 (fun x => store V (C x) (a_name w) (addr x w) (ceval V (C x) M x e)) M) as [F1 F2].
  { intros t x Ht Hx. destruct (same (a_name t) (a_name w) (addr x t) (addr x w)) eqn:E.
    - apply same_spec in E as [-> ->]. rewrite store_same. rewrite (C1 x w (proj2 (HC x) Hx) (or_introl eq_refl)).
      unfold alone, ccell. cbn [fold_left cexec fst snd]. rewrite store_same. apply ceval_ext; [|intros k Hk; destruct (Hi k Hk)].
      intros a Ha. apply I1; [apply Hu1; cbn; rewrite app_nil_r; now right|exact Hx].
    - rewrite store_other by (intro K; apply same_spec in K; congruence). rewrite C2; [now apply I1|].
      intros y Hy (b & Hb & E1 & E2). destruct Hb as [<-|[]].
      assert (y = x) by (apply (p_ind _ _ _ W w t); auto; now apply HC). subst y.
      assert (same (a_name t) (a_name w) (addr x t) (addr x w) = true) by (now apply same_spec). congruence. }
  split; [exact F1|].
  intros n q N. unfold cython_split in F2. rewrite F2; [|intros x b Hx Hb; apply N; [exact Hx|now right]]. apply C2. intros x Hx (b & Hb & E).
  destruct Hb as [<-|[]]. apply (N x w); [now apply HC|now left|exact E].
Qed.

Lemma split_ok A (L0 : nat -> V) : Forall no_symbol p -> forall n q,
  fst (cython_split V p cells (A, L0)) n q = fst (cython V p cells (A, L0)) n q.
Proof using W ND HC.
  intros HN n q.
  destruct (split_from p (incl_refl _) (incl_refl _) HN (p_loc _ _ _ W) (A, L0) (fun _ => A) L0) as [S1 S2]; [reflexivity|].
  destruct (loop_alone rs p A L0 (p_ind _ _ _ W) (p_loc _ _ _ W) cells ND (fun x Hx => proj1 (HC x) Hx) (A, L0)) as [C1 C2]; [reflexivity|].
  destruct (written_dec rs p n q) as [(x & w & Hx & Hw & -> & ->)|N].
  - pose proof (sets_uses p w Hw) as Hu. rewrite (S1 w x Hu Hx). symmetry. apply C1; [now apply HC|exact Hu].
  - rewrite (S2 n q N). symmetry. apply C2. intros x Hx (w & Hw & E'). exact (N x w (proj1 (HC x) Hx) Hw E').
Qed.
End Split.
End GenP.
