(* Ghost exchange: storage.py, Array.update. *)
From Verif Require Import PyBase VelocityModel GridModel GridProofs StorageModel StencilProofs.
From Coq Require Import ZifyBool.
Open Scope Z_scope.
Ltac Zify.zify_post_hook ::= Z.div_mod_to_equations.

(* An axis on which the exchange is meaningful: at least one process, and every
   process owns at least as many cells as the ghost layer is wide. *)
Definition ax_ok (a : axis) : Prop :=
  0 <= ax_n a /\ (1 <= ax_p a)%nat /\ 0 <= ax_h a /\
  forall c, (c < ax_p a)%nat -> ax_h a <= ax_hi a c - ax_lo a c.

(* Global index of the local index x of the process of coordinate c. *)
Definition glob (a : axis) (c : nat) (x : Z) : Z := ax_lo a c - ax_h a + x.
Definition ax_inner (a : axis) (c : nat) (x : Z) : Prop := ax_h a <= x < ax_size a c - ax_h a.
Definition ax_stored (a : axis) (c : nat) (x : Z) : Prop := 0 <= x < ax_size a c.

Lemma ax_lo_eq a c : ax_ok a -> (c < ax_p a)%nat -> ax_lo a c = bound (ax_n a) (Z.of_nat (ax_p a)) (Z.of_nat c).
Proof. intros (_ & Hp & _) Hc. unfold ax_lo. now rewrite region1_eq by lia. Qed.
Lemma ax_hi_eq a c : ax_ok a -> (c < ax_p a)%nat -> ax_hi a c = bound (ax_n a) (Z.of_nat (ax_p a)) (Z.of_nat c + 1).
Proof. intros (_ & Hp & _) Hc. unfold ax_hi. now rewrite region1_eq by lia. Qed.

Definition src1 (a : axis) (c : nat) (x : Z) : nat * Z :=
  if x <? ax_h a then (nbr_low a c, ax_size a (nbr_low a c) - 2 * ax_h a + x)
  else if ax_size a c - ax_h a <=? x then (nbr_high a c, ax_h a + (x - (ax_size a c - ax_h a)))
  else (c, x).

Lemma nbr_low_cases a c : (c < ax_p a)%nat ->
  (c = 0%nat /\ nbr_low a c = (ax_p a - 1)%nat) \/ ((1 <= c)%nat /\ nbr_low a c = (c - 1)%nat).
Proof.
  intros Hc. unfold nbr_low. destruct c as [|c].
  - left. split; [reflexivity|].
    replace ((Z.of_nat 0 - 1) mod Z.of_nat (ax_p a)) with (Z.of_nat (ax_p a) - 1); [lia|].
    apply (Z.mod_unique _ _ (-1)); lia.
  - right. split; [lia|]. rewrite Z.mod_small by lia. lia.
Qed.
Lemma nbr_high_cases a c : (c < ax_p a)%nat ->
  (S c = ax_p a /\ nbr_high a c = 0%nat) \/ ((S c < ax_p a)%nat /\ nbr_high a c = S c).
Proof.
  intros Hc. unfold nbr_high. destruct (Nat.eq_dec (S c) (ax_p a)) as [E|E].
  - left. split; [exact E|]. replace (Z.of_nat c + 1) with (Z.of_nat (ax_p a)) by lia.
    rewrite Z.mod_same by lia. reflexivity.
  - right. split; [lia|]. rewrite Z.mod_small by lia. lia.
Qed.

Lemma nbr_low_high a c : (c < ax_p a)%nat -> nbr_high a (nbr_low a c) = c /\ (nbr_low a c < ax_p a)%nat.
Proof.
  intros Hc. destruct (nbr_low_cases a c Hc) as [[-> ->]|[H ->]].
  - destruct (nbr_high_cases a (ax_p a - 1)) as [[H1 H2]|[H1 H2]]; lia.
  - destruct (nbr_high_cases a (c - 1)) as [[H1 H2]|[H1 H2]]; lia.
Qed.
Lemma nbr_high_low a c : (c < ax_p a)%nat -> nbr_low a (nbr_high a c) = c /\ (nbr_high a c < ax_p a)%nat.
Proof.
  intros Hc. destruct (nbr_high_cases a c Hc) as [[H ->]|[H ->]].
  - destruct (nbr_low_cases a 0) as [[H1 H2]|[H1 H2]]; lia.
  - destruct (nbr_low_cases a (S c)) as [[H1 H2]|[H1 H2]]; lia.
Qed.

Lemma src1_spec a c x : ax_ok a -> (c < ax_p a)%nat -> ax_stored a c x ->
  (fst (src1 a c x) < ax_p a)%nat /\ ax_inner a (fst (src1 a c x)) (snd (src1 a c x)) /\
  glob a (fst (src1 a c x)) (snd (src1 a c x)) mod ax_n a = glob a c x mod ax_n a.
Proof.
  intros Ha Hc Hx. pose proof Ha as (Hn & Hp & Hh & Hr). pose proof (Hr c Hc) as Hrc.
  unfold src1. destruct (x <? ax_h a) eqn:E1; [|destruct (ax_size a c - ax_h a <=? x) eqn:E2]; cbn [fst snd].
  - destruct (nbr_low_high a c Hc) as [_ HL]. split; [exact HL|]. pose proof (Hr _ HL) as Hrl.
    split; [unfold ax_inner, ax_stored, ax_size in *; lia|].
    unfold glob, ax_size. rewrite !ax_lo_eq, !ax_hi_eq by assumption.
    destruct (nbr_low_cases a c Hc) as [[-> ->]|[H ->]].
    + replace (Z.of_nat (ax_p a - 1) + 1) with (Z.of_nat (ax_p a)) by lia.
      rewrite bound_p by lia. change (Z.of_nat 0) with 0. rewrite bound_0 by lia.
      rewrite <- (Z_mod_plus_full (0 - ax_h a + x) 1 (ax_n a)). f_equal. ring.
    + f_equal. replace (Z.of_nat (c - 1) + 1) with (Z.of_nat c) by lia. ring.
  - destruct (nbr_high_low a c Hc) as [_ HL]. split; [exact HL|]. pose proof (Hr _ HL) as Hrl.
    split; [unfold ax_inner, ax_stored, ax_size in *; lia|].
    unfold glob, ax_size. rewrite !ax_lo_eq, !ax_hi_eq by assumption.
    destruct (nbr_high_cases a c Hc) as [[H ->]|[H ->]].
    + replace (Z.of_nat c + 1) with (Z.of_nat (ax_p a)) by lia.
      rewrite bound_p by lia. change (Z.of_nat 0) with 0. rewrite bound_0 by lia.
      set (b := bound _ _ _).
      rewrite <- (Z_mod_plus_full (0 - ax_h a + _) 1 (ax_n a)). f_equal. ring.
    + f_equal. replace (Z.of_nat (S c)) with (Z.of_nat c + 1) by lia. ring.
  - split; [exact Hc|]. split; [|reflexivity]. unfold ax_inner, ax_stored in *. lia.
Qed.

(* the cell that owns a global index is unique *)
Lemma inner_unique a c c' x x' : ax_ok a -> (c < ax_p a)%nat -> (c' < ax_p a)%nat ->
  ax_inner a c x -> ax_inner a c' x' -> glob a c x mod ax_n a = glob a c' x' mod ax_n a -> c = c' /\ x = x'.
Proof.
  intros Ha Hc Hc' Hx Hx' HE. pose proof Ha as (Hn & Hp & Hh & Hr).
  unfold ax_inner, ax_size in Hx, Hx'. unfold glob in HE.
  rewrite ax_lo_eq, ax_hi_eq in Hx by assumption.
  rewrite ax_lo_eq, ax_hi_eq in Hx' by assumption. rewrite !ax_lo_eq in HE by assumption.
  set (p := Z.of_nat (ax_p a)) in *.
  assert (HG : forall c, (c < ax_p a)%nat -> 0 <= bound (ax_n a) p (Z.of_nat c) /\ bound (ax_n a) p (Z.of_nat c + 1) <= ax_n a).
  { intros k Hk. split.
    - rewrite <- (bound_0 (ax_n a) p) by lia. apply bound_mono; lia.
    - rewrite <- (bound_p (ax_n a) p) at 2 by lia. apply bound_mono; lia. }
  pose proof (HG c Hc). pose proof (HG c' Hc').
  rewrite !Z.mod_small in HE by lia.
  assert (Z.of_nat c = Z.of_nat c').
  { apply (owner_unique (ax_n a) p (bound (ax_n a) p (Z.of_nat c) - ax_h a + x)); lia. }
  assert (c = c') by lia. subst c'. split; [reflexivity|lia].
Qed.

Lemma inner_exists a g : ax_ok a -> 0 <= g < ax_n a ->
  exists c x, (c < ax_p a)%nat /\ ax_inner a c x /\ glob a c x = g.
Proof.
  intros Ha Hg. pose proof Ha as (Hn & Hp & Hh & Hr).
  destruct (owner_exists (ax_n a) (Z.of_nat (ax_p a)) g) as (c & Hc & HB); [lia|lia|].
  exists (Z.to_nat c), (g - bound (ax_n a) (Z.of_nat (ax_p a)) c + ax_h a).
  assert (HC : (Z.to_nat c < ax_p a)%nat) by lia. split; [exact HC|].
  unfold ax_inner, glob, ax_size. rewrite ax_lo_eq, ax_hi_eq by assumption.
  rewrite !Z2Nat.id by lia. lia.
Qed.

(* ---- messages ---- *)
(* every receive has exactly one send that matches it, of the same width *)
Definition matching (d : nat) (a : axis) (c : nat) (r : msg) (s : msg) : Prop :=
  In s (sends d a (m_peer r)) /\ m_peer s = c /\ m_tag s = m_tag r.

Lemma tags d : (d < 3)%nat ->
  send_tag (2 * d) = recv_tag (2 * d + 1) /\ send_tag (2 * d + 1) = recv_tag (2 * d) /\ send_tag (2 * d) <> send_tag (2 * d + 1).
Proof. intros H. destruct d as [|[|[|d]]]; try lia; (split; [reflexivity|split; [reflexivity|discriminate]]). Qed.

Lemma recv_matched d a c r : (d < 3)%nat -> ax_ok a -> (c < ax_p a)%nat -> In r (recvs d a c) ->
  (m_peer r < ax_p a)%nat /\
  exists s, matching d a c r s /\ (forall s', matching d a c r s' -> s' = s) /\
    (forall x, ax_stored a c x -> m_start r <= x < m_start r + ax_h a ->
       src1 a c x = (m_peer r, m_start s + (x - m_start r))).
Proof.
  intros Hd Ha Hc Hr. pose proof Ha as (Hn & Hp & Hh & HR). pose proof (tags d Hd) as (T1 & T2 & T3).
  destruct (nbr_low_high a c Hc) as [HL1 HL2]. destruct (nbr_high_low a c Hc) as [HH1 HH2].
  destruct Hr as [<-|[<-|[]]]; cbn [m_peer m_tag m_start].
  - split; [exact HL2|]. exists (mkMsg c (send_tag (2 * d + 1)) (ax_size a (nbr_low a c) - 2 * ax_h a)).
    split; [|split].
    + split; [|split; [reflexivity|exact T2]]. right. left. cbn [m_peer]. now rewrite HL1.
    + intros s' ([<-|[<-|[]]] & E1 & E2); cbn in *; [congruence|]. now rewrite HL1.
    + intros x Hx Hr. cbn [m_start m_peer] in *. unfold src1. replace (x <? ax_h a) with true by lia. f_equal. lia.
  - split; [exact HH2|]. exists (mkMsg c (send_tag (2 * d)) (ax_h a)).
    split; [|split].
    + split; [|split; [reflexivity|exact T1]]. left. cbn [m_peer]. now rewrite HH1.
    + intros s' ([<-|[<-|[]]] & E1 & E2); cbn in *; [|congruence]. now rewrite HH1.
    + intros x Hx Hr. cbn [m_start m_peer] in *. unfold src1. pose proof (HR c Hc). unfold ax_size in *.
      replace (x <? ax_h a) with false by lia. replace (_ <=? x) with true by lia. reflexivity.
Qed.

Lemma find_unique {A} (f : A -> bool) l x : In x l -> f x = true -> (forall y, In y l -> f y = true -> y = x) -> find f l = Some x.
Proof.
  intros Hx Hf HU. destruct (find f l) as [y|] eqn:E.
  - apply find_some in E as [E1 E2]. f_equal. now apply HU.
  - exfalso. pose proof (find_none _ _ E x Hx). congruence.
Qed.

Lemma Forall2_nth {A B} (R : A -> B -> Prop) l m a b : Forall2 R l m ->
  forall d, (d < length l)%nat -> R (nth d l a) (nth d m b).
Proof. induction 1 as [|x y l m H H' IH]; intros [|d] Hd; cbn in *; try lia; auto. apply IH. lia. Qed.
Lemma Forall2_of_nth {A B} (R : A -> B -> Prop) l m a b : length l = length m ->
  (forall d, (d < length l)%nat -> R (nth d l a) (nth d m b)) -> Forall2 R l m.
Proof.
  revert m. induction l as [|x l IH]; intros [|y m] HL H; cbn in *; try lia; constructor.
  - apply (H 0%nat). lia.
  - apply IH; [lia|]. intros d Hd. apply (H (S d)). lia.
Qed.
Lemma nth_upd {A} (l : list A) d x k z : (d < length l)%nat -> nth k (upd l d x) z = if (k =? d)%nat then x else nth k l z.
Proof.
  revert d k. induction l as [|y l IH]; intros d k H; cbn in H; [lia|].
  destruct d as [|d], k as [|k]; cbn; auto. apply IH. lia.
Qed.

Section Update.
Context {V : Type}.
Variable axes : list axis.
Hypothesis Hdim : (length axes <= 3)%nat.
Hypothesis Hok : Forall ax_ok axes.

Definition coords_ok (c : list nat) : Prop := Forall2 (fun a k => (k < ax_p a)%nat) axes c.

Definition stored (c : list nat) (i : list Z) : Prop :=
  length i = length axes /\ forall d, (d < length axes)%nat -> ax_stored (nth d axes dax) (nth d c 0%nat) (nth d i 0).
Definition inner (c : list nat) (i : list Z) : Prop :=
  length i = length axes /\ forall d, (d < length axes)%nat -> ax_inner (nth d axes dax) (nth d c 0%nat) (nth d i 0).
(* the two local cells are images of the same cell of the periodic domain *)
Definition same_cell (c : list nat) (i : list Z) (c' : list nat) (i' : list Z) : Prop :=
  forall d, (d < length axes)%nat -> let a := nth d axes dax in
    glob a (nth d c 0%nat) (nth d i 0) mod ax_n a = glob a (nth d c' 0%nat) (nth d i' 0) mod ax_n a.

Lemma Hokd d : (d < length axes)%nat -> ax_ok (nth d axes dax).
Proof. intros H. apply (proj1 (Forall_forall _ _) Hok). now apply nth_In. Qed.


Lemma coords_ok_iff c : coords_ok c <-> length c = length axes /\ forall d, (d < length axes)%nat -> (nth d c 0 < ax_p (nth d axes dax))%nat.
Proof using.
  split.
  - intros H. split; [symmetry; now apply (Forall2_length _ _ _ H)|]. intros d Hd. now apply (Forall2_nth _ _ _ dax 0%nat H).
  - intros [H1 H2]. apply (Forall2_of_nth _ _ _ dax 0%nat); auto.
Qed.


Lemma exchange_eq {W} d (A : pstate (V:=W)) c i : (d < length axes)%nat -> coords_ok c ->
  length i = length axes -> ax_stored (nth d axes dax) (nth d c 0%nat) (nth d i 0) ->
  exchange axes d A c i =
    A (upd c d (fst (src1 (nth d axes dax) (nth d c 0%nat) (nth d i 0))))
      (upd i d (snd (src1 (nth d axes dax) (nth d c 0%nat) (nth d i 0)))).
Proof.
  intros Hd Hc Hi Hx. apply coords_ok_iff in Hc as [Hcl Hc]. specialize (Hc d Hd).
  pose proof (Hokd d Hd) as Ha. unfold exchange. cbn zeta.
  set (a := nth d axes dax) in *. set (cd := nth d c 0%nat) in *. set (x := nth d i 0) in *.
  destruct (recv_of d a cd x) as [r|] eqn:Er.
  - apply find_some in Er as [Hr HE].
    destruct (recv_matched d a cd r ltac:(lia) Ha Hc Hr) as (_ & s & HM & HU & HS).
    assert (match_send d a cd (m_peer r) (m_tag r) = Some s) as ->.
    { destruct HM as (M1 & M2 & M3). apply find_unique; [exact M1|lia|].
      intros s' Hs' Hf. apply HU. split; [exact Hs'|]. lia. }
    rewrite (HS x Hx ltac:(lia)). reflexivity.
  - assert (src1 a cd x = (cd, x)) as ->.
    { pose proof (find_none _ _ Er) as HN. unfold src1.
      destruct (x <? ax_h a) eqn:E1.
      - exfalso. specialize (HN _ (or_introl eq_refl)). unfold ax_stored in Hx. cbn in HN. lia.
      - destruct (ax_size a cd - ax_h a <=? x) eqn:E2; [|reflexivity].
        exfalso. specialize (HN _ (or_intror (or_introl eq_refl))). unfold ax_stored in Hx. cbn in HN. lia. }
    cbn [fst snd].
    assert (HU : forall {T} (l : list T) d z, (d < length l)%nat -> upd l d (nth d l z) = l).
    { intros T. induction l as [|y l IH]; intros [|k] z Hk; cbn in *; try lia; auto. f_equal. apply IH. lia. }
    unfold cd, x. now rewrite !HU by lia.
Qed.

Lemma update_k {W} k (A : pstate (V:=W)) : (k <= length axes)%nat -> forall c i, coords_ok c -> stored c i ->
  exists c' i', fold_left (fun A d => exchange axes d A) (seq 0 k) A c i = A c' i' /\
    coords_ok c' /\ length i' = length axes /\ forall d, (d < length axes)%nat ->
      (nth d c' 0%nat, nth d i' 0) = if (d <? k)%nat then src1 (nth d axes dax) (nth d c 0%nat) (nth d i 0)
                                   else (nth d c 0%nat, nth d i 0).
Proof.
  induction k as [|k IH]; intros Hk c i Hc Hi.
  - exists c, i. split; [reflexivity|]. split; [exact Hc|]. split; [apply Hi|]. reflexivity.
  - rewrite seq_S, fold_left_app. cbn [fold_left].
    destruct Hi as [Hil His]. rewrite exchange_eq by (auto; try lia; apply His; lia). cbn [plus].
    pose proof (proj1 (coords_ok_iff c) Hc) as [Hcl Hcd].
    pose proof (src1_spec _ _ _ (Hokd k ltac:(lia)) (Hcd k ltac:(lia)) (His k ltac:(lia))) as (S1 & S2 & _).
    set (o := src1 (nth k axes dax) (nth k c 0%nat) (nth k i 0)) in *.
    destruct (IH ltac:(lia) (upd c k (fst o)) (upd i k (snd o))) as (c' & i' & HE & HC & HL & HN).
    + apply coords_ok_iff. split; [now rewrite upd_length|]. intros d Hd. rewrite nth_upd by lia.
      destruct (d =? k)%nat eqn:E; [|now apply Hcd]. replace d with k by lia. exact S1.
    + split; [now rewrite upd_length|]. intros d Hd. rewrite !nth_upd by lia.
      destruct (d =? k)%nat eqn:E; [|now apply His]. replace d with k by lia.
      unfold ax_inner, ax_stored in *. destruct (Hokd k ltac:(lia)) as (_ & _ & ? & _). lia.
    + exists c', i'. split; [exact HE|]. split; [exact HC|]. split; [exact HL|].
      intros d Hd. rewrite (HN d Hd). rewrite !nth_upd by lia.
      destruct (d <? k)%nat eqn:E1, (d <? S k)%nat eqn:E2, (d =? k)%nat eqn:E3; try lia; try reflexivity.
      replace d with k by lia. fold o. now destruct o.
Qed.

Lemma nth_ext_len {A} (l m : list A) z : length l = length m -> (forall d, (d < length l)%nat -> nth d l z = nth d m z) -> l = m.
Proof. intros HL H. apply (nth_ext l m z z HL H). Qed.

Lemma update_spec (A : pstate (V:=V)) c i c' i' : coords_ok c -> stored c i -> coords_ok c' -> inner c' i' ->
  same_cell c i c' i' -> update axes A c i = A c' i'.
Proof.
  intros Hc Hi Hc' Hi' HS. unfold update.
  destruct (update_k (length axes) A (le_n _) c i Hc Hi) as (c2 & i2 & -> & H2 & HL2 & HN).
  apply coords_ok_iff in H2 as [H2l H2d]. apply coords_ok_iff in Hc' as [Hcl' Hcd']. apply coords_ok_iff in Hc as [Hcl Hcd].
  assert (HE : forall d, (d < length axes)%nat -> nth d c2 0%nat = nth d c' 0%nat /\ nth d i2 0 = nth d i' 0).
  { intros d Hd. specialize (HN d Hd). replace (d <? length axes)%nat with true in HN by lia.
    pose proof (src1_spec _ _ _ (Hokd d Hd) (Hcd d Hd) (proj2 Hi d Hd)) as (S1 & S2 & S3).
    rewrite <- HN in S1, S2, S3. cbn [fst snd] in *.
    apply (inner_unique (nth d axes dax)); auto.
    - apply (Hokd d Hd).
    - apply (proj2 Hi' d Hd).
    - rewrite S3. apply (HS d Hd). }
  f_equal.
  - apply (nth_ext_len _ _ 0%nat); [lia|]. intros d Hd. apply HE. lia.
  - apply (nth_ext_len _ _ 0); [destruct Hi'; lia|]. intros d Hd. apply HE. lia.
Qed.

Lemma owner_of_cell c i : coords_ok c -> stored c i ->
  exists c' i', coords_ok c' /\ inner c' i' /\ same_cell c i c' i'.
Proof.
  intros Hc Hi. destruct (update_k (length axes) (fun _ _ => tt) (le_n _) c i Hc Hi) as (c2 & i2 & _ & H2 & HL2 & HN).
  exists c2, i2. split; [exact H2|]. apply coords_ok_iff in Hc as [Hcl Hcd].
  assert (HS : forall d, (d < length axes)%nat -> let a := nth d axes dax in
     ax_inner a (nth d c2 0%nat) (nth d i2 0) /\ glob a (nth d c2 0%nat) (nth d i2 0) mod ax_n a = glob a (nth d c 0%nat) (nth d i 0) mod ax_n a).
  { intros d Hd. specialize (HN d Hd). replace (d <? length axes)%nat with true in HN by lia.
    pose proof (src1_spec _ _ _ (Hokd d Hd) (Hcd d Hd) (proj2 Hi d Hd)) as (S1 & S2 & S3).
    rewrite <- HN in S2, S3. split; assumption. }
  split.
  - split; [exact HL2|]. intros d Hd. apply (HS d Hd).
  - intros d Hd. symmetry. apply (HS d Hd).
Qed.
End Update.

Section Update'.
Context {V : Type}.
Variable axes : list axis.
Hypothesis Hdim : (length axes <= 3)%nat.
Hypothesis Hok : Forall ax_ok axes.

Lemma inner_stored c i : inner axes c i -> stored axes c i.
Proof.
  intros [H1 H2]. split; [exact H1|]. intros d Hd. specialize (H2 d Hd). unfold ax_inner, ax_stored in *.
  destruct (Hokd axes Hok d Hd) as (_ & _ & ? & _). lia.
Qed.

Lemma update_inner (A : pstate (V:=V)) c i : coords_ok axes c -> inner axes c i -> update axes A c i = A c i.
Proof. intros Hc Hi. apply update_spec; auto; [now apply inner_stored|]. intros d Hd. reflexivity. Qed.

(* twice is the same as once *)
Lemma update_idem (A : pstate (V:=V)) c i : coords_ok axes c -> stored axes c i ->
  update axes (update axes A) c i = update axes A c i.
Proof.
  intros Hc Hi. destruct (owner_of_cell axes Hdim Hok c i Hc Hi) as (c' & i' & H1 & H2 & H3).
  rewrite (update_spec axes Hdim Hok (update axes A) c i c' i'), (update_spec axes Hdim Hok A c i c' i') by assumption.
  now apply update_inner.
Qed.

(* the loo.py version agrees with it for ghosts of width one on one process *)
Lemma loopy_eq (A : pstate (V:=V)) : Forall (fun a => ax_h a = 1 /\ ax_p a = 1%nat) axes ->
  forall c i, coords_ok axes c -> stored axes c i -> loopy_update axes A c i = update axes A c i.
Proof.
  intros H1. unfold loopy_update, update.
  assert (HK : forall k, (k <= length axes)%nat -> forall c i, coords_ok axes c -> stored axes c i ->
    fold_left (fun A d => loopy_exchange axes d A) (seq 0 k) A c i = fold_left (fun A d => exchange axes d A) (seq 0 k) A c i).
  { induction k as [|k IH]; intros Hk c i Hc Hi; [reflexivity|].
    rewrite !seq_S, !fold_left_app. cbn [fold_left plus].
    pose proof (proj1 (coords_ok_iff axes c) Hc) as [Hcl Hcd].
    rewrite exchange_eq by (auto; try lia; apply Hi; lia).
    pose proof (src1_spec _ _ _ (Hokd axes Hok k ltac:(lia)) (Hcd k ltac:(lia)) (proj2 Hi k ltac:(lia))) as (S1 & S2 & _).
    pose proof (Hokd axes Hok k ltac:(lia)) as Ha.
    assert (HA : ax_h (nth k axes dax) = 1 /\ ax_p (nth k axes dax) = 1%nat).
    { apply (proj1 (Forall_forall _ _) H1). apply nth_In. lia. }
    destruct HA as [HA1 HA2].
    assert (HC0 : nth k c 0%nat = 0%nat) by (specialize (Hcd k ltac:(lia)); lia).
    pose proof (proj2 Hi k ltac:(lia)) as Hx. unfold ax_stored in Hx. rewrite HC0 in *.
    assert (HN : nbr_low (nth k axes dax) 0 = 0%nat /\ nbr_high (nth k axes dax) 0 = 0%nat).
    { destruct (nbr_low_high (nth k axes dax) 0) as [_ ?]; [lia|]. destruct (nbr_high_low (nth k axes dax) 0) as [_ ?]; lia. }
    destruct HN as [HN1 HN2].
    set (n := ax_size (nth k axes dax) 0) in *. set (x := nth k i 0) in *.
    destruct Ha as (_ & _ & _ & HR). specialize (HR 0%nat ltac:(lia)).
    assert (Hn : 3 <= n) by (unfold n, ax_size; lia).
    assert (Hsrc : src1 (nth k axes dax) 0 x = (0%nat, if x =? n - 1 then 1 else if x =? 0 then n - 2 else x)).
    { unfold src1. rewrite HN1, HN2, HA1. fold n. destruct (x <? 1) eqn:E1.
      - replace (x =? n - 1) with false by lia. replace (x =? 0) with true by lia. f_equal. lia.
      - destruct (n - 1 <=? x) eqn:E2.
        + replace (x =? n - 1) with true by lia. f_equal. lia.
        + replace (x =? n - 1) with false by lia. replace (x =? 0) with false by lia. reflexivity. }
    rewrite Hsrc in *. cbn [fst snd] in *.
    assert (HU : forall {T} (l : list T) d z, (d < length l)%nat -> upd l d (nth d l z) = l).
    { intros T. induction l as [|y l IHl]; intros [|j] z Hj; cbn in *; try lia; auto. f_equal. apply IHl. lia. }
    assert (HUc : upd c k 0%nat = c) by (rewrite <- HC0 at 1; apply HU; lia).
    rewrite HUc. unfold loopy_exchange at 1. cbn zeta. fold n x.
    assert (HI : forall y, ax_inner (nth k axes dax) 0 y \/ y = x -> stored axes c (upd i k y)).
    { intros y Hy. split; [rewrite upd_length; apply Hi|]. intros d Hd. rewrite nth_upd by (destruct Hi; lia).
      destruct (d =? k)%nat eqn:E; [|now apply Hi]. replace d with k by lia. rewrite HC0.
      unfold ax_inner, ax_stored in *. fold n in Hy |- *. lia. }
    destruct (x =? n - 1) eqn:E1; [|destruct (x =? 0) eqn:E2].
    - apply IH; auto; lia.
    - apply IH; auto; lia.
    - unfold x. rewrite HU by (destruct Hi; lia). apply IH; auto; lia. }
  intros c i Hc Hi. now apply HK.
Qed.
End Update'.

(* Array._in *)
Lemma in_slice_spec {A} (l : list A) h : 1 <= h -> 2 * h <= Z.of_nat (length l) ->
  in_slice l h = firstn (Z.to_nat (Z.of_nat (length l) - 2 * h)) (skipn (Z.to_nat h) l).
Proof.
  intros H1 H2. unfold in_slice, py_slice, norm_slice.
  replace (h <? 0) with false by lia. replace (- h <? 0) with true by lia.
  f_equal; [lia|]. f_equal. lia.
Qed.
Lemma in_slice_zero {A} (l : list A) : in_slice l 0 = [].
Proof.
  unfold in_slice, py_slice, norm_slice. cbn [Z.ltb Z.compare Z.opp].
  now rewrite Z.min_l, Z.sub_diag by lia.
Qed.
