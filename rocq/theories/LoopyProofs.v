(* Lemmas on the executions of the kernels of the loo.py back end. *)
From Coq Require Import Sorting.Permutation.
From Verif Require Import PyBase VelocityModel GridModel StorageModel LinAlg AlgoModel AlgoProofs GlobalModel GlobalProofs GenModel GenProofs StepGenModel LoopyModel.
Require Import Lia.
Open Scope Z_scope.

Section P.
Variable V : Type.
Notation stmt := (GenModel.stmt V).
Notation state := (arrays V * (nat -> V))%type.
Implicit Types (st : state) (s : stmt) (k : kernel V).

Definition content st (d : dest) : V := match d with DArr n p => fst st n p | DLoc i => snd st i end.
Definition put st (d : dest) (v : V) : state := match d with DArr n p => (store V (fst st) n p v, snd st) | DLoc i => (fst st, updf (snd st) i v) end.
Fixpoint reads (x : list Z) (e : expr V) : list dest := match e with
  | ENum _ => []
  | ELoc i => [DLoc i]
  | EGet a => [DArr (a_name a) (addr x a)]
  | EUn _ e => reads x e
  | EBin _ e1 e2 => reads x e1 ++ reads x e2
  end.
Definition value x st s : V := ceval V (fst st) (snd st) x (rhs_of s).
Lemma dest_eq_dec (d d' : dest) : {d = d'} + {d <> d'}.
Proof. decide equality; try apply Nat.eq_dec. apply list_eq_dec, Z.eq_dec. Qed.
Lemma content_put st d v : content (put st d v) d = v.
Proof. destruct d; cbn; [apply store_same|apply updf_same]. Qed.
Lemma content_other st d v d' : d' <> d -> content (put st d v) d' = content st d'.
Proof.
  destruct d, d'; cbn; intros N; try reflexivity.
  - apply store_other. intros [-> ->]. now apply N.
  - apply updf_other. congruence.
Qed.
Lemma cexec_put x st s : cexec V x st s = put st (dest_of x s) (value x st s).
Proof. destruct s; reflexivity. Qed.
Lemma value_ext x st st' s : (forall d, In d (reads x (rhs_of s)) -> content st d = content st' d) -> value x st s = value x st' s.
Proof.
  unfold value. induction (rhs_of s) as [v|i|a|o e IH|o e1 IH1 e2 IH2]; cbn; intros H; [reflexivity| | |now rewrite IH|].
  - exact (H _ (or_introl eq_refl)).
  - exact (H _ (or_introl eq_refl)).
  - rewrite IH1, IH2; [reflexivity| |]; intros d Hd; apply H, in_or_app; tauto.
Qed.
Definition eqst st st' : Prop := forall d, content st d = content st' d.
Lemma exec_ext x st st' s : eqst st st' -> eqst (cexec V x st s) (cexec V x st' s).
Proof.
  intros H d. rewrite !cexec_put. assert (E : value x st s = value x st' s) by (apply value_ext; intros; apply H). rewrite E.
  destruct (dest_eq_dec d (dest_of x s)) as [->|N]; [now rewrite !content_put|]. rewrite !content_other by exact N. apply H.
Qed.
Lemma run_ext x b : forall st st', eqst st st' -> eqst (fold_left (cexec V x) b st) (fold_left (cexec V x) b st').
Proof. induction b as [|s b IH]; intros st st' H; [exact H|]. cbn. now apply IH, exec_ext. Qed.

(* ------------------------------------------------- one block in any order *)
(* no two instructions of the block write at the same place, and what an instruction reads is
   not changed by another one *)
Definition silent x s : Prop := forall st, value x st s = content st (dest_of x s).
Definition calm x b : Prop := NoDup (map (dest_of x) b) /\
  forall s t, In s b -> In t b -> dest_of x t <> dest_of x s -> In (dest_of x t) (reads x (rhs_of s)) -> silent x t.
Lemma calm_perm x b b' : Permutation b b' -> calm x b -> calm x b'.
Proof.
  intros P [H1 H2]. split; [eapply Permutation_NoDup; [apply Permutation_map; exact P|exact H1]|].
  intros s t Hs Ht. apply H2; apply (Permutation_in _ (Permutation_sym P)); assumption.
Qed.
Lemma calm_tail x s b : calm x (s :: b) -> calm x b.
Proof. intros [H1 H2]. inversion H1. split; [assumption|]. intros u t Hu Ht. apply H2; now right. Qed.
Lemma calm_run x b : forall st, calm x b ->
  (forall s, In s b -> content (fold_left (cexec V x) b st) (dest_of x s) = value x st s) /\
  (forall d, ~ In d (map (dest_of x) b) -> content (fold_left (cexec V x) b st) d = content st d).
Proof.
  induction b as [|s b IH]; intros st C; [split; [intros s []|reflexivity]|]. cbn [fold_left].
  destruct (IH (cexec V x st s) (calm_tail _ _ _ C)) as [I1 I2]. destruct C as [C1 C2]. cbn in C1. inversion C1 as [|? ? N1 N2]. split.
  - intros t [<-|Ht].
    + rewrite I2 by exact N1. now rewrite cexec_put, content_put.
    + rewrite I1 by exact Ht. apply value_ext. intros d Hd. rewrite cexec_put.
      destruct (dest_eq_dec d (dest_of x s)) as [->|N]; [|now rewrite content_other by exact N].
      rewrite content_put. apply (C2 t s); [now right|now left| |exact Hd]. intros E. apply N1. rewrite E. now apply in_map.
  - intros d Hd. cbn in Hd. rewrite I2 by tauto. rewrite cexec_put. apply content_other. intros ->. apply Hd. now left.
Qed.
Lemma calm_order x b b' st : calm x b -> Permutation b b' -> eqst (fold_left (cexec V x) b st) (fold_left (cexec V x) b' st).
Proof.
  intros C P d. destruct (calm_run x b st C) as [A1 A2]. destruct (calm_run x b' st (calm_perm x b b' P C)) as [B1 B2].
  destruct (in_dec dest_eq_dec d (map (dest_of x) b)) as [H|H].
  - apply in_map_iff in H as (s & <- & Hs). rewrite A1 by exact Hs. symmetry. apply B1. now apply (Permutation_in _ P).
  - rewrite A2 by exact H. symmetry. apply B2. intros H'. apply H. apply (Permutation_in _ (Permutation_sym (Permutation_map _ P)) H').
Qed.
Lemma calm_blocks x k k' : Forall (calm x) k -> Forall2 (@Permutation stmt) k k' -> forall st,
  eqst (fold_left (cexec V x) (concat k) st) (fold_left (cexec V x) (concat k') st).
Proof.
  intros C P. revert C. induction P as [|b b' k k' P1 P IH]; intros C st; [intros d; reflexivity|]. inversion C. cbn. rewrite !fold_left_app.
  intros d. rewrite (IH ltac:(assumption)). apply run_ext. now apply calm_order.
Qed.

(* ------------------------------------------------- the instructions done and those left *)
Inductive taken (ts : list (kernel V)) : list stmt -> list (kernel V) -> Prop :=
| T0 : taken ts [] ts
| TSkip o t1 bs t2 : taken ts o (t1 ++ ([] :: bs) :: t2) -> taken ts o (t1 ++ bs :: t2)
| TDo o t1 b1 s b2 bs t2 : taken ts o (t1 ++ ((b1 ++ s :: b2) :: bs) :: t2) -> taken ts (o ++ [s]) (t1 ++ ((b1 ++ b2) :: bs) :: t2).
Definition lin k (o : list stmt) : Prop := exists ts, taken (chains k) o ts /\ Forall (fun t => t = []) ts.
Lemma taken_in ts o r : taken ts o r -> forall s, In s o \/ In s (concat (concat r)) -> In s (concat (concat ts)).
Proof.
  induction 1 as [|o t1 bs t2 _ IH|o t1 b1 s b2 bs t2 _ IH]; intros u Hu.
  - destruct Hu as [[]|Hu]. exact Hu.
  - apply IH. destruct Hu as [Hu|Hu]; [now left|right]. rewrite !concat_app in *. cbn in *. rewrite !concat_app in *. exact Hu.
  - apply IH. repeat progress (rewrite ?concat_app, ?in_app_iff in Hu; cbn in Hu). repeat progress (rewrite ?concat_app, ?in_app_iff; cbn). tauto.
Qed.
Lemma chains_in k s : In s (concat (concat (chains k))) -> In s (concat k).
Proof.
  induction k as [|b k IH]; cbn; [tauto|]. rewrite in_app_iff. destruct b as [|t b]; cbn; [intros H; right; apply IH, H|].
  destruct (chains k) as [|c cs]; cbn; rewrite ?in_app_iff; cbn; [tauto|]. cbn in IH. rewrite concat_app, in_app_iff in IH. rewrite ?concat_app, ?in_app_iff. intuition.
Qed.
Lemma chains_one k : Forall (fun b => b <> []) k -> chains k = [k].
Proof. induction 1 as [|b k H _ IH]; [reflexivity|]. cbn. destruct b; [congruence|]. now rewrite IH. Qed.
Lemma single_split {T} (r : T) t1 c t2 : [r] = t1 ++ c :: t2 -> t1 = [] /\ t2 = [] /\ c = r.
Proof. destruct t1 as [|y t1]; cbn; intros E; injection E as E1 E2; [subst; auto|]. now destruct t1. Qed.
Lemma lin_blocks k o : Forall (fun b => b <> []) k -> lin k o -> exists k', Forall2 (@Permutation stmt) k k' /\ o = concat k'.
Proof.
  intros NE (ts & T & I). rewrite (chains_one k NE) in T. clear NE.
  set (now_ := fun (o : list stmt) (r : kernel V) =>
    (r = [] /\ exists k', Forall2 (@Permutation stmt) k k' /\ o = concat k') \/
    (exists k1 b0 k2 k1' part b, k = k1 ++ b0 :: k2 /\ r = b :: k2 /\ Forall2 (@Permutation stmt) k1 k1' /\ o = concat k1' ++ part /\ Permutation b0 (part ++ b))).
  assert (H : exists r, ts = [r] /\ now_ o r).
  { clear I. induction T as [|o t1 bs t2 T IH|o t1 b1 s b2 bs t2 T IH].
    - exists k. split; [reflexivity|]. unfold now_. destruct k as [|b k2]; [left; split; [reflexivity|exists []; auto]|right].
      exists [], b, k2, [], [], b. auto using Permutation_refl.
    - destruct IH as (r & E & N). symmetry in E. apply single_split in E as (-> & -> & E). subst r. exists bs. split; [reflexivity|].
      destruct N as [[E _]|(k1 & b0 & k2 & k1' & part & b & Ek & Er & P1 & Eo & P2)]; [discriminate|]. injection Er as <- ->.
      rewrite app_nil_r in P2. unfold now_. destruct k2 as [|b2 k2].
      + left. split; [reflexivity|]. exists (k1' ++ [part]). split; [|rewrite concat_app; cbn; now rewrite app_nil_r]. subst k. apply Forall2_app; auto.
      + right. exists (k1 ++ [b0]), b2, k2, (k1' ++ [part]), [], b2. split; [subst k; now rewrite <- app_assoc|]. split; [reflexivity|].
        split; [apply Forall2_app; auto|]. split; [rewrite concat_app; cbn; now rewrite !app_nil_r|apply Permutation_refl].
    - destruct IH as (r & E & N). symmetry in E. apply single_split in E as (-> & -> & E). subst r. exists ((b1 ++ b2) :: bs). split; [reflexivity|].
      destruct N as [[E _]|(k1 & b0 & k2 & k1' & part & b & Ek & Er & P1 & Eo & P2)]; [discriminate|]. injection Er as <- ->. right.
      exists k1, b0, k2, k1', (part ++ [s]), (b1 ++ b2). split; [exact Ek|]. split; [reflexivity|]. split; [exact P1|]. split; [subst o; now rewrite app_assoc|].
      eapply Permutation_trans; [exact P2|]. rewrite <- app_assoc. apply Permutation_app_head. cbn. apply Permutation_sym, Permutation_middle. }
  destruct H as (r & -> & N). inversion I as [|? ? E _]. subst r.
  destruct N as [[_ N]|(k1 & b0 & k2 & k1' & part & b & _ & E & _)]; [exact N|discriminate].
Qed.

(* ------------------------------------------------- the items at the same time *)
Section Items.
Variables (k : kernel V) (cells : list (list Z)) (A0 : arrays V) (L0 : list Z -> nat -> V).
Definition writes x n p : Prop := exists s, In s (concat k) /\ dest_of x s = DArr n p.
Definition touches x n p : Prop := writes x n p \/ exists s, In s (concat k) /\ In (DArr n p) (reads x (rhs_of s)).
(* what an item writes is not used by another one *)
Definition race_free : Prop := forall x y n p, In x cells -> In y cells -> x <> y -> writes x n p -> ~ touches y n p.
Hypothesis ND : NoDup cells.
Hypothesis RF : race_free.

Definition solo x (o : list stmt) : state := fold_left (cexec V x) o (A0, L0 x).
Definition sees x (A : arrays V) (o : list stmt) (L : nat -> V) : Prop := L = snd (solo x o) /\ forall n p, touches x n p -> A n p = fst (solo x o) n p.
Definition inv (A : arrays V) x (i : item V) : Prop := i_cell i = x /\ match i_pend i with
  | None => exists o, taken (chains k) o (i_todo i) /\ sees x A o (i_loc i)
  | Some (d, v) => exists o s, taken (chains k) (o ++ [s]) (i_todo i) /\ sees x A o (i_loc i) /\ d = dest_of x s /\ v = value x (solo x o) s
  end.
Definition kept_ (A : arrays V) : Prop := forall n p, (forall x, In x cells -> ~ writes x n p) -> A n p = A0 n p.
Lemma solo_snoc x o s : solo x (o ++ [s]) = cexec V x (solo x o) s.
Proof. unfold solo. now rewrite fold_left_app. Qed.
Lemma in_kernel o ts s : taken (chains k) o ts -> In s o \/ In s (concat (concat ts)) -> In s (concat k).
Proof using. intros T H. apply chains_in. now apply (taken_in _ _ _ T). Qed.
Lemma load_value x A o L s : In s (concat k) -> sees x A o L -> ceval V A L x (rhs_of s) = value x (solo x o) s.
Proof using.
  intros Hs [-> H]. change (value x (A, snd (solo x o)) s = value x (solo x o) s). apply value_ext. intros [n p|i] Hd; cbn; [|reflexivity].
  apply H. right. exists s. auto.
Qed.
Lemma inv_other A A' x y i : In x cells -> In y cells -> x <> y -> (forall n p, ~ writes x n p -> A' n p = A n p) -> inv A y i -> inv A' y i.
Proof using RF.
  intros Hx Hy N F [E H]. split; [exact E|].
  assert (S : forall o L, sees y A o L -> sees y A' o L).
  { intros o L [S1 S2]. split; [exact S1|]. intros n p Ht. rewrite <- S2 by exact Ht. apply F. intros W. exact (RF x y n p Hx Hy N W Ht). }
  destruct (i_pend i) as [[d v]|]; [destruct H as (o & s & H1 & H2 & H3)|destruct H as (o & H1 & H2)]; [exists o, s|exists o]; auto.
Qed.
Lemma inv_step A A' x i i' : istep (A, i) (A', i') -> inv A x i -> inv A' x i' /\ forall n p, ~ writes x n p -> A' n p = A n p.
Proof using.
  intros S I. inversion S as [A1 y L t1 bs t2 E1 E2|A1 y L t1 b1 s b2 bs t2 E1 E2|A1 y L n p v ts E1 E2|A1 y L j v ts E1 E2]; subst; destruct I as [Ex I]; cbn [i_cell i_pend i_todo i_loc] in *; subst y.
  - destruct I as (o & T & Se). split; [|reflexivity]. split; [reflexivity|]. cbn. exists o. split; [now constructor|exact Se].
  - destruct I as (o & T & Se). split; [|reflexivity]. split; [reflexivity|]. cbn. exists o, s. split; [now constructor|]. split; [exact Se|]. split; [reflexivity|].
    apply load_value; [|exact Se]. apply (in_kernel o _ s T). right. rewrite concat_app. cbn. rewrite concat_app. cbn. rewrite !in_app_iff. cbn. tauto.
  - destruct I as (o & s & T & [S1 S2] & Ed & Ev). assert (Hs : In s (concat k)) by (apply (in_kernel _ _ s T); left; apply in_or_app; right; now left).
    split.
    + split; [reflexivity|]. cbn. exists (o ++ [s]). split; [exact T|]. unfold sees. rewrite solo_snoc, cexec_put, <- Ed, <- Ev. cbn [put fst snd].
      split; [exact S1|]. intros n' p' Ht. unfold store. destruct (same n' n p' p); [reflexivity|now apply S2].
    + intros n' p' W. apply store_other. intros [-> ->]. apply W. exists s. auto.
  - destruct I as (o & s & T & [S1 S2] & Ed & Ev). split; [|reflexivity].
    split; [reflexivity|]. cbn. exists (o ++ [s]). split; [exact T|]. unfold sees. rewrite solo_snoc, cexec_put, <- Ed, <- Ev. cbn [put fst snd].
    split; [now rewrite S1|exact S2].
Qed.
Lemma inv_steps c c' : ksteps c c' -> c = launch k cells L0 A0 -> Forall2 (inv (fst c')) cells (snd c') /\ kept_ (fst c').
Proof using ND RF.
  intros H E. induction H as [c|c c1 c2 H IH H2].
  - subst c. cbn. split; [|intros n p _; reflexivity]. clear. induction cells as [|x l IH]; cbn; constructor; [|exact IH].
    split; [reflexivity|]. cbn. exists []. split; [constructor|]. split; [reflexivity|reflexivity].
  - destruct (IH E) as [I Kp]. clear IH. inversion H2 as [A A' pre i i' post St]. subst c1 c2. cbn [fst snd] in *.
    apply Forall2_app_inv_r in I as (xs & ys & I1 & I2 & Ec). inversion I2 as [|x i0 xs' post0 Ix I3]. subst ys i0 post0.
    destruct (inv_step _ _ _ _ _ St Ix) as [J F]. assert (Hx : In x cells) by (rewrite Ec; apply in_or_app; right; now left).
    assert (Ne : ~ In x (xs ++ xs')) by (rewrite Ec in ND; now apply NoDup_remove_2).
    assert (O : forall y l, In y cells -> x <> y -> inv A y l -> inv A' y l) by (intros y l Hy Nxy; now apply (inv_other A A' x)).
    split.
    + rewrite Ec at 1. apply Forall2_app; [|constructor; [exact J|]].
      * clear - O I1 Ne Ec. assert (Hs : forall y, In y xs -> In y cells /\ x <> y) by (intros y Hy; split; [rewrite Ec; apply in_or_app; now left|intros ->; apply Ne, in_or_app; now left]).
        clear Ne Ec. induction I1; constructor; [apply O; try assumption; apply Hs; now left|]. apply IHI1. intros z Hz. apply Hs. now right.
      * clear - O I3 Ne Ec. assert (Hs : forall y, In y xs' -> In y cells /\ x <> y) by (intros y Hy; split; [rewrite Ec; apply in_or_app; right; now right|intros ->; apply Ne, in_or_app; now right]).
        clear Ne Ec. induction I3; constructor; [apply O; try assumption; apply Hs; now left|]. apply IHI3. intros z Hz. apply Hs. now right.
    + intros n p W. rewrite F; [now apply Kp|]. now apply W.
Qed.
Lemma items_solo A' items : ksteps (launch k cells L0 A0) (A', items) -> Forall idle items ->
  (forall x, In x cells -> exists o, lin k o /\ forall n p, touches x n p -> A' n p = fst (solo x o) n p) /\ kept_ A'.
Proof using ND RF.
  intros H I. destruct (inv_steps _ _ H eq_refl) as [J Kp]. cbn [fst snd] in *. split; [|exact Kp]. clear H Kp ND RF.
  intros x Hx. revert Hx I. induction J as [|y i ys is_ Jy J IH]; intros Hx I; [destruct Hx|]. inversion I as [|? ? [I1 I2] I3]. destruct Hx as [->|Hx].
  - destruct Jy as [_ Jy]. rewrite I1 in Jy. destruct Jy as (o & T & _ & S). exists o. split; [|exact S]. exists (i_todo i). auto.
  - now apply IH.
Qed.
End Items.

(* Every execution of a kernel without races ends in the state of the items one after the other. *)
Lemma result_sequential k cells A0 A' : NoDup cells -> race_free k cells -> Forall (fun b => b <> []) k -> (forall x, In x cells -> Forall (calm x) k) ->
  result k cells A0 A' -> exists L0 : list Z -> nat -> V,
  (forall x n p, In x cells -> touches k x n p -> A' n p = fst (fold_left (cexec V x) (concat k) (A0, L0 x)) n p) /\
  (forall n p, (forall x, In x cells -> ~ writes k x n p) -> A' n p = A0 n p).
Proof.
  intros ND RF NE C (L0 & items & H & I). exists L0. destruct (items_solo k cells A0 L0 ND RF A' items H I) as [J Kp]. split; [|exact Kp].
  intros x n p Hx Ht. destruct (J x Hx) as (o & Lo & E). rewrite (E n p Ht). destruct (lin_blocks k o NE Lo) as (k' & P & ->).
  exact (eq_sym (calm_blocks x k k' (C x Hx) P (A0, L0 x) (DArr n p))).
Qed.

(* ------------------------------------------------- the executions end *)
Definition weight (i : item V) : nat :=
  (match i_pend i with None => 0 | Some _ => 1 end + list_sum (map (fun t => list_sum (map (fun b => 1 + 2 * length b) t)) (i_todo i)))%nat.
Lemma istep_weight A i A' i' : istep (A, i) (A', i') -> (weight i' < weight i)%nat.
Proof.
  intros S. inversion S; subst; unfold weight; cbn [i_pend i_todo]; repeat progress (rewrite ?map_app, ?list_sum_app, ?app_length; cbn [map length]; unfold list_sum; cbn [fold_right]; fold list_sum); lia.
Qed.
Definition weights (c : conf V) : nat := list_sum (map weight (snd c)).
Lemma kstep_weight c c' : kstep c c' -> (weights c' < weights c)%nat.
Proof. intros [A A' pre i i' post S]. unfold weights. cbn. rewrite !map_app, !list_sum_app. cbn. pose proof (istep_weight _ _ _ _ S). lia. Qed.
Lemma kstep_wf : well_founded (fun c' c : conf V => kstep c c').
Proof. apply (well_founded_lt_compat _ weights). intros c c' H. now apply kstep_weight. Qed.
Lemma idle_dec (i : item V) : idle i \/ forall A, exists A' i', istep (A, i) (A', i').
Proof.
  destruct i as [x L [[[n p|j] v]|] ts].
  - right. intros A. do 2 eexists. apply IStoreA.
  - right. intros A. do 2 eexists. apply IStoreL.
  - assert (H : Forall (fun t => t = []) ts \/ exists t1 b bs t2, ts = t1 ++ (b :: bs) :: t2).
    { induction ts as [|[|b bs] ts IH]; [left; constructor| |right; now exists [], b, bs, ts].
      destruct IH as [IH|(t1 & b & bs & t2 & ->)]; [left; now constructor|right]. now exists ([] :: t1), b, bs, t2. }
    destruct H as [H|(t1 & b & bs & t2 & ->)]; [left; split; [reflexivity|exact H]|right]. intros A. destruct b as [|s b].
    + do 2 eexists. apply ISkip.
    + do 2 eexists. exact (ILoad V A x L t1 [] s b bs t2).
Qed.
Lemma progress (c : conf V) : Forall idle (snd c) \/ exists c', kstep c c'.
Proof.
  destruct c as [A items]. cbn. assert (H : Forall idle items \/ exists pre i post, items = pre ++ i :: post /\ forall A, exists A' i', istep (A, i) (A', i')).
  { induction items as [|i items IH]; [left; constructor|]. destruct (idle_dec i) as [H|H]; [|right; now exists [], i, items].
    destruct IH as [IH|(pre & j & post & -> & IH)]; [left; now constructor|right]. now exists (i :: pre), j, post. }
  destruct H as [H|(pre & i & post & -> & H)]; [now left|right]. destruct (H A) as (A' & i' & S). exists (A', pre ++ i' :: post). now constructor.
Qed.
Lemma completes (c : conf V) : forall c0, ksteps c0 c -> exists c', ksteps c0 c' /\ Forall idle (snd c').
Proof.
  induction c as [c IH] using (well_founded_induction kstep_wf). intros c0 H. destruct (progress c) as [I|[c' S]]; [exists c; auto|].
  apply (IH c' S). now apply (KMore V c0 c).
Qed.
Lemma has_result k cells A0 : exists A', result k cells A0 A'.
Proof.
  destruct (completes (launch k cells (fun _ _ => A0 0%nat []) A0) _ (KRefl V _)) as ([A' items] & H & I). exists A'. exists (fun _ _ => A0 0%nat []), items. auto.
Qed.
End P.
Arguments reads {V}. Arguments calm {V}. Arguments silent {V}. Arguments race_free {V}. Arguments writes {V}. Arguments touches {V}. Arguments value {V}. Arguments content {V}.

Section Q.
Variable V : Type.
Notation stmt := (GenModel.stmt V).
Implicit Types (s : stmt) (k : kernel V).

Lemma writes_dec k x n p : writes k x n p \/ ~ writes k x n p.
Proof.
  destruct (in_dec dest_eq_dec (DArr n p) (map (dest_of x) (concat k))) as [H|H].
  - left. apply in_map_iff in H as (s & E & Hs). exists s. auto.
  - right. intros (s & Hs & E). apply H. rewrite <- E. now apply in_map.
Qed.
Lemma solo_frame x o A L n p : (forall s, In s o -> dest_of x s <> DArr n p) -> fst (fold_left (cexec V x) o (A, L)) n p = A n p.
Proof.
  intros H. change (A n p) with (fst (A, L) n p). generalize (A, L) as st. induction o as [|s o IH]; intros st; [reflexivity|]. cbn [fold_left].
  rewrite IH by (intros t Ht; apply H; now right). rewrite cexec_put.
  exact (content_other V st (dest_of x s) _ (DArr n p) ltac:(intros E; now apply (H s (or_introl eq_refl)))).
Qed.
(* the value at a place which no other item writes *)
Lemma result_at k cells A0 A' : NoDup cells -> race_free k cells -> Forall (fun b => b <> []) k -> (forall x, In x cells -> Forall (calm x) k) ->
  result k cells A0 A' -> exists L0 : list Z -> nat -> V,
  (forall x n p, In x cells -> (forall y, In y cells -> y <> x -> ~ writes k y n p) -> A' n p = fst (fold_left (cexec V x) (concat k) (A0, L0 x)) n p) /\
  (forall n p, (forall x, In x cells -> ~ writes k x n p) -> A' n p = A0 n p).
Proof.
  intros ND RF NE C R. destruct (result_sequential V k cells A0 A' ND RF NE C R) as (L0 & H1 & H2). exists L0. split; [|exact H2].
  intros x n p Hx N. destruct (writes_dec k x n p) as [W|W]; [apply H1; [exact Hx|now left]|].
  rewrite H2.
  - symmetry. apply solo_frame. intros s Hs E. apply W. exists s. auto.
  - intros y Hy Wy. destruct (list_eq_dec Z.eq_dec y x) as [->|Ne]; [now apply W|now apply (N y)].
Qed.

(* ------------------------------------------------- executions of one item *)
Lemma item_steps k x A L0 o ts : taken V (chains k) o ts ->
  ksteps (launch k [x] (fun _ => L0) A) (fst (fold_left (cexec V x) o (A, L0)), [mkItem x (snd (fold_left (cexec V x) o (A, L0))) None ts]).
Proof.
  induction 1 as [|o t1 bs t2 _ IH|o t1 b1 s b2 bs t2 _ IH].
  - apply KRefl.
  - eapply KMore; [exact IH|]. apply (KStep V _ _ [] _ _ []). apply ISkip.
  - rewrite fold_left_app. cbn [fold_left]. set (st := fold_left (cexec V x) o (A, L0)) in *.
    eapply KMore; [eapply KMore; [exact IH|exact (KStep V _ _ [] _ _ [] (ILoad V (fst st) x (snd st) t1 b1 s b2 bs t2))]|]. cbn [app].
    rewrite cexec_put. unfold value. destruct (dest_of x s) as [n p|i]; cbn [put fst snd]; apply (KStep V _ _ [] _ _ []); [apply IStoreA|apply IStoreL].
Qed.
Lemma lin_result k x A L0 o : lin V k o -> result k [x] A (fst (fold_left (cexec V x) o (A, L0))).
Proof. intros (ts & T & I). exists (fun _ => L0). eexists. split; [exact (item_steps k x A L0 o ts T)|]. constructor; [|constructor]. split; [reflexivity|exact I]. Qed.
(* a chain is run at once, each block in some order *)
Lemma taken_block ts o t1 b bs t2 b' : Permutation b b' -> taken V ts o (t1 ++ (b :: bs) :: t2) -> taken V ts (o ++ b') (t1 ++ bs :: t2).
Proof.
  intros P. revert o b P. induction b' as [|s b' IH]; intros o b P T.
  - apply Permutation_sym, Permutation_nil in P. subst b. rewrite app_nil_r. now apply TSkip.
  - destruct (in_split s b) as (b1 & b2 & ->); [apply (Permutation_in _ (Permutation_sym P)); now left|].
    replace (o ++ s :: b') with ((o ++ [s]) ++ b') by (rewrite <- app_assoc; reflexivity). apply (IH (o ++ [s]) (b1 ++ b2)).
    + apply (Permutation_cons_inv (a := s)). eapply Permutation_trans; [apply Permutation_middle|exact P].
    + now apply TDo.
Qed.
Lemma taken_chain ts t1 t2 : forall c c', Forall2 (@Permutation stmt) c c' -> forall o, taken V ts o (t1 ++ c :: t2) -> taken V ts (o ++ concat c') (t1 ++ [] :: t2).
Proof.
  intros c c' P. induction P as [|b b' c c' P1 P IH]; intros o T; cbn; [now rewrite app_nil_r|]. rewrite app_assoc. apply IH. now apply (taken_block ts o t1 b c t2 b').
Qed.
End Q.
