(* C93: the order of the velocities in the dictionary. *)
From Coq Require Import QArith Qcanon Sorting.Permutation.
From Verif Require Import PyBase VelocityModel VelocityProofs Velocity3Proofs StencilModel StencilProofs GridModel GridProofs StorageModel
  ExchangeProofs StorageProps LinAlg AlgoModel AlgoProofs RelVelProofs KernelProofs GlobalModel GlobalProofs TorusProofs AlgoProps GlobalProps
  GenModel GenProofs GenProps StepGenModel StepGenProofs StepGenProps SchemeModel SchemeProofs SchemeProps BuildModel BuildProofs BuildProps BuildFrame
  DomainModel DomainProofs DomainProps BoundaryModel BoundaryProofs BoundaryProps BoundaryUpdProps VesselProofs VesselProps ChannelProps
  ParallelModel ParallelProofs ObstacleProofs ParallelProps ObstacleProps ParallelMassProps WholeModel WholeProps InitGenModel InitGenProps DuctProps FlowProofs FlowProps MovingProps BoundsProps.
Require Import Lia.
Open Scope Z_scope.

(* ------------------------------------------------- lists ------------------- *)
(* the list l read in the order o *)
Lemma nth_map_lt {A B} (f : A -> B) l j a b : (j < length l)%nat -> nth j (map f l) a = f (nth j l b).
Proof. intros H. rewrite (nth_indep _ a (f b)) by (now rewrite map_length). apply map_nth. Qed.
Lemma read_all {A} (a : A) l : map (fun j => nth j l a) (seq 0 (length l)) = l.
Proof.
  apply nth_ext with (d := a) (d' := a); [now rewrite map_length, seq_length|]. intros i Hi. rewrite map_length in Hi.
  rewrite (nth_map_lt _ _ i a 0%nat) by exact Hi. rewrite seq_length in Hi. now rewrite seq_nth.
Qed.
Definition reorder {A : Type} (a : A) (o : list nat) (l : list A) : list A := map (fun j => nth j l a) o.
Definition an_order (o : list nat) (n : nat) : Prop := Permutation o (seq 0 n).
Lemma order_len o n : an_order o n -> length o = n.
Proof. intros H. apply Permutation_length in H. now rewrite seq_length in H. Qed.
Lemma order_in o n j : an_order o n -> (j < n)%nat -> (nth j o 0 < n)%nat.
Proof.
  intros H Hj. assert (I : In (nth j o 0%nat) (seq 0 n)) by (apply (Permutation_in _ H), nth_In; now rewrite (order_len o n H)).
  apply in_seq in I. lia.
Qed.
Lemma order_inj o n i j : an_order o n -> (i < n)%nat -> (j < n)%nat -> nth i o 0%nat = nth j o 0%nat -> i = j.
Proof.
  intros H Hi Hj E. pose proof (order_len o n H) as L. apply (NoDup_nth o 0%nat); try (rewrite L; assumption); [|exact E].
  apply (Permutation_NoDup (Permutation_sym H)), seq_NoDup.
Qed.
Lemma order_onto o n i : an_order o n -> (i < n)%nat -> exists j, (j < n)%nat /\ nth j o 0%nat = i.
Proof.
  intros H Hi. assert (I : In i o) by (apply (Permutation_in _ (Permutation_sym H)), in_seq; lia).
  destruct (In_nth o i 0%nat I) as (j & Hj & E). exists j. rewrite <- (order_len o n H). now split.
Qed.
Lemma reorder_len {A} (a : A) o l : length (reorder a o l) = length o.
Proof. apply map_length. Qed.
Lemma reorder_nth {A} (a b : A) o l j : (j < length o)%nat -> nth j (reorder a o l) b = nth (nth j o 0%nat) l a.
Proof. intros H. unfold reorder. now rewrite (nth_map_lt _ _ j b 0%nat). Qed.
Lemma reorder_perm {A} (a : A) o l : an_order o (length l) -> Permutation (reorder a o l) l.
Proof. intros H. unfold reorder. rewrite (Permutation_map (fun j => nth j l a) H). now rewrite read_all. Qed.
(* one order for each scheme *)
Fixpoint reorders {A : Type} (a : A) (os : list (list nat)) (ls : list (list A)) : list (list A) :=
  match os, ls with o :: os, l :: ls => reorder a o l :: reorders a os ls | _, _ => [] end.
Lemma reorders_nth {A} (a : A) os ls b o l : nth_error os b = Some o -> nth_error ls b = Some l -> nth_error (reorders a os ls) b = Some (reorder a o l).
Proof.
  revert os ls. induction b as [|b IH]; intros [|o0 os] [|l0 ls] H1 H2; try discriminate; cbn in *; [now injection H1 as ->; injection H2 as ->|now apply IH].
Qed.
Lemma reorders_len {A} (a : A) os ls : length os = length ls -> length (reorders a os ls) = length ls.
Proof. revert ls. induction os as [|o os IH]; intros [|l ls] H; try discriminate; [reflexivity|]. cbn in *. now rewrite IH by lia. Qed.
(* the numbers of all the velocities, scheme after scheme *)
Fixpoint numbers (base : nat) (os : list (list nat)) : list nat :=
  match os with [] => [] | o :: os => map (fun j => base + j)%nat o ++ numbers (base + length o) os end.
(* the number, before, of the velocity which has the number k after *)
Definition renum (os : list (list nat)) (k : nat) : nat := nth k (numbers 0 os) k.
Definition start (os : list (list nat)) (b : nat) : nat := length (concat (firstn b os)).
Lemma numbers_nth os : forall base b o j x, nth_error os b = Some o -> (j < length o)%nat -> nth (start os b + j) (numbers base os) x = (base + start os b + nth j o 0)%nat.
Proof.
  induction os as [|o0 os IH]; intros base b o j x Hb Hj; [destruct b; discriminate|]. destruct b as [|b].
  - injection Hb as ->. unfold start. cbn [firstn concat length numbers Nat.add]. rewrite app_nth1 by (now rewrite map_length).
    rewrite (nth_map_lt _ _ j x 0%nat) by exact Hj. lia.
  - cbn in Hb. unfold start. cbn [firstn concat numbers]. rewrite app_length, app_nth2; rewrite map_length; [|lia].
    replace (length o0 + length (concat (firstn b os)) + j - length o0)%nat with (start os b + j)%nat by (unfold start; lia).
    rewrite (IH _ b o j x Hb Hj). unfold start. lia.
Qed.
Lemma renum_at os b o j : nth_error os b = Some o -> (j < length o)%nat -> renum os (start os b + j) = (start os b + nth j o 0)%nat.
Proof. intros Hb Hj. unfold renum. now rewrite (numbers_nth os 0 b o j _ Hb Hj). Qed.

(* ------------------------------------------------- dictionaries ------------ *)
Section Dict.
Variable K : ring.
Add Ring Kring : (rth K).
(* the velocities of the scheme in the order o; the columns of M and the values of feq follow *)
Definition reorder_dict (o : list nat) (d : sdict K) : sdict K :=
  mkSdict K (reorder [] o (sd_v K d)) (sd_P K d) (option_map (fun M i j => M i (nth j o 0%nat)) (sd_M K d)) (sd_s K d) (sd_eq K d)
    (option_map (reorder (Num 0%K) o) (sd_feq K d)) (sd_cons K d) (sd_src K d).
Fixpoint reorder_dicts (os : list (list nat)) (ds : list (sdict K)) : list (sdict K) :=
  match os, ds with o :: os, d :: ds => reorder_dict o d :: reorder_dicts os ds | _, _ => [] end.
Lemma dicts_nth os ds b o d : nth_error os b = Some o -> nth_error ds b = Some d -> nth_error (reorder_dicts os ds) b = Some (reorder_dict o d).
Proof.
  revert os ds. induction b as [|b IH]; intros [|o0 os] [|d0 ds] H1 H2; try discriminate; cbn in *; [now injection H1 as ->; injection H2 as ->|now apply IH].
Qed.
Lemma dicts_nth_inv os ds b d' : nth_error (reorder_dicts os ds) b = Some d' -> exists o d, nth_error os b = Some o /\ nth_error ds b = Some d /\ d' = reorder_dict o d.
Proof.
  revert os ds. induction b as [|b IH]; intros [|o0 os] [|d0 ds] H; try discriminate; cbn in *; [injection H as <-; now exists o0, d0|now apply IH].
Qed.
Lemma entry_reorder o d i j : (j < length o)%nat -> entry K (reorder_dict o d) i j = entry K d i (nth j o 0%nat).
Proof.
  intros Hj. unfold entry. cbn [reorder_dict sd_M sd_v sd_P]. destruct (sd_M K d); [reflexivity|]. cbn [option_map]. now rewrite reorder_nth.
Qed.
Lemma sum_order o n (f : nat -> K) : an_order o n -> sum n (fun j => f (nth j o 0%nat)) = sum n f.
Proof.
  intros H. unfold sum. rewrite <- (sumL_map K (fun j => nth j o 0%nat) (seq 0 n) f). rewrite <- (order_len o n H) at 1. rewrite read_all. exact (sumL_perm K o (seq 0 n) f H).
Qed.
End Dict.

Section Dicts.
Variable K : ring.
Add Ring Kring2 : (rth K).
Variable simp : term K -> term K.
Variables (os : list (list nat)) (ds : list (sdict K)).
Notation ds' := (reorder_dicts K os ds).
Notation pi := (renum os).
Notation n := (SchemeModel.total (sizes K ds)).
(* os has an order for each scheme; the dictionaries give the moments at equilibrium ("equilibrium", not "feq") *)
Hypothesis HO : Forall2 (fun o d => an_order o (nv K d)) os ds.
Hypothesis HF : forall d, In d ds -> sd_feq K d = None.
Lemma ho_nth b d : nth_error ds b = Some d -> exists o, nth_error os b = Some o /\ an_order o (nv K d).
Proof using HO.
  clear HF. revert b. induction HO as [|o d0 os' ds0 H1 H2 IH]; intros b Hb; [destruct b; discriminate|]. destruct b as [|b]; [injection Hb as ->; now exists o|]. now apply IH.
Qed.
Lemma nv_reorder o d : an_order o (nv K d) -> nv K (reorder_dict K o d) = nv K d.
Proof using. intros H. unfold nv at 1. cbn [reorder_dict sd_v]. rewrite reorder_len. now apply order_len. Qed.
Lemma nv_dicts : map (nv K) ds' = map (nv K) ds.
Proof using HO. clear HF. induction HO as [|o d os' ds0 H1 H2 IH]; [reflexivity|]. cbn [reorder_dicts map]. now rewrite IH, (nv_reorder o d H1). Qed.
Lemma off_dicts b : off K ds' b = off K ds b.
Proof using HO. unfold off. now rewrite nv_dicts. Qed.
Lemma total_dicts : SchemeModel.total (sizes K ds') = n.
Proof using HO. unfold sizes. now rewrite nv_dicts. Qed.
Lemma start_off b : start os b = off K ds b.
Proof using HO.
  unfold start, off. clear HF. revert b. induction HO as [|o d os' ds0 H1 H2 IH]; intros b; [destruct b; reflexivity|]. destruct b as [|b]; [reflexivity|].
  cbn [firstn concat map fold_right]. now rewrite app_length, IH, (order_len _ _ H1).
Qed.
Lemma cons_dicts : conserved K ds' = conserved K ds.
Proof using HO. clear HF. unfold conserved. f_equal. induction HO as [|o d os' ds0 H1 H2 IH]; [reflexivity|]. cbn [reorder_dicts map]. now rewrite IH. Qed.
Lemma src_dicts c : BuildProofs.source K ds' c = BuildProofs.source K ds c.
Proof using HO. 
  unfold BuildProofs.source. assert (E : map (sd_src K) ds' = map (sd_src K) ds); [|now rewrite E].
  clear HF. induction HO as [|o d os' ds0 H1 H2 IH]; [reflexivity|]. cbn [reorder_dicts map]. now rewrite IH.
Qed.
Lemma half_dicts hdt u : half K hdt ds' u = half K hdt ds u.
Proof using HO.
  unfold half. rewrite cons_dicts. generalize (conserved K ds) u. induction l as [|c l IH]; intros w; [reflexivity|]. cbn [fold_left]. now rewrite src_dicts, IH.
Qed.
Lemma eqs_dict o d : In d ds -> eqs K simp (reorder_dict K o d) = eqs K simp d.
Proof using HF. intros Hd. unfold eqs. cbn [reorder_dict sd_eq sd_feq]. now rewrite (HF d Hd). Qed.
Lemma eqv_dict o d i u : In d ds -> eqv K (reorder_dict K o d) i u = eqv K d i u.
Proof using HF. intros Hd. unfold eqv. cbn [reorder_dict sd_eq sd_feq]. now rewrite (HF d Hd). Qed.
Lemma dict_in d' : In d' ds' -> exists o d, In d ds /\ d' = reorder_dict K o d /\ an_order o (nv K d).
Proof using HO.
  intros H. apply In_nth_error in H. destruct H as [b Hb]. apply dicts_nth_inv in Hb. destruct Hb as (o & d & H1 & H2 & ->).
  destruct (ho_nth b d H2) as (o' & H3 & H4). exists o, d. split; [eapply nth_error_In; eauto|]. split; [reflexivity|congruence].
Qed.
Lemma moment_dicts c b i : is_moment K simp ds' c b i <-> is_moment K simp ds c b i.
Proof using HO HF.
  unfold is_moment. split.
  - intros (d' & H1 & H2 & H3 & H4 & H5). apply dicts_nth_inv in H1. destruct H1 as (o & d & E1 & E2 & ->). destruct (ho_nth b d E2) as (o' & E3 & Eo). rewrite E1 in E3. injection E3 as <-.
    rewrite nv_reorder in H3 by exact Eo. rewrite (eqs_dict o d (nth_error_In _ _ E2)) in H4, H5. exists d. auto.
  - intros (d & H1 & H2 & H3 & H4 & H5). destruct (ho_nth b d H1) as (o & E1 & Eo). exists (reorder_dict K o d). rewrite nv_reorder by exact Eo. rewrite (eqs_dict o d (nth_error_In _ _ H1)).
    split; [now apply dicts_nth|auto].
Qed.
Lemma pi_off b d j : nth_error ds b = Some d -> (j < nv K d)%nat -> exists o, nth_error os b = Some o /\ an_order o (nv K d) /\ pi (off K ds b + j) = (off K ds b + nth j o 0)%nat.
Proof using HO.
  intros Hb Hj. destruct (ho_nth b d Hb) as (o & E1 & Eo). exists o. split; [exact E1|]. split; [exact Eo|]. rewrite <- start_off. apply renum_at; [exact E1|]. now rewrite (order_len _ _ Eo).
Qed.
Lemma pi_lt k : (k < n)%nat -> (pi k < n)%nat.
Proof using HO.
  intros Hk. destruct (off_ex K ds k Hk) as (b & d & j & Hb & Hj & ->). destruct (pi_off b d j Hb Hj) as (o & _ & Eo & ->). apply (off_total K ds b d); [exact Hb|]. now apply order_in.
Qed.
Lemma off_mono b d b' d' : nth_error ds b = Some d -> nth_error ds b' = Some d' -> (b < b')%nat -> (off K ds b + nv K d <= off K ds b')%nat.
Proof using.
  clear HO HF. revert b b'. induction ds as [|d0 l IH]; intros b b' Hb Hb' L; [destruct b; discriminate|]. destruct b' as [|b']; [lia|]. destruct b as [|b].
  - injection Hb as ->. unfold off. cbn [firstn map fold_right]. lia.
  - cbn in Hb, Hb'. rewrite !off_S. specialize (IH b b' Hb Hb' ltac:(lia)). lia.
Qed.
Lemma off_inj b d j b' d' j' : nth_error ds b = Some d -> nth_error ds b' = Some d' -> (j < nv K d)%nat -> (j' < nv K d')%nat -> (off K ds b + j = off K ds b' + j')%nat -> b = b' /\ j = j'.
Proof using.
  clear HO HF. intros Hb Hb' Hj Hj' E. destruct (Nat.lt_trichotomy b b') as [L|[L|L]].
  - pose proof (off_mono b d b' d' Hb Hb' L). lia.
  - subst b'. split; [reflexivity|lia].
  - pose proof (off_mono b' d' b d Hb' Hb L). lia.
Qed.
Lemma pi_inj k k' : (k < n)%nat -> (k' < n)%nat -> pi k = pi k' -> k = k'.
Proof using HO.
  intros Hk Hk' E. destruct (off_ex K ds k Hk) as (b & d & j & Hb & Hj & ->). destruct (off_ex K ds k' Hk') as (b' & d' & j' & Hb' & Hj' & ->).
  destruct (pi_off b d j Hb Hj) as (o & O1 & Eo & E1). destruct (pi_off b' d' j' Hb' Hj') as (o' & O2 & Eo' & E2). rewrite E1, E2 in E.
  destruct (off_inj _ _ _ _ _ _ Hb Hb' (order_in _ _ _ Eo Hj) (order_in _ _ _ Eo' Hj') E) as [<- E3]. rewrite O1 in O2. injection O2 as <-. rewrite Hb in Hb'. injection Hb' as <-.
  f_equal. now apply (order_inj o (nv K d)).
Qed.
Lemma pi_onto k : (k < n)%nat -> exists k', (k' < n)%nat /\ pi k' = k.
Proof using HO.
  intros Hk. destruct (off_ex K ds k Hk) as (b & d & j & Hb & Hj & ->). destruct (ho_nth b d Hb) as (o & E1 & Eo). destruct (order_onto o _ j Eo Hj) as (j' & Hj' & Ej).
  exists (off K ds b + j')%nat. split; [now apply (off_total K ds b d)|]. destruct (pi_off b d j' Hb Hj') as (o' & E2 & _ & ->). rewrite E1 in E2. injection E2 as <-. now rewrite Ej.
Qed.
(* the moments do not see the order *)
Lemma mom_dicts f b i : mom K ds' (fun k => f (pi k)) b i = mom K ds f b i.
Proof using HO.
  unfold mom. destruct (nth_error ds b) as [d|] eqn:Hb.
  - destruct (ho_nth b d Hb) as (o & E1 & Eo). rewrite (dicts_nth K os ds b o d E1 Hb), (nv_reorder o d Eo), off_dicts.
    rewrite <- (sum_order K o (nv K d) (fun j => (entry K d i j * f (off K ds b + j)%nat)%K) Eo). apply sum_ext. intros j Hj.
    rewrite entry_reorder by (now rewrite (order_len _ _ Eo)). destruct (pi_off b d j Hb Hj) as (o' & E2 & _ & ->). rewrite E1 in E2. now injection E2 as <-.
  - destruct (nth_error ds' b) as [d'|] eqn:Hb'; [|reflexivity]. apply dicts_nth_inv in Hb'. destruct Hb' as (o & d & _ & C & _). congruence.
Qed.
Lemma collided_dicts hdt f f' : collided K simp hdt ds f f' -> collided K simp hdt ds' (fun k => f (pi k)) (fun k => f' (pi k)).
Proof using HO HF.
  intros H val Hv. cbv zeta. assert (Hv0 : forall c b i, is_moment K simp ds c b i -> val c = mom K ds f b i).
  { intros c b i Hm. rewrite <- mom_dicts. apply Hv. now apply moment_dicts. }
  destruct (H val Hv0) as [H1 H2]. rewrite !half_dicts. split.
  - intros c b i Hm. rewrite mom_dicts. apply H1. now apply moment_dicts.
  - intros b i d' Hb Hi Hn. apply dicts_nth_inv in Hb. destruct Hb as (o & d & E1 & E2 & ->). destruct (ho_nth b d E2) as (o' & E3 & Eo). rewrite E1 in E3. injection E3 as <-.
    rewrite (nv_reorder o d Eo) in Hi. rewrite !mom_dicts, (eqv_dict o d i _ (nth_error_In _ _ E2)). cbn [reorder_dict sd_s]. apply H2; try assumption.
    intros c Hm. apply (Hn c). now apply moment_dicts.
Qed.
Lemma refers_dicts k rk : refers K ds' k rk <-> refers K ds k rk.
Proof using HO. clear HF. unfold refers. rewrite cons_dicts, total_dicts. reflexivity. Qed.
Lemma given_dicts l rk x v : given_value K ds l rk x v -> given_value K ds' l rk x v.
Proof using HO.
  intros [(l1 & k & w & l2 & H1 & H2 & H3 & H4)|[H1 H2]].
  - left. exists l1, k, w, l2. split; [exact H1|]. split; [now apply refers_dicts|]. split; [|exact H4]. intros p Hp C. apply (H3 p Hp). now apply refers_dicts.
  - right. split; [|exact H2]. intros p Hp C. apply (H1 p Hp). now apply refers_dicts.
Qed.
Lemma initial_dicts l x f : initial_state K simp ds l x f -> initial_state K simp ds' l x (fun k => f (pi k)).
Proof using HO HF.
  intros [A1 A2]. split.
  - intros rk c b i Hr Hm. rewrite mom_dicts. apply given_dicts. rewrite cons_dicts in Hr. apply (A1 rk c b i Hr). now apply moment_dicts.
  - intros val Hv b i d' Hb Hi. apply dicts_nth_inv in Hb. destruct Hb as (o & d & E1 & E2 & ->). destruct (ho_nth b d E2) as (o' & E3 & Eo). rewrite E1 in E3. injection E3 as <-.
    rewrite (nv_reorder o d Eo) in Hi. rewrite mom_dicts, (eqv_dict o d i _ (nth_error_In _ _ E2)). apply A2; try assumption.
    intros c b' i' Hm. rewrite <- mom_dicts. apply Hv. now apply moment_dicts.
Qed.
Lemma closed_dicts t : BuildProofs.closed K ds t -> BuildProofs.closed K ds' t.
Proof using HO. unfold BuildProofs.closed. now rewrite cons_dicts. Qed.
Lemma ok_dicts : dict_ok K simp ds -> dict_ok K simp ds'.
Proof using HO HF.
  intros [H1 H2 H3 H4 H5 H6]. split.
  - apply Forall_forall. intros d' Hd'. destruct (dict_in d' Hd') as (o & d & Hd & -> & Eo). rewrite Forall_forall in H1. destruct (H1 d Hd) as (S1 & S2 & S3).
    unfold sized. rewrite (nv_reorder o d Eo). cbn [reorder_dict sd_s sd_M sd_P sd_eq sd_feq]. rewrite (HF d Hd) in *. cbn [option_map]. split; [exact S1|]. split; [|exact S3].
    intros C. apply S2. destruct (sd_M K d); [discriminate|reflexivity].
  - intros d' M Hd' HM. destruct (dict_in d' Hd') as (o & d & Hd & -> & Eo). cbn [reorder_dict sd_M] in HM. destruct (sd_M K d) as [M0|] eqn:EM; [|discriminate].
    pose proof (H2 d M0 Hd EM) as ->. apply In_nth_error in Hd'. destruct Hd' as [b Hb]. inversion HO as [|o0 d0 os0 l0 Q1 Q2 Q3 Q4]. inversion Q2. subst. cbn in Hb |- *. destruct b as [|[|b]]; try discriminate. exact (f_equal (fun x => match x with Some y => [y] | None => [] end) Hb).
  - now rewrite cons_dicts.
  - intros d' t Hd' Ht. destruct (dict_in d' Hd') as (o & d & Hd & -> & Eo). rewrite (eqs_dict o d Hd) in Ht. apply closed_dicts. now apply (H4 d).
  - intros d' t Hd' Ht. destruct (dict_in d' Hd') as (o & d & Hd & -> & Eo). apply closed_dicts. now apply (H5 d).
  - intros d' c g Hd' Hc. destruct (dict_in d' Hd') as (o & d & Hd & -> & Eo). apply closed_dicts. now apply (H6 d c).
Qed.
Lemma ordered_dicts : ordered K simp ds -> ordered K simp ds'.
Proof using HO HF. intros H rk c b i Hr Hm. rewrite cons_dicts in Hr. rewrite off_dicts. apply (H rk c); [exact Hr|]. now apply moment_dicts. Qed.
Lemma below_dicts dm : (forall d t, In d ds -> In t (sd_P K d) -> below K dm t) -> forall d t, In d ds' -> In t (sd_P K d) -> below K dm t.
Proof using HO. intros H d' t Hd' Ht. destruct (dict_in d' Hd') as (o & d & Hd & -> & Eo). now apply (H d). Qed.
Lemma data_dicts l : data_ok K ds l -> data_ok K ds' l.
Proof using HO.
  intros [H1 H2]. split; [exact H1|]. intros p Hp. destruct (H2 p Hp) as (rk & Hr & Hk). exists rk. split; [now rewrite total_dicts|]. now apply refers_dicts.
Qed.
Lemma values_dicts : (forall d t, In d ds -> In t (sd_s K d) -> vars K t = []) -> forall d t, In d ds' -> In t (sd_s K d) -> vars K t = [].
Proof using HO. intros H d' t Hd' Ht. destruct (dict_in d' Hd') as (o & d & Hd & -> & Eo). now apply (H d). Qed.
End Dicts.

(* ------------------------------------------------- simulations ------------- *)
Section Renumber.
Variables (dimz : Z) (schemes : list (list Z)) (st st' : stencil) (r r' : list Z) (g : grid) (es : list DomainModel.elem) (labs : list Z) (conds : Z -> list (nat * method)).
Variables (Dm Dm' : dom) (ms ms' : list (method * list blink)).
Variable os : list (list nat).
Notation schemes' := (reorders 0 os schemes).
Hypothesis HOz : Forall2 (fun o s => an_order o (length s)) os schemes.
Hypothesis ND : Forall (@NoDup Z) schemes.
Hypothesis E : serial dimz schemes st r g es labs conds Dm ms.
Hypothesis E' : serial dimz schemes' st' r' g es labs conds Dm' ms'.
Notation pi := (renum os).
Lemma oz_nth b s : nth_error schemes b = Some s -> exists o, nth_error os b = Some o /\ an_order o (length s).
Proof using HOz.
  clear E E' ND. revert b. induction HOz as [|o s0 os0 ss H1 H2 IH]; intros b Hb; [destruct b; discriminate|]. destruct b as [|b]; [injection Hb as ->; now exists o|]. now apply IH.
Qed.
Lemma start_schemes b : start os b = length (concat (firstn b schemes)).
Proof using HOz.
  clear E E' ND. unfold start. revert b. induction HOz as [|o s os0 ss H1 H2 IH]; intros b; [destruct b; reflexivity|]. destruct b as [|b]; [reflexivity|].
  cbn [firstn concat]. rewrite !app_length, (IH H2). now rewrite (order_len _ _ H1).
Qed.
Lemma start_schemes' b : start os b = length (concat (firstn b schemes')).
Proof using HOz.
  clear E E' ND. unfold start. revert b. induction HOz as [|o s os0 ss H1 H2 IH]; intros b; [destruct b; reflexivity|]. destruct b as [|b]; [reflexivity|].
  cbn [reorders firstn concat]. rewrite !app_length, (IH H2). now rewrite reorder_len.
Qed.
Lemma same_dom : Dm' = Dm.
Proof using E E'. pose proof (e_dom _ _ _ _ _ _ _ _ _ _ E). pose proof (e_dom _ _ _ _ _ _ _ _ _ _ E'). congruence. Qed.
Notation BF := (build_facts dimz schemes st (e_nn _ _ _ _ _ _ _ _ _ _ E) (e_build _ _ _ _ _ _ _ _ _ _ E)).
Notation BF' := (build_facts dimz schemes' st' (e_nn _ _ _ _ _ _ _ _ _ _ E') (e_build _ _ _ _ _ _ _ _ _ _ E')).
(* the table of all the velocities is the same *)
Lemma same_unique : sunique st' = sunique st.
Proof using E E'.
  pose proof (e_vel _ _ _ _ _ _ _ _ _ _ E) as V. rewrite (e_vel _ _ _ _ _ _ _ _ _ _ E') in V.
  pose proof (b_uwf _ _ _ BF) as W. pose proof (b_uwf _ _ _ BF') as W'. clear - V W W'. revert V. generalize dependent (sunique st). induction (sunique st') as [|v l IH]; intros [|w l'] W V; try discriminate; [reflexivity|].
  cbn [map] in V. injection V as V1 V2. inversion W as [|? ? [Ww _] Wt]. inversion W' as [|? ? [Wv _] Wt']. subst. f_equal; [now apply wf_coords_inj|]. now apply IH.
Qed.
Lemma row_start s i : row st s i = (start os s + i)%nat.
Proof using E HOz. rewrite start_schemes. unfold row. rewrite <- (b_v _ _ _ BF) at 1. rewrite firstn_map, <- concat_map. now rewrite map_length. Qed.
Lemma row_start' s i : row st' s i = (start os s + i)%nat.
Proof using E' HOz. rewrite start_schemes'. unfold row. rewrite <- (b_v _ _ _ BF') at 1. rewrite firstn_map, <- concat_map. now rewrite map_length. Qed.
Lemma num_inj v w : In v (sunique st) -> In w (sunique st) -> vnum v = vnum w -> v = w.
Proof using E.
  pose proof (b_ustrict _ _ _ BF) as S. intros Hv Hw Ev. apply In_nth_error in Hv. apply In_nth_error in Hw. destruct Hv as [i Hi]. destruct Hw as [j Hj].
  assert (i = j); [|subst; congruence]. pose proof (map_nth_error vnum _ _ Hi) as Mi. pose proof (map_nth_error vnum _ _ Hj) as Mj. rewrite Ev in Mi.
  assert (N : NoDup (map vnum (sunique st))) by (apply strictly_NoDup; exact S). rewrite NoDup_nth_error in N. apply N; [apply nth_error_Some; congruence|congruence].
Qed.
(* the velocity i of the scheme s after is the velocity nth i o before *)
Lemma vel_order s vs' i v : nth_error (sv st') s = Some vs' -> nth_error vs' i = Some v ->
  exists o vs, nth_error os s = Some o /\ nth_error (sv st) s = Some vs /\ an_order o (length vs) /\ (i < length vs)%nat /\ nth_error vs (nth i o 0%nat) = Some v.
Proof using E E' HOz.
  intros Hs Hi. pose proof (map_nth_error (map vnum) _ _ Hs) as Ms. rewrite (b_v _ _ _ BF') in Ms.
  assert (Ls : (s < length schemes)%nat).
  { assert (L : length schemes' = length schemes) by (apply reorders_len; exact (Forall2_length _ _ _ HOz)). rewrite <- L. apply nth_error_Some. congruence. }
  destruct (nth_error schemes s) as [sc|] eqn:Es; [|apply nth_error_None in Es; lia]. destruct (oz_nth s sc Es) as (o & Eo & Oo).
  rewrite (reorders_nth 0 os schemes s o sc Eo Es) in Ms. injection Ms as Ms.
  pose proof (b_v _ _ _ BF) as EV. pose proof Es as Es2. rewrite <- EV in Es2. rewrite nth_error_map in Es2. destruct (nth_error (sv st) s) as [vs|] eqn:Ev; [|discriminate]. injection Es2 as Es2.
  assert (Lv : length vs = length sc) by (rewrite <- Es2; symmetry; apply map_length). rewrite <- Lv in Oo.
  assert (Li : (i < length vs)%nat).
  { assert (L' : length vs' = length o) by (apply (f_equal (@length Z)) in Ms; rewrite reorder_len, map_length in Ms; lia). rewrite <- (order_len _ _ Oo), <- L'. apply nth_error_Some. congruence. }
  exists o, vs. repeat (split; [assumption || reflexivity|]).
  destruct (nth_error vs (nth i o 0%nat)) as [w|] eqn:Ew; [|apply nth_error_None in Ew; pose proof (order_in o _ i Oo Li); lia]. f_equal.
  apply num_inj; [eapply (b_vin _ _ _ BF); eapply nth_error_In; eauto|rewrite <- same_unique; eapply (b_vin _ _ _ BF'); eapply nth_error_In; eauto|].
  assert (X : nth i (reorder 0 o sc) 0 = vnum v) by (rewrite Ms; now rewrite (nth_error_nth _ _ _ (map_nth_error vnum _ _ Hi))).
  rewrite <- X, reorder_nth by (now rewrite (order_len _ _ Oo)). rewrite <- Es2. symmetry. now rewrite (nth_error_nth _ _ _ (map_nth_error vnum _ _ Ew)).
Qed.
Lemma len_rows : length (concat schemes') = length (concat schemes).
Proof using HOz.
  clear E E' ND. induction HOz as [|o s os0 ss H1 H2 IH]; [reflexivity|]. cbn [reorders concat]. rewrite !app_length, (IH H2), reorder_len. now rewrite (order_len _ _ H1).
Qed.
Notation n := (length (concat schemes)).
Lemma pi_row k : (k < n)%nat -> exists s vs vs' i j v, nth_error (sv st') s = Some vs' /\ nth_error vs' i = Some v /\ nth_error (sv st) s = Some vs /\ nth_error vs j = Some v /\
  k = row st' s i /\ pi k = row st s j.
Proof using E E' HOz.
  intros Hk. rewrite <- len_rows in Hk. destruct (VesselProofs.row_of dimz schemes' st' r' g Dm' conds _ ms' (serial_setting _ _ _ _ _ _ _ _ _ _ E') k Hk) as (s & vs' & i & v & Hs & Hi & -> & _).
  destruct (vel_order s vs' i v Hs Hi) as (o & vs & Eo & Ev & Oo & Li & Hj). exists s, vs, vs', i, (nth i o 0%nat), v. repeat (split; [assumption || reflexivity|]).
  rewrite row_start', row_start. apply renum_at; [exact Eo|]. now rewrite (order_len _ _ Oo).
Qed.
Lemma pi_velk k : (k < n)%nat -> velk st (pi k) = velk st' k.
Proof using E E' HOz.
  intros Hk. destruct (pi_row k Hk) as (s & vs & vs' & i & j & v & H1 & H2 & H3 & H4 & -> & ->). now rewrite (row_velk st s vs j v H3 H4), (row_velk st' s vs' i v H1 H2).
Qed.
Lemma sym_row s vs i v : nth_error (sv st) s = Some vs -> nth_error vs i = Some v -> exists j u, nth_error vs j = Some u /\ vel_list u = map Z.opp (vel_list v) /\ symk r (row st s i) = row st s j.
Proof using E HOz.
  intros Hs Hi. destruct (C07_lemma dimz schemes st None (e_nn _ _ _ _ _ _ _ _ _ _ E) (e_build _ _ _ _ _ _ _ _ _ _ E) ltac:(intros; discriminate)) as [_ T].
  destruct (T r (e_sym _ _ _ _ _ _ _ _ _ _ E)) as (_ & T2 & _). destruct (T2 s i vs v Hs Hi) as (j & u & Hj & Eu & Er). exists j, u. split; [exact Hj|]. split.
  - change (vel_list u) with (vcoords u). rewrite Eu. apply sym_coords_opp.
  - rewrite !row_start, start_schemes. unfold symk. rewrite (nth_error_nth _ _ _ Er). apply Nat2Z.id.
Qed.
Lemma sym_row' s vs i v : nth_error (sv st') s = Some vs -> nth_error vs i = Some v -> exists j u, nth_error vs j = Some u /\ vel_list u = map Z.opp (vel_list v) /\ symk r' (row st' s i) = row st' s j.
Proof using E' HOz.
  intros Hs Hi. destruct (C07_lemma dimz schemes' st' None (e_nn _ _ _ _ _ _ _ _ _ _ E') (e_build _ _ _ _ _ _ _ _ _ _ E') ltac:(intros; discriminate)) as [_ T].
  destruct (T r' (e_sym _ _ _ _ _ _ _ _ _ _ E')) as (_ & T2 & _). destruct (T2 s i vs v Hs Hi) as (j & u & Hj & Eu & Er). exists j, u. split; [exact Hj|]. split.
  - change (vel_list u) with (vcoords u). rewrite Eu. apply sym_coords_opp.
  - rewrite !row_start', start_schemes'. unfold symk. rewrite (nth_error_nth _ _ _ Er). apply Nat2Z.id.
Qed.
Lemma pi_symk k : (k < n)%nat -> symk r (pi k) = pi (symk r' k).
Proof using E E' HOz ND.
  intros Hk. destruct (pi_row k Hk) as (s & vs & vs' & i & j & v & H1 & H2 & H3 & H4 & -> & ->).
  destruct (sym_row s vs j v H3 H4) as (j2 & u & U1 & U2 & ->). destruct (sym_row' s vs' i v H1 H2) as (i2 & u' & V1 & V2 & ->).
  destruct (vel_order s vs' i2 u' H1 V1) as (o & vs0 & Eo & Ev & Oo & Li & Hj). rewrite H3 in Ev. injection Ev as <-.
  rewrite row_start', row_start, (renum_at os s o i2 Eo) by (now rewrite (order_len _ _ Oo)). f_equal.
  assert (Eu : u = u').
  { assert (Wu : forall w, In w vs -> wf_velocity w).
    { intros w Hw. pose proof (b_uwf _ _ _ BF) as W. rewrite Forall_forall in W. apply W. eapply (b_vin _ _ _ BF); [eapply nth_error_In; eauto|exact Hw]. }
    apply wf_coords_inj; [apply Wu; eapply nth_error_In; eauto|apply Wu; eapply nth_error_In; eauto|]. change (vel_list u = vel_list u'). congruence. }
  subst u'. assert (N : NoDup vs).
  { apply (NoDup_map_inv vnum). rewrite Forall_forall in ND. apply ND. rewrite <- (b_v _ _ _ BF). apply in_map. eapply nth_error_In; eauto. }
  rewrite NoDup_nth_error in N. apply N; [apply nth_error_Some; congruence|congruence].
Qed.
Lemma pi_lt_n k : (k < n)%nat -> (pi k < n)%nat.
Proof using E E' HOz.
  intros Hk. destruct (pi_row k Hk) as (s & vs & vs' & i & j & v & H1 & H2 & H3 & H4 & _ & ->).
  assert (L : length (concat (sv st)) = n) by (rewrite <- (b_v _ _ _ BF), <- concat_map, map_length; reflexivity). rewrite <- L. unfold row. clear - H3 H4. revert s H3.
  induction (sv st) as [|ws l IH]; intros [|s] Hs; cbn in Hs; try discriminate.
  - injection Hs as ->. cbn. rewrite app_length. assert (j < length vs)%nat by (apply nth_error_Some; congruence). lia.
  - cbn [firstn concat]. rewrite !app_length. specialize (IH s Hs). lia.
Qed.
(* the links of the boundary *)
Lemma link_order m b' : has ms' m b' -> (b_k b' < n)%nat /\ exists b, has ms m b /\ b_k b = pi (b_k b') /\ b_cell b = b_cell b' /\ b_lab b = b_lab b' /\ b_dist b = b_dist b'.
Proof using E E' HOz.
  pose proof (boundary_links dimz schemes st (e_nn _ _ _ _ _ _ _ _ _ _ E) (e_build _ _ _ _ _ _ _ _ _ _ E) g Dm conds _ ms (e_bound _ _ _ _ _ _ _ _ _ _ E)) as BL.
  pose proof (boundary_links dimz schemes' st' (e_nn _ _ _ _ _ _ _ _ _ _ E') (e_build _ _ _ _ _ _ _ _ _ _ E') g Dm' conds _ ms' (e_bound _ _ _ _ _ _ _ _ _ _ E')) as BL'.
  intros Hb. apply BL' in Hb. destruct Hb as (lab & s & vs' & i & v & num & w & x & Hlab & N1 & N2 & Hc & Hs & Hi & Hw & Ew & Hx & Hf & ->). cbn [b_k b_cell b_lab b_dist].
  destruct (vel_order s vs' i v Hs Hi) as (o & vs & Eo & Ev & Oo & Li & Hj). split.
  { assert (L : length (concat (sv st')) = n) by (rewrite <- len_rows, <- (b_v _ _ _ BF'), <- concat_map, map_length; reflexivity). rewrite <- L. unfold row. clear - Hs Hi. revert s Hs.
    induction (sv st') as [|ws l IH]; intros [|s] Hs; cbn in Hs; try discriminate.
    - injection Hs as ->. cbn. rewrite app_length. assert (i < length vs')%nat by (apply nth_error_Some; congruence). lia.
    - cbn [firstn concat]. rewrite !app_length. specialize (IH s Hs). lia. }
  rewrite same_dom in *. rewrite same_unique in Hw. exists (mkB (row st s (nth i o 0%nat)) (shift g x (vel_list w)) lab (l_dist (d_link Dm num x)) (l_norm (d_link Dm num x))). cbn [b_k b_cell b_lab b_dist]. split.
  - apply BL. exists lab, s, vs, (nth i o 0%nat), v, num, w, x. repeat (split; [assumption|]). reflexivity.
  - split; [|repeat split; reflexivity]. rewrite row_start', row_start. symmetry. apply renum_at; [exact Eo|]. now rewrite (order_len _ _ Oo).
Qed.
Lemma link_back m b : has ms m b -> exists b', has ms' m b' /\ b_k b = pi (b_k b') /\ b_cell b = b_cell b'.
Proof using E E' HOz.
  pose proof (boundary_links dimz schemes st (e_nn _ _ _ _ _ _ _ _ _ _ E) (e_build _ _ _ _ _ _ _ _ _ _ E) g Dm conds _ ms (e_bound _ _ _ _ _ _ _ _ _ _ E)) as BL.
  pose proof (boundary_links dimz schemes' st' (e_nn _ _ _ _ _ _ _ _ _ _ E') (e_build _ _ _ _ _ _ _ _ _ _ E') g Dm' conds _ ms' (e_bound _ _ _ _ _ _ _ _ _ _ E')) as BL'.
  intros Hb. apply BL in Hb. destruct Hb as (lab & s & vs & j & v & num & w & x & Hlab & N1 & N2 & Hc & Hs & Hj & Hw & Ew & Hx & Hf & ->). cbn [b_k b_cell].
  pose proof (map_nth_error (map vnum) _ _ Hs) as Ms. rewrite (b_v _ _ _ BF) in Ms. destruct (oz_nth s _ Ms) as (o & Eo & Oo). rewrite map_length in Oo.
  assert (Lj : (j < length vs)%nat) by (apply nth_error_Some; congruence). destruct (order_onto o _ j Oo Lj) as (i & Li & Ei).
  pose proof (reorders_nth 0 os schemes s o _ Eo Ms) as Ms'. rewrite <- (b_v _ _ _ BF') in Ms'. rewrite nth_error_map in Ms'. destruct (nth_error (sv st') s) as [vs'|] eqn:Es; [|discriminate]. injection Ms' as Ms'.
  assert (L' : length vs' = length vs) by (apply (f_equal (@length Z)) in Ms'; rewrite reorder_len, map_length, (order_len _ _ Oo) in Ms'; exact Ms').
  destruct (nth_error vs' i) as [v'|] eqn:Hi; [|apply nth_error_None in Hi; lia]. destruct (vel_order s vs' i v' Es Hi) as (o' & vs0 & Eo' & Ev & _ & _ & Hv). rewrite Eo in Eo'. injection Eo' as <-. rewrite Hs in Ev. injection Ev as <-.
  rewrite Ei, Hj in Hv. injection Hv as <-.
  exists (mkB (row st' s i) (shift g x (vel_list w)) lab (l_dist (d_link Dm num x)) (l_norm (d_link Dm num x))). cbn [b_k b_cell]. split; [|split; [|reflexivity]].
  - apply BL'. exists lab, s, vs', i, v, num, w, x. rewrite same_dom, same_unique. repeat (split; [assumption|]). reflexivity.
  - rewrite row_start', row_start, (renum_at os s o i Eo) by (now rewrite (order_len _ _ Oo)). now rewrite Ei.
Qed.
Definition pip (p : nat * cell) : nat * cell := (pi (fst p), snd p).
Lemma ahead_order b b' : (b_k b' < n)%nat -> b_k b = pi (b_k b') -> b_cell b = b_cell b' -> ahead g (velk st) b = ahead g (velk st') b' /\ ahead2 g (velk st) b = ahead2 g (velk st') b' /\ forall ax, ahead_axis g (velk st) ax b = ahead_axis g (velk st') ax b'.
Proof using E E' HOz. intros Hk E1 E2. unfold ahead, ahead2, ahead_axis. now rewrite E1, E2, (pi_velk _ Hk). Qed.
Lemma load0_order m b b' : (b_k b' < n)%nat -> b_k b = pi (b_k b') -> b_cell b = b_cell b' -> b_dist b = b_dist b' -> iload0 g (velk st) (symk r) m b = pip (iload0 g (velk st') (symk r') m b').
Proof using E E' HOz ND.
  intros Hk E1 E2 E3. destruct (ahead_order b b' Hk E1 E2) as (A1 & A2 & A3). unfold iload0, pip. destruct m; unfold near; rewrite ?A1, ?A2, ?A3, ?E1, ?E3, ?(pi_symk _ Hk); try reflexivity;
    destruct (Qltb _ _); reflexivity.
Qed.
Lemma load1_order b b' : (b_k b' < n)%nat -> b_k b = pi (b_k b') -> b_cell b = b_cell b' -> b_dist b = b_dist b' -> iload1 g (velk st) (symk r) b = pip (iload1 g (velk st') (symk r') b').
Proof using E E' HOz ND.
  intros Hk E1 E2 E3. destruct (ahead_order b b' Hk E1 E2) as (A1 & A2 & A3). unfold iload1, near, pip. rewrite ?A1, ?A2, ?E1, ?E3, ?(pi_symk _ Hk). destruct (Qltb _ _); reflexivity.
Qed.
Lemma sym_lt_n k : (k < n)%nat -> (symk r' k < n)%nat.
Proof using E' HOz ND.
  intros Hk. rewrite <- len_rows in Hk. destruct (VesselProofs.row_of dimz schemes' st' r' g Dm' conds _ ms' (serial_setting _ _ _ _ _ _ _ _ _ _ E') k Hk) as (s & vs' & i & v & Hs & Hi & -> & _).
  destruct (sym_row' s vs' i v Hs Hi) as (j & u & Hj & _ & ->).
  assert (L : length (concat (sv st')) = n) by (rewrite <- len_rows, <- (b_v _ _ _ BF'), <- concat_map, map_length; reflexivity). rewrite <- L. unfold row. clear - Hs Hj. revert s Hs.
  induction (sv st') as [|ws l IH]; intros [|s] Hs; cbn in Hs; try discriminate.
  - injection Hs as ->. cbn. rewrite app_length. assert (j < length vs')%nat by (apply nth_error_Some; congruence). lia.
  - cbn [firstn concat]. rewrite !app_length. specialize (IH s Hs). lia.
Qed.
Lemma quiet_order : quiet st r g ms -> quiet st' r' g ms'.
Proof using E E' HOz ND.
  intros HQ m b' p Hb' Hp Hw. destruct (link_order m b' Hb') as (Hk & b & Hb & E1 & E2 & E3 & E4).
  apply ParallelProofs.written_has in Hw. destruct Hw as (m2 & b2' & Hb2' & Ep). destruct (link_order m2 b2' Hb2') as (_ & b2 & Hb2 & F1 & F2 & _).
  apply (HQ m b (pip p) Hb).
  - assert (L : loads g (velk st) (symk r) m b = map pip (loads g (velk st') (symk r') m b')) by (unfold loads; destruct m; cbn [map]; now rewrite ?(load0_order _ b b' Hk E1 E2 E4), ?(load1_order b b' Hk E1 E2 E4)).
    rewrite L. now apply in_map.
  - assert (X : pip p = key b2) by (rewrite <- Ep; unfold pip, key; cbn [fst snd]; now rewrite F1, F2). rewrite X. now apply (has_written ms m2).
Qed.
Variables (K : ring) (qk : Q -> K).
Add Ring Kring3 : (rth K).
Definition pfield (G : list Z -> vec K) : list Z -> vec K := fun x k => G x (pi k).
(* the equilibria of the walls, in the new order *)
Definition pwalls (phi phi' : Z -> list Q -> nat -> K) : Prop := forall lab x k, (k < n)%nat -> phi' lab x k = phi lab x (pi k).
Lemma wall_order b b' : (b_k b' < n)%nat -> b_k b = pi (b_k b') -> b_cell b = b_cell b' -> b_dist b = b_dist b' -> wall_point st g b = wall_point st' g b'.
Proof using E E' HOz.
  intros Hk E1 E2 E3. unfold wall_point. apply map_ext. intros d. unfold bcoord. change (nth (b_k b') (get_all_velocities st') []) with (velk st' (b_k b')). change (nth (b_k b) (get_all_velocities st) []) with (velk st (b_k b)).
  now rewrite E1, E2, E3, (pi_velk _ Hk).
Qed.
Lemma bvalue_order phi phi' G m b b' : pwalls phi phi' -> (b_k b' < n)%nat -> b_k b = pi (b_k b') -> b_cell b = b_cell b' -> b_lab b = b_lab b' -> b_dist b = b_dist b' ->
  bvalue K qk g (velk st') (symk r') (feq_of st' phi' g) m (gfield g K (pfield G)) b' = bvalue K qk g (velk st) (symk r) (feq_of st phi g) m (gfield g K G) b.
Proof using E E' HOz ND.
  intros HW Hk E1 E2 E3 E4. assert (A : forall p, at_ K (gfield g K (pfield G)) p = at_ K (gfield g K G) (pip p)) by (intros [k c]; reflexivity).
  assert (F : forall k, (k < n)%nat -> feq_of st' phi' g b' k = feq_of st phi g b (pi k)) by (intros k Hk'; unfold feq_of; rewrite E3, (wall_order b b' Hk E1 E2 E4); now apply HW).
  pose proof (sym_lt_n _ Hk) as Hs. unfold bvalue. cbv zeta. rewrite E4. destruct m; unfold rhs; rewrite ?A, ?(load0_order _ b b' Hk E1 E2 E4), ?(load1_order b b' Hk E1 E2 E4), ?F, ?E1, ?(pi_symk _ Hk) by assumption; reflexivity.
Qed.
Lemma arrives_order phi phi' G x j v : pwalls phi phi' -> (j < n)%nat -> (forall k k', (k < n)%nat -> (k' < n)%nat -> pi k = pi k' -> k = k') ->
  arrives st r g ms K qk phi G x (pi j) v -> arrives st' r' g ms' K qk phi' (pfield G) x j v.
Proof using E E' HOz ND.
  intros HW Hj HI. unfold arrives. cbv zeta. unfold before. rewrite (pi_velk j Hj). intros [(m & b & H1 & H2 & H3 & ->)|[H1 ->]].
  - left. destruct (link_back m b H1) as (b' & B1 & B2 & B3). destruct (link_order m b' B1) as (Hk & b2 & C1 & C2 & C3 & C4 & C5).
    exists m, b'. split; [exact B1|]. split; [apply HI; [exact Hk|exact Hj|congruence]|]. split; [congruence|].
    assert (Eb : b2 = b).
    { pose proof (serial_setting _ _ _ _ _ _ _ _ _ _ E) as SS. apply (links_one _ _ _ _ _ _ _ _ _ SS m b2 m b C1 H1). unfold key. congruence. }
    subst b2. symmetry. now apply bvalue_order.
  - right. split; [|reflexivity]. intros m b' Hb' [C1 C2]. destruct (link_order m b' Hb') as (_ & b & D1 & D2 & D3 & _). apply (H1 m b D1). split; congruence.
Qed.

Variable inv : nat -> mat K -> option (mat K).
Variable simp : term K -> term K.
Variables (dm : nat) (hdt : K) (ds : list (sdict K)) (a a' : salgo K).
Notation ds' := (reorder_dicts K os ds).
Hypothesis HI : inv_spec K inv.
Hypothesis HSi : simp_spec K simp.
Hypothesis D : dict_ok K simp ds.
Hypothesis O : ordered K simp ds.
Hypothesis EB : build K inv simp None dm hdt ds = Some a.
Hypothesis EB' : build K inv simp None dm hdt ds' = Some a'.
Hypothesis HPl : forall d t, In d ds -> In t (sd_P K d) -> below K dm t.
Hypothesis Hsz : map (nv K) ds = map (@length Z) schemes.
Hypothesis HFq : forall d, In d ds -> sd_feq K d = None.
Hypothesis HQ : quiet st r g ms.
Notation at_cell x := (point g (cell_of g x)).
Lemma orders_ds : Forall2 (fun o d => an_order o (nv K d)) os ds.
Proof using HOz Hsz.
  clear - HOz Hsz. revert ds Hsz. induction HOz as [|o s os0 ss H1 H2 IH]; intros [|d l] H; try discriminate; [constructor|]. cbn [map] in H. injection H as H3 H4. constructor; [now rewrite H3|]. now apply IH.
Qed.
Lemma sizes_order : map (nv K) ds' = map (@length Z) schemes'.
Proof using HOz Hsz.
  rewrite (nv_dicts K os ds orders_ds), Hsz. clear - HOz. induction HOz as [|o s os0 ss H1 H2 IH]; [reflexivity|]. cbn [reorders map]. now rewrite (IH H2), reorder_len, (order_len _ _ H1).
Qed.
Lemma total_n : SchemeModel.total (sizes K ds) = n.
Proof using Hsz. unfold sizes. rewrite Hsz. clear. unfold SchemeModel.total. induction schemes as [|s l IH]; [reflexivity|]. cbn [map fold_right concat]. now rewrite app_length, IH. Qed.
Lemma history_order phis phis' G : (forall t, pwalls (phis t) (phis' t)) -> history st r g ms K qk simp hdt ds phis G -> history st' r' g ms' K qk simp hdt ds' phis' (fun t => pfield (G t)).
Proof using E E' HOz ND Hsz HFq.
  intros HW H t x. destruct (H t x) as (f & F1 & F2). exists (fun k => f (pi k)). split; [|exact (collided_dicts K simp os ds orders_ds HFq hdt f _ F2)].
  intros j Hj. rewrite (total_dicts K os ds orders_ds), total_n in Hj. apply (arrives_order (phis t)); [apply HW|exact Hj| |].
  - intros k k' Hk Hk'. rewrite <- total_n in Hk, Hk'. now apply (pi_inj K os ds orders_ds).
  - apply F1. rewrite total_n. now apply pi_lt_n.
Qed.
(* C93: the dictionary in which the velocities of each scheme are in another order gives the same
   simulation, with the distributions in the other order. *)
Theorem C93_order l phis phis' : data_ok K ds l -> walls_ok K phis -> walls_ok K phis' -> (forall t, pwalls (phis t) (phis' t)) ->
  exists G, simulates st r g es labs conds K qk inv simp ds a l phis G /\ simulates st' r' g es labs conds K qk inv simp ds' a' l phis' (fun t x k => G t x (pi k)) /\
    forall t x b i, mom K ds' (fun k => G t x (pi k)) b i = mom K ds (G t x) b i.
Proof using E E' HOz ND HI HSi D O EB EB' HPl Hsz HFq HQ.
  intros Hl Hp Hp' HW. pose proof orders_ds as Hod.
  destruct (flow dimz schemes st r g es labs conds Dm ms E K qk inv simp dm hdt ds a HI HSi D O EB HPl Hsz HQ l phis Hl Hp) as (G & G0 & GH & GS).
  exists G. split; [exact GS|]. split; [|intros t x b i; exact (mom_dicts K os ds Hod (G t x) b i)].
  apply (sim_of dimz schemes' st' r' g es labs conds Dm' ms' E' K qk inv simp dm hdt ds' a' HI HSi (ok_dicts K simp os ds Hod HFq D) (ordered_dicts K simp os ds Hod HFq O) EB' (below_dicts K os ds Hod dm HPl) sizes_order (quiet_order HQ)).
  - now apply data_dicts.
  - exact Hp'.
  - now apply (history_order phis).
  - intros x Hx. apply (initial_dicts K simp os ds Hod HFq l _ (G 0%nat x)). now apply G0.
Qed.
End Renumber.
Print Assumptions C93_order.

(* ------------------------------------------------- the other order is accepted *)
Lemma strictly_unique l l' : strictly l -> strictly l' -> (forall x, In x l <-> In x l') -> l = l'.
Proof.
  unfold strictly. intros H. revert l'. induction H as [|a l H IH HF]; intros l' H' E.
  - destruct l' as [|b l']; [reflexivity|]. destruct (proj2 (E b)). now left.
  - destruct H' as [|b l' H' HF']; [destruct (proj1 (E a)); now left|]. rewrite Forall_forall in HF, HF'.
    assert (a = b).
    { destruct (proj1 (E a) (or_introl eq_refl)) as [->|Ha]; [reflexivity|]. destruct (proj2 (E b) (or_introl eq_refl)) as [->|Hb]; [reflexivity|]. specialize (HF b Hb). specialize (HF' a Ha). lia. }
    subst b. f_equal. apply IH; [exact H'|]. intros x. split; intros Hx.
    + destruct (proj1 (E x) (or_intror Hx)) as [->|Hx']; [specialize (HF x Hx); lia|exact Hx'].
    + destruct (proj2 (E x) (or_intror Hx)) as [->|Hx']; [specialize (HF' x Hx); lia|exact Hx'].
Qed.
Section Accepted.
Variables (dimz : Z) (schemes : list (list Z)) (st : stencil) (r : list Z) (g : grid) (es : list DomainModel.elem) (labs : list Z) (conds : Z -> list (nat * method)).
Variables (Dm : dom) (ms : list (method * list blink)).
Variable os : list (list nat).
Notation schemes' := (reorders 0 os schemes).
Hypothesis HOz : Forall2 (fun o s => an_order o (length s)) os schemes.
Hypothesis E : serial dimz schemes st r g es labs conds Dm ms.
Lemma reorders_in s' : In s' schemes' -> exists s, In s schemes /\ Permutation s' s.
Proof using HOz.
  clear E. induction HOz as [|o s os0 ss H1 H2 IH]; cbn [reorders]; [intros []|]. intros [<-|H]; [exists s; split; [now left|now apply reorder_perm]|]. destruct (IH H2 H) as (s0 & Hs & Hp). exists s0. split; [now right|exact Hp].
Qed.
Lemma reorders_in' s : In s schemes -> exists s', In s' schemes' /\ Permutation s' s.
Proof using HOz.
  clear E. induction HOz as [|o s0 os0 ss H1 H2 IH]; cbn [reorders]; [intros []|]. intros [<-|H]; [exists (reorder 0 o s0); split; [now left|now apply reorder_perm]|]. destruct (IH H2 H) as (s' & Hs & Hp). exists s'. split; [now right|exact Hp].
Qed.
Lemma unique_order : unique_indices schemes' = unique_indices schemes.
Proof using HOz.
  destruct (unique_spec schemes) as [S1 S2]. destruct (unique_spec schemes') as [S1' S2']. apply strictly_unique; [exact S1'|exact S1|]. intros x. rewrite S2, S2'. split; intros (s & Hs & Hx).
  - destruct (reorders_in s Hs) as (s0 & H1 & H2). exists s0. split; [exact H1|]. now apply (Permutation_in _ H2).
  - destruct (reorders_in' s Hs) as (s0 & H1 & H2). exists s0. split; [exact H1|]. now apply (Permutation_in _ (Permutation_sym H2)).
Qed.
Lemma ptr_order p : nv_ptr_from p schemes' = nv_ptr_from p schemes.
Proof using HOz.
  clear E. revert p. induction HOz as [|o s os0 ss H1 H2 IH]; intros p; [reflexivity|]. cbn [reorders nv_ptr_from]. rewrite (IH H2), reorder_len. now rewrite (order_len _ _ H1).
Qed.
Lemma stencil_order : exists st', build_stencil dimz schemes' = Some st' /\ sunique st' = sunique st /\ sunum2index st' = sunum2index st /\ snv_ptr st' = snv_ptr st.
Proof using E HOz.
  pose proof (e_build _ _ _ _ _ _ _ _ _ _ E) as B. unfold build_stencil in *. rewrite unique_order. destruct (mapM (vel_of_num dimz) (unique_indices schemes)) as [uv|]; [|discriminate].
  destruct (mapM (scheme_velocities uv) schemes) as [v|] eqn:E2; [|discriminate]. destruct (make_unum2index (map vnum uv)) as [u2i|]; [|discriminate].
  destruct (existsb _ schemes) eqn:Ex; [discriminate|]. injection B as <-.
  assert (T : exists v', mapM (scheme_velocities uv) schemes' = Some v').
  { apply mapM_total. intros s' Hs'. destruct (reorders_in s' Hs') as (s & Hs & Hp). pose proof (mapM_in _ _ _ E2) as M. apply In_nth_error in Hs. destruct Hs as [k Hk]. destruct (mapM_nth _ _ _ E2 k s Hk) as (w & _ & Hw).
    unfold scheme_velocities in *. apply mapM_total. intros x Hx. apply (Permutation_in _ Hp) in Hx. apply In_nth_error in Hx. destruct Hx as [j Hj]. destruct (mapM_nth _ _ _ Hw j x Hj) as (y & _ & Hy). now exists y. }
  destruct T as [v' ->].
  assert (Ex' : existsb (fun s => match s with [] => true | _ => false end) schemes' = false).
  { apply Bool.not_true_is_false. intros C. apply existsb_exists in C. destruct C as (s' & Hs' & Hn). destruct (reorders_in s' Hs') as (s & Hs & Hp). destruct s' as [|x s']; [|discriminate]. apply Permutation_nil in Hp. subst s.
    assert (C : existsb (fun s : list Z => match s with [] => true | _ => false end) schemes = true) by (apply existsb_exists; exists []; now split). congruence. }
  rewrite Ex'. eexists. split; [reflexivity|]. cbn. repeat split. apply ptr_order.
Qed.
Theorem C93_accepted : exists st' r' ms', serial dimz schemes' st' r' g es labs conds Dm ms'.
Proof using E HOz.
  destruct stencil_order as (st' & B & U & V & P). pose proof E as [E1 E2 E3 E4 Ed E5 E6 E7 E8 Eo Et El E9 E10].
  assert (N' : nonneg schemes').
  { intros s' x Hs' Hx. destruct (reorders_in s' Hs') as (s & Hs & Hp). apply (E1 s x Hs). now apply (Permutation_in _ Hp). }
  pose proof (build_facts dimz schemes st E1 E2) as BF. pose proof (build_facts dimz schemes' st' N' B) as BF'.
  assert (IV : forall vs', In vs' (sv st') -> exists vs, In vs (sv st) /\ forall v, In v vs <-> In v vs').
  { intros vs' Hv'. pose proof (in_map (map vnum) _ _ Hv') as M. rewrite (b_v _ _ _ BF') in M. destruct (reorders_in _ M) as (s & Hs & Hp). rewrite <- (b_v _ _ _ BF) in Hs. apply in_map_iff in Hs. destruct Hs as (vs & <- & Hv).
    exists vs. split; [exact Hv|]. assert (J : forall v w, In v (sunique st) -> In w (sunique st) -> vnum v = vnum w -> v = w).
    { intros v w Iv Iw Ev. pose proof (b_uwf _ _ _ BF) as W. rewrite Forall_forall in W. pose proof (strictly_NoDup _ (b_ustrict _ _ _ BF)) as NDu. apply In_nth_error in Iv. apply In_nth_error in Iw. destruct Iv as [i Hi]. destruct Iw as [j Hj].
      assert (i = j); [|subst; congruence]. pose proof (map_nth_error vnum _ _ Hi) as Mi. pose proof (map_nth_error vnum _ _ Hj) as Mj. rewrite NoDup_nth_error in NDu. apply NDu; [apply nth_error_Some; congruence|congruence]. }
    intros v. split; intros Iv.
    - pose proof (Permutation_in _ (Permutation_sym Hp) (in_map vnum _ _ Iv)) as I2. apply in_map_iff in I2. destruct I2 as (w & Ew & Iw). assert (w = v); [|now subst]. apply J; [rewrite <- U; now apply (b_vin _ _ _ BF' vs')|now apply (b_vin _ _ _ BF vs)|exact Ew].
    - pose proof (Permutation_in _ Hp (in_map vnum _ _ Iv)) as I2. apply in_map_iff in I2. destruct I2 as (w & Ew & Iw). assert (w = v); [|now subst]. apply J; [now apply (b_vin _ _ _ BF vs)|rewrite <- U; now apply (b_vin _ _ _ BF' vs')|exact Ew]. }
  assert (SC : exists r', stencil_get_symmetric st' None = Some r').
  { apply (proj1 (C07_lemma dimz schemes' st' None N' B ltac:(intros; discriminate))). pose proof (proj1 (proj1 (C07_lemma dimz schemes st None E1 E2 ltac:(intros; discriminate))) (ex_intro _ r E3)) as S. rewrite Forall_forall in *.
    intros vs' Hv' v Hv. destruct (IV vs' Hv') as (vs & I1 & I2). destruct (S vs I1 v (proj2 (I2 v) Hv)) as (w & Hw & Ew). exists w. split; [now apply I2|exact Ew]. }
  destruct SC as [r' Hr'].
  assert (BM : exists ms', boundary st' g Dm conds (labels_of g labs) = Some ms').
  { assert (BT : forall lab, bv_table st' g Dm lab = bv_table st g Dm lab).
    { intros lab. unfold bv_table. rewrite U. assert (X : forall l, mapM (bvel st' g Dm lab) l = mapM (bvel st g Dm lab) l); [|apply X]. induction l as [|k l IH]; [reflexivity|]. cbn [mapM]. rewrite IH.
      unfold bvel at 1. rewrite U, V. reflexivity. }
    unfold boundary in *. destruct (mapM (label_links st g Dm conds) (labels_of g labs)) as [ls|] eqn:EM; [|discriminate].
    assert (T : exists ls', mapM (label_links st' g Dm conds) (labels_of g labs) = Some ls'); [|destruct T as [ls' ->]; eexists; reflexivity].
    apply mapM_total. intros lab Hlab. apply In_nth_error in Hlab. destruct Hlab as [k Hk]. destruct (mapM_nth _ _ _ EM k lab Hk) as (y & _ & Hy). unfold label_links in *. destruct (_ || _); [eexists; reflexivity|].
    rewrite BT. destruct (bv_table st g Dm lab) as [tab|]; [|discriminate]. destruct (mapM (scheme_links st tab lab) (conds lab)) as [z|] eqn:Ez; [|discriminate].
    assert (T : exists z', mapM (scheme_links st' tab lab) (conds lab) = Some z'); [|destruct T as [z' ->]; eexists; reflexivity].
    apply mapM_total. intros [s m] Hsm. apply In_nth_error in Hsm. destruct Hsm as [k2 Hk2]. destruct (mapM_nth _ _ _ Ez k2 _ Hk2) as (y2 & _ & Hy2). unfold scheme_links in *. cbn [fst snd] in *.
    destruct (nth_error (sv st) s) as [vs|] eqn:Es; [|discriminate]. destruct (mapM (velocity_links st tab lab s) (numbered vs)) as [y3|] eqn:E3'; [|discriminate].
    assert (Ls : (s < length (sv st'))%nat).
    { assert (L1 : length (sv st') = length schemes') by (rewrite <- (b_v _ _ _ BF'), map_length; reflexivity). assert (L2 : length (sv st) = length schemes) by (rewrite <- (b_v _ _ _ BF), map_length; reflexivity).
      rewrite L1, (reorders_len 0 os schemes) by (exact (Forall2_length _ _ _ HOz)). rewrite <- L2. apply nth_error_Some. congruence. }
    destruct (nth_error (sv st') s) as [vs'|] eqn:Es'; [|apply nth_error_None in Es'; lia].
    assert (T : exists z', mapM (velocity_links st' tab lab s) (numbered vs') = Some z'); [|destruct T as [z' ->]; eexists; reflexivity].
    apply mapM_total. intros [i v] Hiv. apply numbered_in in Hiv. unfold velocity_links. cbn [fst snd]. rewrite V, P.
    (* v is a velocity of the scheme s before *)
    assert (Iv : exists j, nth_error vs j = Some v).
    { pose proof (map_nth_error (map vnum) _ _ Es) as M. rewrite (b_v _ _ _ BF) in M. destruct (nth_error os s) as [o|] eqn:Eos.
      - pose proof (reorders_nth 0 os schemes s o _ Eos M) as M'. rewrite <- (b_v _ _ _ BF'), (map_nth_error (map vnum) _ _ Es') in M'. injection M' as M'.
        assert (Oo : an_order o (length (map vnum vs))).
        { clear - HOz Eos M. revert s Eos M. induction HOz as [|o0 s0 os0 ss H1 H2 IH]; intros s Eos M; [destruct s; discriminate|]. destruct s as [|s]; [cbn in *; congruence|]. now apply (IH H2 s). }
        pose proof (reorder_perm 0 o _ Oo) as Hp. rewrite <- M' in Hp. pose proof (Permutation_in _ Hp (in_map vnum _ _ (nth_error_In _ _ Hiv))) as I2. apply in_map_iff in I2. destruct I2 as (w & Ew & Iw). apply In_nth_error in Iw. destruct Iw as [j Hj]. exists j. rewrite Hj. f_equal.
        pose proof (strictly_NoDup _ (b_ustrict _ _ _ BF)) as NDu.
        assert (Iw : In w (sunique st)) by (apply (b_vin _ _ _ BF vs); [eapply nth_error_In; eauto|eapply nth_error_In; eauto]).
        assert (Iv : In v (sunique st)) by (rewrite <- U; apply (b_vin _ _ _ BF' vs'); [eapply nth_error_In; eauto|eapply nth_error_In; eauto]).
        apply In_nth_error in Iv. apply In_nth_error in Iw. destruct Iv as [i1 Hi1]. destruct Iw as [j1 Hj1]. assert (i1 = j1); [|subst; congruence]. pose proof (map_nth_error vnum _ _ Hi1) as Mi. pose proof (map_nth_error vnum _ _ Hj1) as Mj. rewrite NoDup_nth_error in NDu. apply NDu; [apply nth_error_Some; congruence|congruence].
      - exfalso. apply nth_error_None in Eos. pose proof (Forall2_length _ _ _ HOz) as L. assert (s < length schemes)%nat by (apply nth_error_Some; congruence). lia. }
    destruct Iv as [j Hj]. assert (Hn : In (j, v) (numbered vs)) by (now apply numbered_in). apply In_nth_error in Hn. destruct Hn as [k3 Hk3]. destruct (mapM_nth _ _ _ E3' k3 _ Hk3) as (y4 & _ & Hy4).
    unfold velocity_links in Hy4. cbn [fst snd] in Hy4. destruct (nth_error (sunum2index st) (Z.to_nat (vnum v))); [|discriminate]. destruct (nth_error (snv_ptr st) s); [|discriminate]. destruct (nth_error tab (Z.to_nat z0)); [|discriminate]. eexists. reflexivity. }
  destruct BM as [ms' Hm']. exists st', r', ms'. split; try assumption. now rewrite U.
Qed.
End Accepted.
Print Assumptions C93_accepted.

(* ------------------------------------------------- examples *)
(* The diffusion of C87 between two walls, with the velocities 0, 1, -1 and in the order -1, 0, 1. *)
Definition os3 : list (list nat) := [[2; 0; 1]%nat].
Definition ocands : list (mat QcR) := qcands ++ [qm [[1 # 4; - (1 # 2); 1 # 2]; [1 # 2; 0; - 1]; [1 # 4; 1 # 2; 1 # 2]]%Q].
Definition obuild (ds : list (sdict QcR)) : option (salgo QcR) := build QcR (qinv ocands) qsimp None 1 (Q2Qc 0) ds.
Lemma order3 : Forall2 (fun o s => an_order o (length s)) os3 [[0; 1; 2]].
Proof. constructor; [|constructor]. change (Permutation ([2] ++ [0; 1])%nat ([0; 1] ++ [2])%nat). apply Permutation_app_comm. Qed.
Example C93_example : reorders 0 os3 [[0; 1; 2]] = [[2; 0; 1]] /\ map (renum os3) [0; 1; 2]%nat = [2; 0; 1]%nat /\
  exists st' r' ms' a a', serial 1 [[2; 0; 1]] st' r' v3line [] [] bb D3 ms' /\ obuild [dq (1 # 2) (1 # 3)] = Some a /\ obuild (reorder_dicts QcR os3 [dq (1 # 2) (1 # 3)]) = Some a' /\ exists G,
  simulates st3 [0; 2; 1] v3line [] [] bb QcR Q2Qc (qinv ocands) qsimp [dq (1 # 2) (1 # 3)] a [(ISym 5, qfun)] qphi G /\
  simulates st' r' v3line [] [] bb QcR Q2Qc (qinv ocands) qsimp (reorder_dicts QcR os3 [dq (1 # 2) (1 # 3)]) a' [(ISym 5, qfun)] qphi (fun t x k => G t x (renum os3 k)).
Proof.
  split; [reflexivity|]. split; [reflexivity|]. destruct (C93_accepted 1 [[0; 1; 2]] st3 [0; 2; 1] v3line [] [] bb D3 ms3 os3 order3 serial3) as (st' & r' & ms' & S').
  destruct (built_some (obuild [dq (1 # 2) (1 # 3)])) as [a Ea]; [vm_compute; reflexivity|]. destruct (built_some (obuild (reorder_dicts QcR os3 [dq (1 # 2) (1 # 3)]))) as [a' Ea']; [vm_compute; reflexivity|].
  exists st', r', ms', a, a'. split; [exact S'|]. split; [exact Ea|]. split; [exact Ea'|].
  destruct (C93_order 1 [[0; 1; 2]] st3 st' [0; 2; 1] r' v3line [] [] bb D3 D3 ms3 ms' os3 order3 ltac:(repeat constructor; cbn; intuition discriminate) serial3 S' QcR Q2Qc (qinv ocands) qsimp 1 (Q2Qc 0) [dq (1 # 2) (1 # 3)] a a' (qinv_ok _) qsimp_ok (dq_ok _ _) (dq_ordered _ _) Ea Ea'
    (dq_below _ _) eq_refl) with (l := [(ISym 5%nat, qfun)]) (phis := qphi) (phis' := qphi) as (G & G1 & G2 & _).
  - intros d [<-|[]]. reflexivity.
  - exact quiet3.
  - apply qdata_ok.
  - exact qphi_ok.
  - exact qphi_ok.
  - intros t lab x k Hk. reflexivity.
  - exists G. now split.
Qed.

(* Without `quiet`, the order of the velocities changes the results: the Bouzidi anti bounce back of the
   Cython code updates the links in the order of the velocities and reads what it has written (C19). *)
Definition line_st2 : stencil := match build_stencil 1 [[0; 2; 1]] with Some st => st | None => st0 end.
Definition chan_ms2 (m : method) : list (method * list blink) :=
  match boundary line_st2 (line [0; 0]) chan_D (fun _ => [(0%nat, m)]) [0; 5] with Some ms => ms | None => [] end.
Lemma chan_setting2 m : setting 1 [[0; 2; 1]] line_st2 [0; 2; 1] (line [0; 0]) chan_D (fun _ => [(0%nat, m)]) [0; 5] (chan_ms2 m).
Proof.
  destruct (chan_setting m) as [H1 H2 H3 H4 H5 H6 H7 H8]. split; try assumption; try reflexivity; try (destruct m; reflexivity).
  all: intros s x [<-|[]] Hx; cbn in Hx; lia.
Qed.
Theorem C93_order_refuted : exists dimz schemes os st st' r r' g D conds labels ms ms' (F : dfield QcR) k y,
  Forall2 (fun o s => an_order o (length s)) os schemes /\ setting dimz schemes st r g D conds labels ms /\ setting dimz (reorders 0 os schemes) st' r' g D conds labels ms' /\
  boundary_condition QcR Q2Qc g (velk st') (symk r') (fun _ _ => 0%Qc) Cython ms' (fun k => F (renum os k)) k y <>
  boundary_condition QcR Q2Qc g (velk st) (symk r) (fun _ _ => 0%Qc) Cython ms F (renum os k) y.
Proof.
  exists 1, [[0; 1; 2]], [[0; 2; 1]%nat], line_st, line_st2, [0; 2; 1], [0; 2; 1], (line [0; 0]), chan_D, (fun _ => [(0%nat, MBouzidiAnti)]), [0; 5], (chan_ms MBouzidiAnti), (chan_ms2 MBouzidiAnti).
  exists (fun k c => Q2Qc (inject_Z (10 * Z.of_nat k + c@0))), 1%nat, [5].
  split; [constructor; [|constructor]; apply perm_skip; apply perm_swap|]. split; [apply chan_setting|]. split; [exact (chan_setting2 MBouzidiAnti)|].
  intros C. apply (f_equal (fun q : Qc => this q)) in C. vm_compute in C. discriminate.
Qed.
Print Assumptions C93_order_refuted.
