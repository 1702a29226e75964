(* C64: the step which is computed is the step described by the dictionary. *)
From Verif Require Import PyBase VelocityModel GridModel StorageModel ExchangeProofs LinAlg AlgoModel AlgoProofs RelVelProofs KernelProofs GlobalModel GlobalProofs TorusProofs AlgoProps GlobalProps GenModel GenProofs GenProps StepGenModel StepGenProofs StepGenProps SchemeModel SchemeProofs SchemeProps BuildModel BuildProofs.
Require Import Lia.

Section Terms.
Variable K : ring.
Lemma nth_in_or {A : Type} (P : A -> Prop) (l : list A) k x : P x -> (forall y, In y l -> P y) -> P (nth k l x).
Proof. intros Hx H. destruct (nth_in_or_default k l x) as [Hi| ->]; auto. Qed.
Lemma tsum_below k (g : nat -> term K) m : (forall j, (j < m)%nat -> below K k (g j)) -> below K k (tsum K m g).
Proof.
  intros H. unfold tsum. assert (L : forall l, (forall j, In j l -> (j < m)%nat) -> below K k (fold_right (fun j t => tadd K (g j) t) (Num 0%K) l)).
  { induction l as [|j l IH]; intros Hl i Hi; cbn in Hi; [contradiction|]. apply in_app_iff in Hi as [Hi|Hi]; [apply (H j); [apply Hl; now left|exact Hi]|].
    apply IH; [intros; apply Hl; now right|exact Hi]. }
  apply L. intros j Hj. apply in_seq in Hj. lia.
Qed.
Lemma tsubst_below k (s : nat -> term K) t : (forall i, In i (vars K t) -> below K k (s i)) -> below K k (tsubst K s t).
Proof.
  induction t as [c|i|o t IH|o t1 IH1 t2 IH2]; cbn; intros H.
  - intros i [].
  - apply H. now left.
  - now apply IH.
  - intros i Hi. cbn in Hi. apply in_app_iff in Hi as [Hi|Hi]; [apply (IH1 (fun j Hj => H j (in_or_app _ _ _ (or_introl Hj))) i Hi)|apply (IH2 (fun j Hj => H j (in_or_app _ _ _ (or_intror Hj))) i Hi)].
Qed.
Lemma translation_below inv rel dim ds i j : (forall d t, In d ds -> In t (sd_P K d) -> below K dim t) -> below K dim (translation K inv rel ds i j).
Proof.
  intros HP. unfold translation. destruct (given K ds); [intros x []|]. destruct rel; [|intros x []]. destruct (moment_blocks K inv ds) as [[Bs Cs]|]; [|intros x []].
  assert (HPc : forall t, In t (concat (map (sd_P K) ds)) -> below K dim t).
  { intros t Ht. apply in_concat in Ht as (l' & Hl & Ht). apply in_map_iff in Hl as (d & <- & Hd). exact (HP d t Hd Ht). }
  revert HPc. generalize (concat (map (sd_P K) ds)). intros P HPc. clear - HPc. revert i j Cs. generalize 0%nat.
  induction ds as [|d t IH]; intros ptr i j Cs; [intros x []|]. destruct Cs as [|[m C] Cs]; [intros x []|]. cbn [rel_blocks assemble_terms].
  destruct (Nat.ltb i (nv K d)); destruct (Nat.ltb j (nv K d)); [|intros x []|intros x []|apply IH].
  apply tsum_below. intros l _ x Hx. cbn in Hx. apply in_app_iff in Hx as [Hx|[]]. revert Hx. apply tsubst_below.
  intros c Hc y Hy. cbn in Hy. destruct Hy as [<-|[]]. revert Hc. apply (nth_in_or (below K dim)); [intros z []|].
  intros t' Ht. apply HPc. unfold slice in Ht. assert (F : forall m (l : list (term K)) x, In x (firstn m l) -> In x l).
  { clear. induction m as [|m IH]; intros [|y l] x H; cbn in H; try contradiction. destruct H as [->|H]; [now left|right; now apply IH]. }
  assert (F' : forall m (l : list (term K)) x, In x (skipn m l) -> In x l).
  { clear. induction m as [|m IH]; intros [|y l] x H; cbn in H; try contradiction; [exact H|]. right. now apply IH. }
  apply F in Ht. now apply F' in Ht.
Qed.

(* The collision described by the dictionary: f' are the distributions after the collision of f.
   In the order of the dictionary, each conserved moment gets two half steps of its source and
   each other moment relaxes to its equilibrium with its parameter, for the values val1 of the
   conserved moments between the two half steps. *)
Definition collided simp hdt ds (f f' : vec K) : Prop := forall val : vec K,
  (forall c b i, is_moment K simp ds c b i -> val c = mom K ds f b i) ->
  let val1 := half K hdt ds val in
  (forall c b i, is_moment K simp ds c b i -> mom K ds f' b i = half K hdt ds val1 c) /\
  (forall b i d, nth_error ds b = Some d -> (i < nv K d)%nat -> (forall c, ~ is_moment K simp ds c b i) ->
     let s := teval K val1 (nth i (sd_s K d) (Num 0%K)) in
     mom K ds f' b i = ((1 - s) * mom K ds f b i + s * eqv K d i val1)%K).
Lemma mom_agree ds (f g : vec K) b i : agree K (total (sizes K ds)) f g -> mom K ds f b i = mom K ds g b i.
Proof.
  intros H. unfold mom. destruct (nth_error ds b) as [d|] eqn:E; [|reflexivity]. apply sum_ext. intros j Hj.
  rewrite H; [reflexivity|]. exact (off_total K ds b d j E Hj).
Qed.
Lemma collided_agree simp hdt ds (f g f' g' : vec K) : agree K (total (sizes K ds)) f g -> agree K (total (sizes K ds)) f' g' ->
  collided simp hdt ds f f' -> collided simp hdt ds g g'.
Proof.
  intros Hf Hf' H val HV. destruct (H val) as [H1 H2].
  - intros c b i Hm. rewrite (HV c b i Hm). symmetry. now apply mom_agree.
  - split.
    + intros c b i Hm. rewrite <- (H1 c b i Hm). symmetry. now apply mom_agree.
    + intros b i d E Hi Hn. rewrite <- (mom_agree ds f g b i Hf), <- (mom_agree ds f' g' b i Hf'). now apply H2.
Qed.
Lemma moment_dec simp ds b i : (exists c, is_moment K simp ds c b i) \/ (forall c, ~ is_moment K simp ds c b i).
Proof.
  destruct (nth_error ds b) as [d|] eqn:E; [|right; intros c (d & H & _); congruence].
  destruct (lt_dec i (nv K d)) as [Hi|Hi]; [|right; intros c (d' & H & _ & H' & _); replace d' with d in H' by congruence; contradiction].
  destruct (nth i (eqs K simp d) (Num 0%K)) as [x|c|o t|o t1 t2] eqn:Et;
    try (right; intros c0 (d' & H & _ & _ & H' & _); replace d' with d in H' by congruence; congruence).
  destruct (in_dec Nat.eq_dec c (sd_cons K d)) as [Hc|Hc]; [|right; intros c0 (d' & H & H0 & _ & H' & _); replace d' with d in H', H0 by congruence; rewrite Et in H'; injection H' as <-; contradiction].
  assert (X : (exists j, (j < i)%nat /\ nth j (eqs K simp d) (Num 0%K) = Var c) \/ (forall j, (j < i)%nat -> nth j (eqs K simp d) (Num 0%K) <> Var c)).
  { clear. induction i as [|i [(j & H1 & H2)|H]]; [right; intros; lia|left; exists j; split; [lia|exact H2]|].
    assert (Y : nth i (eqs K simp d) (Num 0%K) = Var c \/ nth i (eqs K simp d) (Num 0%K) <> Var c).
    { destruct (nth i (eqs K simp d) (Num 0%K)) as [x|c'|o t|o t1 t2]; try (right; discriminate). destruct (Nat.eq_dec c' c) as [->|Ne]; [now left|right; congruence]. }
    destruct Y as [Y|Y]; [left; exists i; split; [lia|exact Y]|right]. intros j Hj. destruct (Nat.eq_dec j i) as [->|Ne]; [exact Y|apply H; lia]. }
  destruct X as [(j & Hj & Ej)|X].
  - right. intros c0 (d' & H & _ & _ & H1 & H2). replace d' with d in H1, H2 by congruence. rewrite Et in H1. injection H1 as <-. now apply (H2 j Hj).
  - left. exists c, d. auto.
Qed.
End Terms.

Section Dict.
Variable K : ring.
Add Ring Kring : (rth K).
Variable inv : nat -> mat K -> option (mat K).
Variable simp : term K -> term K.
Variables (rel : option (list (term K))) (dim : nat) (hdt : K).
Variable ds : list (sdict K).
Variable a : salgo K.
Hypothesis HI : inv_spec K inv.
Hypothesis HSi : simp_spec K simp.
Hypothesis D : dict_ok K simp ds.
Hypothesis O : ordered K simp ds.
Hypothesis E : build K inv simp rel dim hdt ds = Some a.
(* the relative velocity is a list of expressions of the conserved moments, the polynomials are
   expressions of the coordinates *)
Hypothesis HR : forall l j, rel = Some l -> closed K ds (nth j l (Num 0%K)).
Hypothesis HP : forall d t, In d ds -> In t (sd_P K d) -> below K dim t.
Notation n := (total (sizes K ds)).
Notation cs := (conserved K ds).
Notation al := (algo_of K a).

Lemma closed_num c : closed K ds (Num c).
Proof. intros x []. Qed.
Lemma closed_eq k : closed K ds (nth k (concat (map (eqs K simp) ds)) (Num 0%K)).
Proof using D.
  apply (nth_in_or (closed K ds)); [apply closed_num|]. intros t Ht. apply in_concat in Ht as (l & Hl & Ht). apply in_map_iff in Hl as (d & <- & Hd).
  exact (do_eq K simp ds D d t Hd Ht).
Qed.
Lemma closed_s k : closed K ds (nth k (concat (map (sd_s K) ds)) (Num 0%K)).
Proof using D.
  apply (nth_in_or (closed K ds)); [apply closed_num|]. intros t Ht. apply in_concat in Ht as (l & Hl & Ht). apply in_map_iff in Hl as (d & <- & Hd).
  exact (do_s K simp ds D d t Hd Ht).
Qed.
Lemma moment_unique c b i b' i' : is_moment K simp ds c b i -> is_moment K simp ds c b' i' -> b = b' /\ i = i'.
Proof using D.
  intros (d & H1 & H2 & H3 & H4 & H5) (d' & H1' & H2' & H3' & H4' & H5').
  assert (b = b') as ->.
  { pose proof (do_distinct K simp ds D) as ND. unfold conserved in ND. clear - H1 H1' H2 H2' ND. revert b b' H1 H1'.
    induction ds as [|d0 l IH]; intros [|b] [|b'] H1 H1'; try discriminate; cbn in H1, H1', ND; apply NoDup_app_inv in ND as (N1 & N2 & N3).
    - reflexivity.
    - injection H1 as ->. exfalso. apply (N3 c H2). apply in_concat. exists (sd_cons K d'). split; [apply in_map; now apply nth_error_In in H1'|exact H2'].
    - injection H1' as ->. exfalso. apply (N3 c H2'). apply in_concat. exists (sd_cons K d). split; [apply in_map; now apply nth_error_In in H1|exact H2].
    - f_equal. now apply IH. }
  split; [reflexivity|]. assert (d' = d) by congruence. subst d'.
  destruct (Nat.lt_trichotomy i i') as [L|[L|L]]; [|exact L|]; exfalso; [now apply (H5' i L)|now apply (H5 i' L)].
Qed.

Lemma built_ok : scheme_ok K a.
Proof using HI D O E HR HP.
  destruct (build_built K simp inv hdt rel dim ds a HI D E) as (M & N & sg & B).
  pose proof (do_distinct K simp ds D) as ND. destruct B. constructor.
  - now rewrite bu_nc, bu_n.
  - intros k Hk. rewrite bu_eq, bu_nc. apply rename_below; [exact ND|apply closed_eq].
  - intros k Hk. rewrite bu_nc in Hk. rewrite bu_eq. destruct (nth_error cs k) as [c|] eqn:Ec; [|apply nth_error_None in Ec; lia].
    destruct (bu_found c (nth_error_In _ _ Ec)) as (b & i & Hm). rewrite (bu_front O k c b i Ec Hm). destruct Hm as (d & H1 & H2 & H3 & H4 & H5).
    rewrite (nth_concat K (eqs K simp) (Num 0%K) ds b d i); [|apply Forall_forall; intros x Hx; apply eqs_length; exact (proj1 (Forall_forall _ _) (do_sized K simp ds D) x Hx)|exact H1|exact H3].
    rewrite H4. cbn. unfold ranks. now rewrite (ranks_get cs k c ND Ec).
  - intros k Hk. rewrite bu_s, bu_nc. apply rename_below; [exact ND|apply closed_s].
  - intros r j Er Hj. rewrite bu_rel in Er. destruct rel as [l|]; [|discriminate]. injection Er as <-. rewrite bu_nc. apply rename_below; [exact ND|]. now apply HR.
  - intros i j Hi Hj. rewrite bu_Tu, bu_dim. apply translation_below. exact HP.
  - intros k g Hg. rewrite bu_n. apply below_le with (n := length cs); [exact bu_le|].
    pose proof (sources_map K _ _ _ _ bu_src) as F. destruct (In_nth_error _ _ Hg) as [q Hq].
    assert (F2 : exists p, In p (concat (map (sd_src K) ds)) /\ g = rename K n (ranks cs) (snd p)).
    { clear - F Hq. revert q Hq. induction F as [|p x l r [H1 H2] F IH]; intros q Hq; [destruct q; discriminate|]. destruct q as [|q]; cbn in Hq.
      - injection Hq as ->. exists p. split; [now left|exact H2].
      - destruct (IH q Hq) as (p' & Hp & Ep). exists p'. split; [now right|exact Ep]. }
    destruct F2 as ([c g'] & Hp & ->). cbn. apply rename_below; [exact ND|].
    apply in_concat in Hp as (l & Hl & Hp). apply in_map_iff in Hl as (d & <- & Hd). exact (do_src K simp ds D d c g' Hd Hp).
Qed.

Theorem C64_step (f : vec K) : collided K simp hdt ds f (collide K al f).
Proof using HI HSi D O E HR HP.
  intros val HV val1. set (f' := collide K al f). pose proof built_ok as SO. destruct (scheme_algo K a SO) as (He & Hs & _).
  destruct (build_built K simp inv hdt rel dim ds a HI D E) as (M & N & sg & B). pose proof (do_distinct K simp ds D) as ND.
  set (m0 := mvmul n (sa_M K a) f).
  assert (M0 : forall k, m0 k = mvmul n M f (sg k)) by (intros k; apply sum_ext; intros j _; now rewrite (bu_M _ _ _ _ _ _ _ _ _ _ _ B)).
  assert (V0 : values K cs m0 val).
  { intros r c Hr. destruct (bu_found _ _ _ _ _ _ _ _ _ _ _ B c (nth_error_In _ _ Hr)) as (b & i & Hm). rewrite (HV c b i Hm), M0.
    rewrite (bu_front _ _ _ _ _ _ _ _ _ _ _ B O r c b i Hr Hm). destruct Hm as (d & H1 & _ & H3 & _). exact (bu_moments _ _ _ _ _ _ _ _ _ _ _ B f b d i H1 H3). }
  destruct (half_values K simp inv hdt rel dim ds a M N sg D B m0 val V0) as [V1 O1]. fold val1 in V1. set (m1 := half_source K al m0) in *.
  set (m2 := relax_formula K al m1).
  assert (N2 : forall k, m2 k = (m1 k + teval K m1 (sa_s K a k) * (teval K m1 (sa_eq K a k) - m1 k))%K) by reflexivity.
  assert (V2 : values K cs m2 val1).
  { intros r c Hr. rewrite N2. destruct He as (_ & _ & _ & He). change (teval K m1 (sa_eq K a r)) with (al_eq al m1 r). rewrite (He m1 r). 2:{ cbn. rewrite (bu_nc _ _ _ _ _ _ _ _ _ _ _ B). apply nth_error_Some. congruence. }
    rewrite (V1 r c Hr). ring. }
  destruct (half_values K simp inv hdt rel dim ds a M N sg D B m2 val1 V2) as [V3 O3]. set (m3 := half_source K al m2) in *.
  assert (F : forall k, (k < n)%nat -> mvmul n M f' (sg k) = m3 k).
  { intros k Hk. unfold f', collide. cbn [al_n al_M al_invM algo_of]. rewrite (bu_n _ _ _ _ _ _ _ _ _ _ _ B). fold m0. fold m1. fold m2. fold m3.
    transitivity (mvmul n (sa_M K a) (mvmul n (sa_invM K a) m3) k); [apply sum_ext; intros j _; now rewrite (bu_M _ _ _ _ _ _ _ _ _ _ _ B)|].
    apply mvmul_inverse; [|exact Hk]. pose proof (bu_inverse _ _ _ _ _ _ _ _ _ _ _ B) as [I1 _]. intros i j Hi Hj. unfold mmul.
    rewrite (sum_ext K n _ (fun q => (M (sg i) q * N q (sg j))%K)) by (intros q _; now rewrite (bu_M _ _ _ _ _ _ _ _ _ _ _ B), (bu_invM _ _ _ _ _ _ _ _ _ _ _ B)).
    change (sum n _) with (mmul n M N (sg i) (sg j)). rewrite I1 by now apply (bu_lt _ _ _ _ _ _ _ _ _ _ _ B). unfold idm.
    destruct (Nat.eqb_spec i j) as [->|Ne]; [now rewrite Nat.eqb_refl|]. destruct (Nat.eqb_spec (sg i) (sg j)) as [Es|]; [|reflexivity]. apply (bu_inj _ _ _ _ _ _ _ _ _ _ _ B) in Es. congruence. }
  split.
  - intros c b i Hm. pose proof Hm as (d & H1 & H2 & H3 & H4 & H5).
    assert (Hc : In c cs) by (apply in_concat; exists (sd_cons K d); split; [apply in_map; now apply nth_error_In in H1|exact H2]).
    destruct (In_nth_error _ _ Hc) as [r Hr].
    rewrite <- (bu_moments _ _ _ _ _ _ _ _ _ _ _ B f' b d i H1 H3), <- (bu_front _ _ _ _ _ _ _ _ _ _ _ B O r c b i Hr Hm).
    assert (Hl : (r < length cs)%nat) by (apply nth_error_Some; congruence). pose proof (bu_le _ _ _ _ _ _ _ _ _ _ _ B).
    rewrite F by lia. now apply V3.
  - intros b i d H1 H3 Hno s. pose proof (off_total K ds b d i H1 H3) as Hlt. destruct (bu_surj _ _ _ _ _ _ _ _ _ _ _ B _ Hlt) as (k & Hk & Es).
    assert (Hkc : (length cs <= k)%nat).
    { destruct (Nat.lt_ge_cases k (length cs)) as [L|L]; [|exact L]. exfalso. destruct (nth_error cs k) as [c|] eqn:Ec; [|apply nth_error_None in Ec; lia].
      destruct (bu_found _ _ _ _ _ _ _ _ _ _ _ B c (nth_error_In _ _ Ec)) as (b' & i' & Hm). pose proof (bu_front _ _ _ _ _ _ _ _ _ _ _ B O k c b' i' Ec Hm) as Ef.
      pose proof Hm as (d' & H1' & _ & H3' & _). destruct (off_inj K ds b b' d d' i i' H1 H1' H3 H3') as [-> ->]; [congruence|]. now apply (Hno c). }
    rewrite <- (bu_moments _ _ _ _ _ _ _ _ _ _ _ B f' b d i H1 H3), <- (bu_moments _ _ _ _ _ _ _ _ _ _ _ B f b d i H1 H3), <- Es, F by exact Hk.
    rewrite O3 by exact Hkc. rewrite N2. rewrite (O1 k Hkc), M0.
    rewrite (bu_s _ _ _ _ _ _ _ _ _ _ _ B), (bu_eq _ _ _ _ _ _ _ _ _ _ _ B), !Es.
    rewrite !(rename_eval K n cs m1 val1) by first [exact ND|exact V1|apply closed_eq|apply closed_s].
    pose proof (do_sized K simp ds D) as SZ.
    rewrite (nth_concat K (eqs K simp) (Num 0%K) ds b d i); [|apply Forall_forall; intros x Hx; apply eqs_length; exact (proj1 (Forall_forall _ _) SZ x Hx)|exact H1|exact H3].
    rewrite (nth_concat K (sd_s K) (Num 0%K) ds b d i); [|apply Forall_forall; intros x Hx; exact (proj1 (proj1 (Forall_forall _ _) SZ x Hx))|exact H1|exact H3].
    rewrite (eqs_eval K simp d i val1 HSi H3). fold s. ring.
Qed.

(* The description determines the values. *)
Theorem C64_determined (f f' f'' : vec K) : collided K simp hdt ds f f' -> collided K simp hdt ds f f'' -> agree K n f' f''.
Proof using HI D O E.
  intros H' H''. destruct (build_built K simp inv hdt rel dim ds a HI D E) as (M & N & sg & B).
  pose proof (do_distinct K simp ds D) as ND.
  set (val := fun c => match odict_get (ranks cs) c with Some r => mvmul n M f (sg r) | None => 0%K end).
  assert (HV : forall c b i, is_moment K simp ds c b i -> val c = mom K ds f b i).
  { intros c b i Hm. pose proof Hm as (d & H1 & H2 & H3 & _).
    assert (Hc : In c cs) by (apply in_concat; exists (sd_cons K d); split; [apply in_map; now apply nth_error_In in H1|exact H2]).
    destruct (In_nth_error _ _ Hc) as [r Hr]. unfold val, ranks. rewrite (ranks_get cs r c ND Hr).
    rewrite (bu_front _ _ _ _ _ _ _ _ _ _ _ B O r c b i Hr Hm). exact (bu_moments _ _ _ _ _ _ _ _ _ _ _ B f b d i H1 H3). }
  destruct (H' val HV) as [A1 A2]. destruct (H'' val HV) as [B1 B2].
  assert (EM : agree K n (mvmul n M f') (mvmul n M f'')).
  { intros k Hk. destruct (off_ex K ds k Hk) as (b & d & i & H1 & H3 & ->). rewrite !(bu_moments _ _ _ _ _ _ _ _ _ _ _ B _ b d i H1 H3).
    destruct (moment_dec K simp ds b i) as [[c Hm]|Hn]; [rewrite (A1 c b i Hm), (B1 c b i Hm); reflexivity|].
    rewrite (A2 b i d H1 H3 Hn), (B2 b i d H1 H3 Hn). reflexivity. }
  pose proof (bu_inverse _ _ _ _ _ _ _ _ _ _ _ B) as [_ I2]. intros k Hk.
  transitivity (mvmul n N (mvmul n M f') k); [symmetry; now apply mvmul_inverse|]. transitivity (mvmul n N (mvmul n M f'') k); [|now apply mvmul_inverse].
  apply mvmul_ext. exact EM.
Qed.
Lemma built_numpy : rel = None -> (forall d t, In d ds -> In t (sd_s K d) -> vars K t = []) -> numpy_ok K a.
Proof using HI D E.
  intros R H. destruct (build_built K simp inv hdt rel dim ds a HI D E) as (M & N & sg & B). constructor.
  - intros k _. rewrite (bu_s _ _ _ _ _ _ _ _ _ _ _ B).
    assert (V : forall t, vars K t = [] -> vars K (rename K n (ranks cs) t) = []).
    { clear. induction t as [x|c|o t IH|o t1 IH1 t2 IH2]; cbn; intros H; [reflexivity|discriminate|now apply IH|].
      apply app_eq_nil in H as [H1 H2]. now rewrite IH1, IH2. }
    apply V. apply (nth_in_or (fun t => vars K t = [])); [reflexivity|]. intros t Ht. apply in_concat in Ht as (l & Hl & Ht).
    apply in_map_iff in Hl as (d & <- & Hd). exact (H d t Hd Ht).
  - intros r j i Er. rewrite (bu_rel _ _ _ _ _ _ _ _ _ _ _ B), R in Er. discriminate.
Qed.
Lemma built_relvel : rel = None -> sa_relvel K a = None.
Proof using HI D E. intros R. destruct (build_built K simp inv hdt rel dim ds a HI D E) as (M & N & sg & B). now rewrite (bu_rel _ _ _ _ _ _ _ _ _ _ _ B), R. Qed.
Lemma built_size : sa_n K a = n.
Proof using HI D E. destruct (build_built K simp inv hdt rel dim ds a HI D E) as (M & N & sg & B). exact (bu_n _ _ _ _ _ _ _ _ _ _ _ B). Qed.
Lemma built_frame : rel = None -> frame_ok K al.
Proof using HI D E.
  intros R. destruct (build_built K simp inv hdt rel dim ds a HI D E) as (M & N & sg & B).
  assert (ET : forall u i j, al_Tu al u i j = idm i j).
  { intros u i j. cbn. rewrite (bu_Tu _ _ _ _ _ _ _ _ _ _ _ B), R. unfold translation. destruct (given K ds); cbn; unfold idm;
    (destruct (Nat.eqb_spec i j) as [->|Ne]; [now rewrite Nat.eqb_refl|]; destruct (Nat.eqb_spec (sg i) (sg j)) as [Es|]; [|reflexivity]; apply (bu_inj _ _ _ _ _ _ _ _ _ _ _ B) in Es; congruence). }
  assert (II : forall u w, is_id (sa_n K a) (mmul (sa_n K a) (al_Tu al u) (al_Tu al w))).
  { intros u w i j Hi Hj. unfold mmul. rewrite (sum_ext K _ _ (fun q => (idm i q * idm q j)%K)) by (intros q _; now rewrite !ET).
    exact (mmul_idm_l K (sa_n K a) idm i j Hi). }
  assert (IM : inverse (sa_n K a) (sa_M K a) (sa_invM K a)).
  { pose proof (bu_inverse _ _ _ _ _ _ _ _ _ _ _ B) as [I1 I2]. rewrite (bu_n _ _ _ _ _ _ _ _ _ _ _ B). split; intros i j Hi Hj; unfold mmul.
    - rewrite (sum_ext K n _ (fun q => (M (sg i) q * N q (sg j))%K)) by (intros q _; now rewrite (bu_M _ _ _ _ _ _ _ _ _ _ _ B), (bu_invM _ _ _ _ _ _ _ _ _ _ _ B)).
      change (sum n _) with (mmul n M N (sg i) (sg j)). rewrite I1 by now apply (bu_lt _ _ _ _ _ _ _ _ _ _ _ B). unfold idm.
      destruct (Nat.eqb_spec i j) as [->|Ne]; [now rewrite Nat.eqb_refl|]. destruct (Nat.eqb_spec (sg i) (sg j)) as [Es|]; [|reflexivity]. apply (bu_inj _ _ _ _ _ _ _ _ _ _ _ B) in Es. congruence.
    - rewrite (sum_ext K n _ (fun q => (N i (sg q) * M (sg q) j)%K)) by (intros q _; now rewrite (bu_M _ _ _ _ _ _ _ _ _ _ _ B), (bu_invM _ _ _ _ _ _ _ _ _ _ _ B)).
      rewrite (bu_sum _ _ _ _ _ _ _ _ _ _ _ B (fun q => (N i q * M q j)%K)). exact (I2 i j Hi Hj). }
  split; [exact IM|]. split; [intros u; split; apply II|]. intros u i j Hi Hj. rewrite ET. unfold idm. cbn in Hi. destruct (Nat.eqb_spec i j) as [->|]; [exfalso; clear - Hi; lia|reflexivity].
Qed.

(* ---- the generated kernels ---- *)
Hypothesis R : rel = None.
(* At each inner cell both back ends write the collision described by the dictionary, of the
   values which come from the neighbours. *)
Theorem C64_kernels pos vmax shape vel sh A (L0 : nat -> K) : pull_grid pos (sa_n K a) vmax shape vel sh ->
  (forall d t, In d ds -> In t (sd_s K d) -> vars K t = []) ->
  exists B L, numpy K (inner_ranges vmax shape) sh (numpy_kernel K a pos shape vel (spull K a)) A = Some (B, L) /\
  forall x, inbox (inner_ranges vmax shape) x ->
    collided K simp hdt ds (fun j => elt K pos A 0 (from vel x j) j)
      (fun k => elt K pos (fst (cython K (cython_kernel K a pos shape vel (spull K a)) (nest (inner_ranges vmax shape)) (A, L0))) 2 x k) /\
    collided K simp hdt ds (fun j => elt K pos A 0 (from vel x j) j) (fun k => elt K pos B 0 x k).
Proof using HI HSi D O E HR HP R.
  intros G Hn. destruct (C63_formula K a pos vmax shape vel sh G built_ok A L0 (built_relvel R) (built_numpy R Hn)) as (B & L & E1 & E2).
  exists B, L. split; [exact E1|]. intros x Hx. split.
  - apply (collided_agree K simp hdt ds (fun j => elt K pos A 0 (from vel x j) j) _ (collide K al (fun j => elt K pos A 0 (from vel x j) j)) _); [intros k _; reflexivity| |apply C64_step].
    intros k Hk. symmetry. apply (E2 x k Hx). now rewrite built_size.
  - apply (collided_agree K simp hdt ds (fun j => elt K pos A 0 (from vel x j) j) _ (collide K al (fun j => elt K pos A 0 (from vel x j) j)) _); [intros k _; reflexivity| |apply C64_step].
    intros k Hk. symmetry. apply (E2 x k Hx). now rewrite built_size.
Qed.

(* Any number of steps on any process grid: the values are those of fields on the whole periodic
   domain which follow the dictionary. *)
Section Grid.
Variables (pos : nat) (axes : list axis) (vel : nat -> list Z).
Hypothesis Hpos : (pos <= length axes)%nat.
Hypothesis F : GlobalProps.fits axes vel (sa_n K a).
Hypothesis NE : Forall (fun x => forall c, (c < ax_p x)%nat -> (ax_lo x c < ax_hi x c)%Z) axes.
Notation cyp := (cython_program K a pos axes vel).
Notation npp := (numpy_program K a pos axes vel).
Theorem C64_runs L0 (st : fields K * fields K) : exists G : nat -> list Z -> vec K,
  (forall t, holds K axes n (fst (iter t (gen_two K pos axes cyp L0) st)) (G t)) /\
  ((forall d t, In d ds -> In t (sd_s K d) -> vars K t = []) -> forall t, holds K axes n (fst (iter t (gen_one K pos axes (sa_n K a) npp) st)) (G t)) /\
  (forall t x, collided K simp hdt ds (fun j => G t (wrap axes (from vel x j)) j) (G (Datatypes.S t) x)).
Proof using HI HSi D O E HR HP R Hpos F NE.
  destruct (holds_ex K axes vel (sa_n K a) (fst st) F) as [G0 HG].
  exists (fun t => iter t (gstep K axes vel (pull_fun K al)) G0). rewrite <- built_size. split; [|split].
  - exact (gen_two_run K a pos axes vel Hpos F NE built_ok L0 st G0 HG).
  - intros Hn. exact (gen_one_run K a pos axes vel Hpos F NE built_ok st G0 (built_numpy R Hn) HG).
  - intros t x. cbn [iter]. destruct (scheme_algo K a built_ok) as (He & Hs & _).
    set (Gt := iter t (gstep K axes vel (pull_fun K al)) G0). unfold gstep.
    apply (collided_agree K simp hdt ds (fun j => Gt (wrap axes (shift_cell vel j x)) j) _ (collide K al (fun j => Gt (wrap axes (shift_cell vel j x)) j)) _); [intros k _; reflexivity| |apply C64_step].
    intros k Hk. symmetry. apply (pull_fun_collide K al _ He Hs); [cbn; now rewrite (built_relvel R)|]. cbn. now rewrite built_size.
Qed.
(* Without source terms the sum over all the cells of each conserved moment is constant. *)
Theorem C64_conservation L0 (st : fields K * fields K) ps c b i : Forall (fun x => (0 < ax_n x)%Z) axes ->
  (forall d, In d ds -> sd_src K d = []) -> NoDup ps -> (forall p, In p ps <-> coords_ok axes p) -> is_moment K simp ds c b i ->
  let q f := mom K ds f b i in
  forall t, TorusProofs.total K axes ps q (fst (iter t (gen_two K pos axes cyp L0) st)) = TorusProofs.total K axes ps q (fst st) /\
  ((forall d t, In d ds -> In t (sd_s K d) -> vars K t = []) ->
   TorusProofs.total K axes ps q (fst (iter t (gen_one K pos axes (sa_n K a) npp) st)) = TorusProofs.total K axes ps q (fst st)).
Proof using HI D O E HR HP R Hpos F NE.
  intros Hp Hs Hnd Hps Hm q t. destruct (build_built K simp inv hdt rel dim ds a HI D E) as (M & N & sg & B).
  pose proof Hm as (d & H1 & H2 & H3 & _).
  assert (Hc : In c cs) by (apply in_concat; exists (sd_cons K d); split; [apply in_map; now apply nth_error_In in H1|exact H2]).
  destruct (In_nth_error _ _ Hc) as [r Hr].
  assert (Hrc : (r < sa_nc K a)%nat) by (rewrite (bu_nc _ _ _ _ _ _ _ _ _ _ _ B); apply nth_error_Some; congruence).
  assert (HS : sa_source K a = []).
  { pose proof (bu_src _ _ _ _ _ _ _ _ _ _ _ B) as Es. replace (concat (map (sd_src K) ds)) with (@nil (nat * term K)) in Es; [cbn in Es; congruence|].
    clear - Hs. induction ds as [|d l IH]; [reflexivity|]. cbn. rewrite (Hs d) by now left. apply IH. intros d' Hd. apply Hs. now right. }
  assert (Eq : forall f, q f = mvmul (sa_n K a) (sa_M K a) f r).
  { intros f. unfold q. rewrite (bu_n _ _ _ _ _ _ _ _ _ _ _ B), <- (bu_moments _ _ _ _ _ _ _ _ _ _ _ B f b d i H1 H3), <- (bu_front _ _ _ _ _ _ _ _ _ _ _ B O r c b i Hr Hm).
    apply sum_ext. intros j _. now rewrite (bu_M _ _ _ _ _ _ _ _ _ _ _ B). }
  destruct (C63_conservation K a pos axes vel Hpos F NE built_ok L0 st ps r Hp HS (built_frame R) Hnd Hps Hrc t) as [C1 C2].
  assert (ET : forall X, TorusProofs.total K axes ps q X = TorusProofs.total K axes ps (fun f => mvmul (sa_n K a) (sa_M K a) f r) X).
  { intros X. unfold TorusProofs.total. apply sumL_ext. intros p _. apply sumL_ext. intros y _. apply Eq. }
  rewrite !ET. split; [exact C1|]. intros Hn. apply C2. now apply built_numpy.
Qed.
End Grid.
End Dict.
Print Assumptions C64_step.
Print Assumptions C64_determined.
Print Assumptions C64_kernels.
Print Assumptions C64_runs.
Print Assumptions C64_conservation.

(* The dictionary is not changed by the construction, without the key "M". *)
Theorem C64_kept (K : ring) inv simp (ds : list (sdict K)) : given K ds = None -> after K inv simp ds = ds.
Proof.
  intros H. unfold after. destruct (before_swap K inv simp ds); [|reflexivity]. destruct ds as [|d [|d' l]]; try reflexivity. cbn in H. now rewrite H.
Qed.
Print Assumptions C64_kept.

(* ------------------------------------------------------------------ examples *)
(* the inverse is looked for in a list *)
Definition zcheck (n : nat) (A B : mat Zring) : bool :=
  forallb (fun i => forallb (fun j => Z.eqb (mmul (K := Zring) n A B i j) (idm (K := Zring) i j) && Z.eqb (mmul (K := Zring) n B A i j) (idm (K := Zring) i j)) (seq 0 n)) (seq 0 n).
Definition zinv (cands : list (mat Zring)) (n : nat) (A : mat Zring) : option (mat Zring) := find (zcheck n A) cands.
Lemma zinv_ok cands : inv_spec Zring (zinv cands).
Proof.
  intros n A B E. unfold zinv in E. apply find_some in E as [_ E]. unfold zcheck in E. rewrite forallb_forall in E.
  split; intros i j Hi Hj; specialize (E i ltac:(apply in_seq; lia)); rewrite forallb_forall in E; specialize (E j ltac:(apply in_seq; lia));
    apply andb_prop in E as [E1 E2]; [exact (proj1 (Z.eqb_eq _ _) E1)|exact (proj1 (Z.eqb_eq _ _) E2)].
Qed.
Definition zhalf : Zring -> Zring := fun x => (x / 2)%Z.
Definition X : term Zring := Var 0.
(* three velocities 0, 1, -1; the moments (X^2 + X)/2, 1, X: the conserved ones are rho = 1 (symbol 5)
   and q = X (symbol 3); the equilibrium of the first one is rho^2 + q, its parameter 2, the
   source of q is rho *)
Definition d1 (M : option (mat Zring)) (cons : list nat) (s : list (term Zring)) (src : list (nat * term Zring)) : sdict Zring :=
  mkSdict Zring [[0]; [1]; [-1]]%Z [Un zhalf (Bin zadd (Bin zmul X X) X); Num (K := Zring) 1%Z; X] M s
    [Bin zadd (Bin zmul (Var 5) (Var 5)) (Var 3); Var 5; Var 3] None cons src.
Definition s1 : list (term Zring) := [Num (K := Zring) 2%Z; Num (K := Zring) 0%Z; Num (K := Zring) 0%Z].
Definition cands : list (mat Zring) := [mat2 [[-2; 1; 1]; [1; 0; 0]; [1; 0; -1]]%Z; mat2 [[1; 1; -2]; [0; 0; 1]; [0; -1; 1]]%Z; mat2 [[1; -2; 1]; [0; 1; 0]; [0; 1; -1]]%Z;
  mat2 [[1; -1]; [0; 1]]%Z].
Definition nosimp (t : term Zring) : term Zring := t.
Definition bz := build Zring (zinv cands) nosimp None 1 1%Z.
Lemma Forall_vars (P : nat -> Prop) (l : list nat) : Forall P l -> forall c, In c l -> P c.
Proof. intros H c Hc. now apply (proj1 (Forall_forall _ _) H). Qed.
Lemma d1_ok M cons s src : NoDup cons -> In 5%nat cons -> In 3%nat cons -> length s = 3%nat -> (forall t, In t s -> vars Zring t = []) ->
  (forall c g, In (c, g) src -> forall x, In x (vars Zring g) -> In x cons) -> dict_ok Zring nosimp [d1 M cons s src].
Proof.
  intros ND H5 H3 Hs Hv Hg. assert (EC : conserved Zring [d1 M cons s src] = cons) by (unfold conserved; cbn; apply app_nil_r). constructor; unfold closed; rewrite ?EC.
  - constructor; [|constructor]. split; [exact Hs|]. split; reflexivity.
  - intros d N [<-|[]] _. reflexivity.
  - exact ND.
  - intros d t [<-|[]] Ht c Hc. cbn in Ht. destruct Ht as [<-|[<-|[<-|[]]]]; cbn in Hc; intuition (subst; assumption).
  - intros d t [<-|[]] Ht c Hc. rewrite (Hv t Ht) in Hc. destruct Hc.
  - intros d c g [<-|[]] Hi x Hx. exact (Hg c g Hi x Hx).
Qed.
Lemma d1_moment M cons s src c b i : is_moment Zring nosimp [d1 M cons s src] c b i -> b = 0%nat /\ ((c = 5 /\ i = 1) \/ (c = 3 /\ i = 2))%nat.
Proof.
  intros (d & H1 & H2 & H3 & H4 & _). destruct b as [|[|b]]; try discriminate. injection H1 as <-. split; [reflexivity|].
  destruct i as [|[|[|i]]]; cbn in H4, H3; try discriminate; [left; split; congruence|right; split; congruence|lia].
Qed.
Lemma d1_is M cons s src : In 5%nat cons -> In 3%nat cons -> is_moment Zring nosimp [d1 M cons s src] 5 0 1 /\ is_moment Zring nosimp [d1 M cons s src] 3 0 2.
Proof.
  intros H5 H3. split; exists (d1 M cons s src); (split; [reflexivity|]); (split; [assumption|]); (split; [cbn; lia|]); (split; [reflexivity|]); intros j Hj; destruct j as [|[|j]]; try discriminate; lia.
Qed.
Lemma d1_ordered M s src : ordered Zring nosimp [d1 M [5; 3]%nat s src].
Proof.
  intros r c b i Hr Hm. apply d1_moment in Hm as [-> Hc]. unfold conserved in Hr. cbn in Hr. destruct r as [|[|[|r]]]; try discriminate; injection Hr as <-; cbn; lia.
Qed.
Definition lookf (o : option (salgo Zring)) (f : vec Zring) (n : nat) : option (list Z) :=
  match o with Some a => Some (map (collide Zring (algo_of Zring a) f) (seq 0 n)) | None => None end.
Definition fz : vec Zring := fun k => nth k [7; 2; 4]%Z 0%Z.
(* rho = 13, q = -2, then q = 11; the first moment 2 becomes -2 + 2 (169 + 11) = 358; then q = 24 *)
Example C64_example : let ds := [d1 None [5; 3]%nat s1 [(3%nat, Var 5)]] in
  dict_ok Zring nosimp ds /\ ordered Zring nosimp ds /\ (exists a, bz ds = Some a) /\
  lookf (bz ds) fz 3 = Some [-679; 358; 334]%Z /\
  (forall val, (forall c b i, is_moment Zring nosimp ds c b i -> val c = mom Zring ds fz b i) -> val 5%nat = 13%Z /\ val 3%nat = (-2)%Z) /\
  map (fun i => mom Zring ds (fun k => nth k [-679; 358; 334]%Z 0%Z) 0 i) [0; 1; 2]%nat = [358; 13; 24]%Z.
Proof.
  cbv zeta. split; [|split; [apply d1_ordered|split; [|split; [vm_compute; reflexivity|split; [|vm_compute; reflexivity]]]]].
  - apply d1_ok; [repeat constructor; cbn; intuition discriminate|cbn; tauto|cbn; tauto|reflexivity| |].
    + intros t [<-|[<-|[<-|[]]]]; reflexivity.
    + intros c g [E|[]]. injection E as <- <-. intros x [<-|[]]. cbn. tauto.
  - destruct (bz _) as [a|] eqn:E; [now exists a|]. exfalso. apply (f_equal (fun o => match o with Some _ => true | None => false end)) in E. vm_compute in E. discriminate.
  - intros val H. destruct (d1_is None [5; 3]%nat s1 [(3%nat, Var 5)]) as [I5 I3]; [cbn; tauto|cbn; tauto|]. rewrite (H _ _ _ I5), (H _ _ _ I3). split; reflexivity.
Qed.

Lemma built_ex (o : option (salgo Zring)) : (match o with Some _ => true | None => false end) = true -> exists a, o = Some a.
Proof. destruct o as [a|]; [now exists a|discriminate]. Qed.
Lemma look_collide o (a : salgo Zring) f n l k : o = Some a -> lookf o f n = Some l -> (k < n)%nat -> collide Zring (algo_of Zring a) f k = nth k l 0%Z.
Proof.
  intros -> E Hk. cbn in E. injection E as <-. rewrite (nth_indep _ 0%Z (collide Zring (algo_of Zring a) f 0%nat)) by (rewrite map_length, seq_length; exact Hk).
  now rewrite (map_nth (collide Zring (algo_of Zring a) f)), seq_nth.
Qed.
(* Conserved moments listed in another order than the moments: the moments 1, X, (X^2 + X)/2 and
   the conserved moments [q; rho].  The two swaps cancel, each of the two names stands for the
   other moment: accepted, and the equilibrium is rho + q^2 in place of rho^2 + q. *)
Definition d2 : sdict Zring :=
  mkSdict Zring [[0]; [1]; [-1]]%Z [Num (K := Zring) 1%Z; X; Un zhalf (Bin zadd (Bin zmul X X) X)] None
    [Num (K := Zring) 0%Z; Num (K := Zring) 0%Z; Num (K := Zring) 2%Z] [Var 5; Var 3; Bin zadd (Bin zmul (Var 5) (Var 5)) (Var 3)] None [3; 5]%nat [].
Lemma d2_moment c b i : is_moment Zring nosimp [d2] c b i -> b = 0%nat /\ ((c = 5 /\ i = 0) \/ (c = 3 /\ i = 1))%nat.
Proof.
  intros (d & H1 & H2 & H3 & H4 & _). destruct b as [|[|b]]; try discriminate. injection H1 as <-. split; [reflexivity|].
  destruct i as [|[|[|i]]]; cbn in H4, H3; try discriminate; [left; split; congruence|right; split; congruence|lia].
Qed.
Theorem C64_unordered_refuted : exists (ds : list (sdict Zring)) a f,
  dict_ok Zring nosimp ds /\ bz ds = Some a /\ ~ collided Zring nosimp 1%Z ds f (collide Zring (algo_of Zring a) f).
Proof.
  destruct (built_ex (bz [d2])) as [a Ea]; [vm_compute; reflexivity|]. exists [d2], a, fz. split; [|split; [exact Ea|]].
  - constructor; unfold closed.
    + repeat constructor.
    + intros d N [<-|[]] E. discriminate.
    + cbn. repeat constructor; cbn; intuition discriminate.
    + intros d t [<-|[]] Ht c Hc. cbn in Ht |- *. destruct Ht as [<-|[<-|[<-|[]]]]; cbn in Hc; intuition.
    + intros d t [<-|[]] Ht c Hc. cbn in Ht. destruct Ht as [<-|[<-|[<-|[]]]]; destruct Hc.
    + intros d c g [<-|[]] [].
  - intros H. destruct (H (fun c => if Nat.eqb c 5 then 13%Z else (-2)%Z)) as [_ H2].
    { intros c b i Hm. apply d2_moment in Hm as [-> [[-> ->]|[-> ->]]]; reflexivity. }
    specialize (H2 0%nat 2%nat d2 eq_refl ltac:(cbn; lia)). cbv zeta in H2.
    rewrite (mom_agree Zring [d2] (collide Zring (algo_of Zring a) fz) (fun k => nth k [-53; 32; 34]%Z 0%Z) 0 2) in H2.
    2:{ intros k Hk. apply (look_collide (bz [d2]) a fz 3); [exact Ea|vm_compute; reflexivity|exact Hk]. }
    assert (X2 : forall c, ~ is_moment Zring nosimp [d2] c 0 2) by (intros c Hm; apply d2_moment in Hm; lia).
    specialize (H2 X2). vm_compute in H2. discriminate.
Qed.
Print Assumptions C64_unordered_refuted.

(* Lists of relaxation parameters which have not the size of their stencil, but the right total
   size: _check_entry_size (243-258) writes an error message and the construction goes on; the
   second moment of the second scheme relaxes with the third parameter of its list. *)
Definition d3 (c : nat) (s : list (term Zring)) : sdict Zring :=
  mkSdict Zring [[0]; [1]]%Z [Num (K := Zring) 1%Z; X] None s [Var c; Var c] None [c] [].
Definition ds3 : list (sdict Zring) := [d3 0 [Num (K := Zring) 0%Z]; d3 1 [Num (K := Zring) 0%Z; Num (K := Zring) 1%Z; Num (K := Zring) 2%Z]].
Definition f3 : vec Zring := fun k => nth k [1; 2; 3; 4]%Z 0%Z.
Lemma ds3_moment c b i : is_moment Zring nosimp ds3 c b i -> (i = 0 /\ c = b /\ b < 2)%nat.
Proof.
  intros (d & H1 & H2 & H3 & H4 & H5). destruct b as [|[|b]]; [| |destruct b; discriminate]; injection H1 as <-; cbn in H2; destruct H2 as [<-|[]];
    (destruct i as [|[|i]]; [split; [reflexivity|split; [reflexivity|lia]]| |cbn in H3; lia]); exfalso; apply (H5 0%nat); try lia; reflexivity.
Qed.
Theorem C64_sizes_refuted : exists (ds : list (sdict Zring)) a f,
  Forall (fun d => length (sd_P Zring d) = nv Zring d /\ length (sd_eq Zring d) = nv Zring d) ds /\
  length (concat (map (sd_s Zring) ds)) = total (sizes Zring ds) /\ NoDup (conserved Zring ds) /\ ordered Zring nosimp ds /\
  bz ds = Some a /\ ~ collided Zring nosimp 1%Z ds f (collide Zring (algo_of Zring a) f).
Proof.
  destruct (built_ex (bz ds3)) as [a Ea]; [vm_compute; reflexivity|]. exists ds3, a, f3.
  split; [repeat constructor|]. split; [reflexivity|]. split; [cbn; repeat constructor; cbn; intuition discriminate|]. split; [|split; [exact Ea|]].
  - intros r c b i Hr Hm. apply ds3_moment in Hm as (-> & -> & Hb). destruct b as [|[|b]]; [| |lia]; destruct r as [|[|r]]; cbn in Hr |- *; try discriminate; try lia; destruct r; discriminate.
  - intros H. destruct (H (fun c => if Nat.eqb c 0 then 3%Z else 7%Z)) as [_ H2].
    { intros c b i Hm. apply ds3_moment in Hm as (-> & -> & Hb). destruct b as [|[|b]]; [reflexivity|reflexivity|lia]. }
    specialize (H2 1%nat 1%nat _ eq_refl ltac:(cbn; lia)). cbv zeta in H2.
    rewrite (mom_agree Zring ds3 (collide Zring (algo_of Zring a) f3) (fun k => nth k [1; 2; -3; 10]%Z 0%Z) 1 1) in H2.
    2:{ intros k Hk. apply (look_collide (bz ds3) a f3 4); [exact Ea|vm_compute; reflexivity|exact Hk]. }
    assert (X2 : forall c, ~ is_moment Zring nosimp ds3 c 1 1) by (intros c Hm; apply ds3_moment in Hm; lia).
    specialize (H2 X2). vm_compute in H2. discriminate.
Qed.
Print Assumptions C64_sizes_refuted.

(* The key "M": the first construction swaps the rows of the matrix of the dictionary in place,
   a second one from the same dictionary (after) builds another scheme. *)
Definition dM : sdict Zring := d1 (Some (mat2 [[0; 1; 0]; [1; 1; 1]; [0; 1; -1]]%Z)) [5; 3]%nat s1 [].
Theorem C64_again_refuted : exists (ds : list (sdict Zring)) a a' f,
  dict_ok Zring nosimp ds /\ ordered Zring nosimp ds /\ bz ds = Some a /\ bz (after Zring (zinv cands) nosimp ds) = Some a' /\
  collided Zring nosimp 1%Z ds f (collide Zring (algo_of Zring a) f) /\ ~ collided Zring nosimp 1%Z ds f (collide Zring (algo_of Zring a') f).
Proof.
  destruct (built_ex (bz [dM])) as [a Ea]; [vm_compute; reflexivity|].
  destruct (built_ex (bz (after Zring (zinv cands) nosimp [dM]))) as [a' Ea']; [vm_compute; reflexivity|]. exists [dM], a, a', fz.
  assert (D : dict_ok Zring nosimp [dM]).
  { apply d1_ok; [repeat constructor; cbn; intuition discriminate|cbn; tauto|cbn; tauto|reflexivity| |intros c g []].
    intros t [<-|[<-|[<-|[]]]]; reflexivity. }
  split; [exact D|]. split; [apply d1_ordered|]. split; [exact Ea|]. split; [exact Ea'|]. split.
  - apply (C64_step Zring (zinv cands) nosimp None 1 1%Z [dM] a); [apply zinv_ok|intros val t; reflexivity|exact D|apply d1_ordered|exact Ea|discriminate|].
    intros d t [<-|[]] Ht c Hc. cbn in Ht. destruct Ht as [<-|[<-|[<-|[]]]]; cbn in Hc; lia.
  - intros H. destruct (H (fun c => if Nat.eqb c 5 then 13%Z else (-2)%Z)) as [H1 _].
    { intros c b i Hm. apply d1_moment in Hm as [-> [[-> ->]|[-> ->]]]; reflexivity. }
    destruct (d1_is (Some (mat2 [[0; 1; 0]; [1; 1; 1]; [0; 1; -1]]%Z)) [5; 3]%nat s1 []) as [I5 _]; [cbn; tauto|cbn; tauto|]. specialize (H1 5%nat 0%nat 1%nat I5).
    rewrite (mom_agree Zring [dM] (collide Zring (algo_of Zring a') fz) (fun k => nth k [-7; 2; 4]%Z 0%Z) 0 1) in H1.
    2:{ intros k Hk. apply (look_collide (bz (after Zring (zinv cands) nosimp [dM])) a' fz 3); [exact Ea'|vm_compute; reflexivity|exact Hk]. }
    vm_compute in H1. discriminate.
Qed.
Print Assumptions C64_again_refuted.
