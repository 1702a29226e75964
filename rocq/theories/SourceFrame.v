(* The collision with a relative velocity and source terms (pull.py 12-59). *)
From Verif Require Import PyBase VelocityModel GridModel StorageModel ExchangeProofs LinAlg AlgoModel AlgoProofs RelVelProofs KernelProofs GlobalModel GlobalProofs TorusProofs AlgoProps GlobalProps GenModel GenProofs GenProps StepGenModel StepGenProofs StepGenProps SchemeModel SchemeProofs SchemeProps BuildModel BuildProofs BuildProps BuildFrame.
Require Import Lia.

Section Algo.
Variable K : ring.
Add Ring Kring : (rth K).
(* m1: the conserved moments in the fixed frame and the other ones in the moving frame, after half a
   step of the sources.  The restored conserved moments are those of the moving frame, from the old
   distributions, and the second half of the sources reads them. *)
Lemma pushed_algo (a : algo K) rel f : al_relvel a = Some rel -> eq_ok K a -> source_ok K a -> rel_ok K a ->
  inverse (al_n a) (al_M a) (al_invM a) -> (forall u, is_id (al_n a) (mmul (al_n a) (al_Tu a u) (al_Tu a (vopp u)))) ->
  (forall m i, (i < al_nc a)%nat -> al_s a m i = 0%K) ->
  let m0 := mvmul (al_n a) (al_M a) f in let u := rel m0 in let mu := mvmul (al_n a) (al_Mu a u) f in
  let m1 := half_source K a (fun i => if (i <? al_nc a)%nat then m0 i else mu i) in
  forall k, (k < al_n a)%nat -> mvmul (al_n a) (al_Mu a u) (pull_fun K a f) k =
    half_source K a (fun i => if (i <? al_nc a)%nat then mu i
      else ((1 - al_s a m1 i) * m1 i + al_s a m1 i * mvmul (al_n a) (al_Tu a u) (al_eq a m1) i)%K) k.
Proof.
  intros R He Hs HR HM HT H0 m0 u mu m1 k Hk. pose proof He as (Hn & Hee & Hes & Hid). set (n := al_n a) in *.
  set (v0 := KernelProofs.fresh K f). set (w1 := run (f2m_local a vf) v0). set (w2 := run (with_source a) w1). set (w3 := run (relaxation_local a) w2).
  set (w4 := run (restore_conserved_moments a vf) w3). set (w5 := run (with_source a) w4).
  destruct (f2m_rel_spec K a rel vf v0 R Hn) as (F1 & _ & A1 & A2); [reflexivity|]. fold w1 in F1, A1, A2. change (vf v0) with f in F1, A1, A2.
  pose proof (f2m_velocity K a rel vf v0 R HR Hn (fun _ _ _ => eq_refl)) as AU. fold w1 in AU. change (vf v0) with f in AU. fold n in AU. fold m0 in AU. fold u in AU.
  destruct (with_source_spec K a w1 Hs) as (F2 & _ & U2 & S1). fold w2 in F2, U2, S1.
  assert (F3 : vf w3 = f /\ vu w3 = vu w1).
  { unfold w3, relaxation_local. rewrite R. destruct (TM_frame K (fun v0 k0 => (1 - al_s a (vm v0) k0) * vm v0 k0 + al_s a (vm v0) k0 * mvmul (al_n a) (al_Tu a (vu v0)) (al_eq a (vm v0)) k0)%K 0 (al_n a) w2) as (A & _ & B). split; congruence. }
  destruct F3 as [F3 U3].
  assert (MU : forall g i, (i < n)%nat -> mvmul n (al_Mu a (vu w1)) g i = mvmul n (al_Mu a u) g i).
  { intros g i Hi. apply sum_ext. intros j Hj. f_equal. apply (Mu_cong K a (vu w1) u i j HR AU Hi). }
  assert (M1 : agree K n (vm w2) m1).
  { eapply agree_trans; [exact S1|]. apply half_source_agree; [exact Hs|]. intros i Hi. destruct (Nat.ltb_spec i (al_nc a)) as [L|L].
    - rewrite A1 by exact L. reflexivity.
    - rewrite A2 by (split; assumption). fold n. now apply MU. }
  assert (C1 : agree K (al_nc a) (vm w2) m1) by (eapply agree_le; [exact Hn|exact M1]).
  pose proof (relaxation_rel_spec K a rel w2 R He H0) as S3. fold w3 in S3. cbv beta in S3. fold n in S3.
  set (mid := fun i => if (i <? al_nc a)%nat then mu i else ((1 - al_s a m1 i) * m1 i + al_s a m1 i * mvmul n (al_Tu a u) (al_eq a m1) i)%K).
  assert (F4 : vu w4 = vu w1 /\ agree K n (vm w4) mid).
  { unfold w4, restore_conserved_moments. rewrite run_TM. cbn [vf vu vm vfn]. split; [exact U3|]. intros i Hi. unfold mid. destruct (Nat.ltb_spec i (al_nc a)) as [L|L].
    - rewrite seqf_sim with (lo := 0%nat) (hi := al_nc a); [|reflexivity|lia]. rewrite F3, U3. fold n. now apply MU.
    - rewrite seqf_out by lia. rewrite (S3 i Hi), (M1 i Hi), (Hes _ _ C1 i Hi). f_equal. f_equal.
      apply sum_ext. intros j Hj. rewrite (Hee _ _ C1 j Hj), U2. f_equal. now apply (proj2 HR (vu w1) u i j AU Hi Hj). }
  destruct F4 as [U4 M4].
  destruct (with_source_spec K a w4 Hs) as (_ & _ & U5 & S5). fold w5 in U5, S5.
  assert (M5 : agree K n (vm w5) (half_source K a mid)) by (eapply agree_trans; [exact S5|apply half_source_agree; [exact Hs|exact M4]]).
  assert (E : agree K n (pull_fun K a f) (mvmul n (al_invMu a (vu w1)) (half_source K a mid))).
  { intros j Hj. unfold pull_fun, pull_local. rewrite R, !run_app. fold v0. fold w1. fold w2. fold w3. fold w4. fold w5. unfold m2f_local. rewrite R, run_TFn. cbn [vf vu vm vfn].
    rewrite seqf_sim with (lo := 0%nat) (hi := al_n a); [|reflexivity|fold n; lia]. fold n. rewrite U5, U4. apply mvmul_ext. exact M5. }
  rewrite <- MU by exact Hk. unfold al_Mu. fold n. rewrite <- mvmul_assoc.
  rewrite (mvmul_ext K n (al_Tu a (vu w1)) _ (mvmul n (al_Tu a (vopp (vu w1))) (half_source K a mid))).
  - now apply mvmul_inverse.
  - intros i Hi. rewrite (mvmul_ext K n (al_M a) (pull_fun K a f) (mvmul n (al_invM a) (mvmul n (al_Tu a (vopp (vu w1))) (half_source K a mid)))).
    + apply mvmul_inverse; [apply HM|exact Hi].
    + intros j Hj. rewrite (E j Hj). unfold al_invMu. fold n. now rewrite <- mvmul_assoc.
Qed.
End Algo.

Section Moving.
Variable K : ring.
Add Ring Kring3 : (rth K).
Variable inv : nat -> mat K -> option (mat K).
Variable simp : term K -> term K.
Variables (l : list (term K)) (dim : nat) (hdt : K).
Variable ds : list (sdict K).
Variable a : salgo K.
Hypothesis HI : inv_spec K inv.
Hypothesis HSi : simp_spec K simp.
Hypothesis D : dict_ok K simp ds.
Hypothesis O : ordered K simp ds.
Hypothesis E : build K inv simp (Some l) dim hdt ds = Some a.
Hypothesis HR : forall j, closed K ds (nth j l (Num 0%K)).
Hypothesis HP : forall d t, In d ds -> In t (sd_P K d) -> below K dim t.
Hypothesis HV : forall d x, In d ds -> In x (sd_v K d) -> length x = dim.
Hypothesis HG : forall d, In d ds -> sd_M K d = None.
Hypothesis HC : forall d, In d ds -> translation_closed K dim (nv K d) (pol K d).
Notation n := (total (sizes K ds)).
Notation cs := (conserved K ds).
Notation al := (algo_of K a).
Notation T := (BuildFrame.T K inv l ds).
Notation momu := (BuildFrame.momu K ds).

(* val: the conserved moments of f; w: those in the moving frame; g: the distributions at equilibrium
   of the values after half a step of the sources. *)
Lemma pushed_build (f val g w : vec K) :
  (forall c b i d, is_moment K simp ds c b i -> nth_error ds b = Some d -> forall w, teval K w (nth i (sd_s K d) (Num 0%K)) = 0%K) ->
  (forall c b i, is_moment K simp ds c b i -> val c = mom K ds f b i) ->
  let u := vrel K l val in let val1 := half K hdt ds val in let f' := pull_fun K al f in
  (forall c b i, is_moment K simp ds c b i -> w c = momu u f b i) ->
  (forall b d i, nth_error ds b = Some d -> (i < nv K d)%nat -> mom K ds g b i = eqv K d i val1) ->
  (forall c b i, is_moment K simp ds c b i -> momu u f' b i = half K hdt ds w c) /\
  (forall b i d, nth_error ds b = Some d -> (i < nv K d)%nat -> (forall c, ~ is_moment K simp ds c b i) ->
     let s := teval K val1 (nth i (sd_s K d) (Num 0%K)) in
     momu u f' b i = ((1 - s) * momu u f b i + s * momu u g b i)%K).
Proof using HI HSi D O E HR HP HV HG HC.
  intros HS0 HVal u val1 f' Hw Hg.
  assert (SO : scheme_ok K a) by (apply (built_ok K inv simp (Some l) dim hdt ds a HI D O E); [intros l' j El; injection El as <-; apply HR|exact HP]).
  destruct (scheme_algo K a SO) as (He & Hs & HRel). destruct (build_built K simp inv hdt (Some l) dim ds a HI D E) as (M & N & sg & B).
  pose proof (do_distinct K simp ds D) as ND. pose proof (bu_n _ _ _ _ _ _ _ _ _ _ _ B) as En. pose proof (bu_nc _ _ _ _ _ _ _ _ _ _ _ B) as Enc. pose proof (bu_le _ _ _ _ _ _ _ _ _ _ _ B) as Hle.
  set (m0 := mvmul n (sa_M K a) f).
  assert (M0 : forall f k, mvmul n (sa_M K a) f k = mvmul n M f (sg k)) by (intros h k; apply sum_ext; intros j _; now rewrite (bu_M _ _ _ _ _ _ _ _ _ _ _ B)).
  assert (V0 : values K cs m0 val).
  { intros r c Hr. destruct (bu_found _ _ _ _ _ _ _ _ _ _ _ B c (nth_error_In _ _ Hr)) as (b & i & Hm). rewrite (HVal c b i Hm). unfold m0. rewrite M0.
    rewrite (bu_front _ _ _ _ _ _ _ _ _ _ _ B O r c b i Hr Hm). destruct Hm as (d & H1 & _ & H3 & _). exact (bu_moments _ _ _ _ _ _ _ _ _ _ _ B f b d i H1 H3). }
  assert (IM : inverse (sa_n K a) (sa_M K a) (sa_invM K a)).
  { pose proof (bu_inverse _ _ _ _ _ _ _ _ _ _ _ B) as [I1 I2]. rewrite En. split; intros i j Hi Hj; unfold mmul.
    - rewrite (sum_ext K n _ (fun q => (M (sg i) q * N q (sg j))%K)) by (intros q _; now rewrite (bu_M _ _ _ _ _ _ _ _ _ _ _ B), (bu_invM _ _ _ _ _ _ _ _ _ _ _ B)).
      change (sum n _) with (mmul n M N (sg i) (sg j)). rewrite I1 by now apply (bu_lt _ _ _ _ _ _ _ _ _ _ _ B). unfold idm.
      destruct (Nat.eqb_spec i j) as [->|Ne]; [now rewrite Nat.eqb_refl|]. destruct (Nat.eqb_spec (sg i) (sg j)) as [Es|]; [|reflexivity]. apply (bu_inj _ _ _ _ _ _ _ _ _ _ _ B) in Es. congruence.
    - rewrite (sum_ext K n _ (fun q => (N i (sg q) * M (sg q) j)%K)) by (intros q _; now rewrite (bu_M _ _ _ _ _ _ _ _ _ _ _ B), (bu_invM _ _ _ _ _ _ _ _ _ _ _ B)).
      rewrite (bu_sum _ _ _ _ _ _ _ _ _ _ _ B (fun q => (N i q * M q j)%K)). exact (I2 i j Hi Hj). }
  assert (ET : forall u k q, al_Tu al u k q = T u (sg k) (sg q)) by (intros u0 k q; cbn; now rewrite (bu_Tu _ _ _ _ _ _ _ _ _ _ _ B)).
  assert (IT : forall u, is_id (sa_n K a) (mmul (sa_n K a) (al_Tu al u) (al_Tu al (vopp u)))).
  { intros u0 i j Hi Hj. rewrite En in Hi, Hj |- *. unfold mmul. rewrite (sum_ext K n _ (fun q => (fun p => T u0 (sg i) p * T (vopp u0) p (sg j))%K (sg q))) by (intros q _; now rewrite !ET).
    rewrite (bu_sum _ _ _ _ _ _ _ _ _ _ _ B (fun p => (T u0 (sg i) p * T (vopp u0) p (sg j))%K)).
    change (sum n _) with (mmul n (T u0) (T (vopp u0)) (sg i) (sg j)). rewrite (T_inverse K inv simp l dim hdt ds a HI D E HP HV HG HC) by now apply (bu_lt _ _ _ _ _ _ _ _ _ _ _ B). unfold idm.
    destruct (Nat.eqb_spec i j) as [->|Ne]; [now rewrite Nat.eqb_refl|]. destruct (Nat.eqb_spec (sg i) (sg j)) as [Es|]; [|reflexivity]. apply (bu_inj _ _ _ _ _ _ _ _ _ _ _ B) in Es. congruence. }
  assert (SZ : forall b d i, nth_error ds b = Some d -> (i < nv K d)%nat -> nth (off K ds b + i) (concat (map (sd_s K) ds)) (Num 0%K) = nth i (sd_s K d) (Num 0%K)).
  { intros b d i Hb Hi. apply (nth_concat K (sd_s K)); [|exact Hb|exact Hi]. apply Forall_forall. intros x Hx. exact (proj1 (proj1 (Forall_forall _ _) (do_sized K simp ds D) x Hx)). }
  assert (H0 : forall m i, (i < sa_nc K a)%nat -> al_s al m i = 0%K).
  { intros m r Hr. cbn. rewrite Enc in Hr. destruct (nth_error cs r) as [c|] eqn:Ec; [|apply nth_error_None in Ec; lia].
    destruct (bu_found _ _ _ _ _ _ _ _ _ _ _ B c (nth_error_In _ _ Ec)) as (b & i & Hm). pose proof Hm as (d & H1 & _ & H3 & _).
    rewrite (bu_s _ _ _ _ _ _ _ _ _ _ _ B), (bu_front _ _ _ _ _ _ _ _ _ _ _ B O r c b i Ec Hm), (SZ b d i H1 H3).
    set (w0 := fun c => match odict_get (ranks cs) c with Some i => m i | None => m (n + c)%nat end).
    assert (W : forall t, teval K m (rename K n (ranks cs) t) = teval K w0 t).
    { clear. induction t; cbn; [reflexivity| |congruence|congruence]. unfold w0. destruct (odict_get (ranks cs) i); reflexivity. }
    rewrite W. exact (HS0 c b i d Hm H1 w0). }
  pose proof (pushed_algo K al (fun m j => teval K m (rename K n (ranks cs) (nth j l (Num 0%K)))) f) as MA.
  cbn [al_relvel al_n al_M al_invM al_nc algo_of] in MA. rewrite En in MA. fold m0 in MA.
  specialize (MA ltac:(rewrite (bu_rel _ _ _ _ _ _ _ _ _ _ _ B); reflexivity) He Hs HRel).
  rewrite <- En in MA. specialize (MA IM IT H0). rewrite En, Enc in MA. cbv zeta in MA.
  set (uu := fun j => teval K m0 (rename K n (ranks cs) (nth j l (Num 0%K)))) in MA.
  assert (EU : forall j, uu j = u j) by (intros j; apply (rename_eval K n cs m0 val); [exact ND|exact V0|apply HR]).
  assert (TU : forall i j, T uu i j = T u i j) by (intros i j; apply teval_ext; intros c _; apply EU).
  assert (MU : forall h k b d i, (k < n)%nat -> sg k = (off K ds b + i)%nat -> nth_error ds b = Some d -> (i < nv K d)%nat -> mvmul n (al_Mu al uu) h k = momu u h b i).
  { intros h k b d i Hk Ek H1 H3. unfold al_Mu. cbn [al_n al_M algo_of]. rewrite En, <- mvmul_assoc.
    unfold mvmul at 1. rewrite (sum_ext K n _ (fun q => (fun p => T u (sg k) p * mvmul n M h p)%K (sg q))) by (intros q _; now rewrite ET, M0, TU).
    rewrite (bu_sum _ _ _ _ _ _ _ _ _ _ _ B (fun p => (T u (sg k) p * mvmul n M h p)%K)). rewrite Ek.
    exact (T_moments K inv simp l dim hdt ds a HI D E HP HV HG M u h b d i (bu_moments _ _ _ _ _ _ _ _ _ _ _ B) H1 H3). }
  (* the first half of the sources *)
  set (mx := fun i => if (i <? length cs)%nat then m0 i else mvmul n (al_Mu al uu) f i) in MA.
  assert (V0' : values K cs mx val).
  { intros r c Hr. unfold mx. assert (Hl : (r < length cs)%nat) by (apply nth_error_Some; congruence). apply Nat.ltb_lt in Hl. rewrite Hl. now apply V0. }
  destruct (half_values K simp inv hdt (Some l) dim ds a M N sg D B mx val V0') as [V1 O1]. fold val1 in V1. set (m1 := half_source K al mx) in *.
  (* the second half *)
  set (mid := fun i => if (i <? length cs)%nat then mvmul n (al_Mu al uu) f i else ((1 - al_s al m1 i) * m1 i + al_s al m1 i * mvmul n (al_Tu al uu) (al_eq al m1) i)%K) in MA.
  assert (V2 : values K cs mid w).
  { intros r c Hr. unfold mid. assert (Hl : (r < length cs)%nat) by (apply nth_error_Some; congruence). pose proof Hl as Hl'. apply Nat.ltb_lt in Hl'. rewrite Hl'.
    destruct (bu_found _ _ _ _ _ _ _ _ _ _ _ B c (nth_error_In _ _ Hr)) as (b & i & Hm). pose proof Hm as (d & H1 & _ & H3 & _).
    rewrite (MU f r b d i ltac:(lia) (bu_front _ _ _ _ _ _ _ _ _ _ _ B O r c b i Hr Hm) H1 H3). symmetry. now apply Hw. }
  destruct (half_values K simp inv hdt (Some l) dim ds a M N sg D B mid w V2) as [V3 O3].
  split.
  - intros c b i Hm. pose proof Hm as (d & H1 & H2 & H3 & _).
    assert (Hc : In c cs) by (apply in_concat; exists (sd_cons K d); split; [apply in_map; now apply nth_error_In in H1|exact H2]).
    destruct (In_nth_error _ _ Hc) as [r Hr]. assert (Hl : (r < length cs)%nat) by (apply nth_error_Some; congruence).
    pose proof (bu_front _ _ _ _ _ _ _ _ _ _ _ B O r c b i Hr Hm) as Ek.
    rewrite <- (MU f' r b d i ltac:(lia) Ek H1 H3), <- (V3 r c Hr). exact (MA r ltac:(lia)).
  - intros b i d H1 H3 Hno s. pose proof (off_total K ds b d i H1 H3) as Hlt. destruct (bu_surj _ _ _ _ _ _ _ _ _ _ _ B _ Hlt) as (k & Hk & Es).
    assert (Hkc : (length cs <= k)%nat).
    { destruct (Nat.lt_ge_cases k (length cs)) as [L|L]; [|exact L]. exfalso. destruct (nth_error cs k) as [c|] eqn:Ec; [|apply nth_error_None in Ec; lia].
      destruct (bu_found _ _ _ _ _ _ _ _ _ _ _ B c (nth_error_In _ _ Ec)) as (b' & i' & Hm). pose proof (bu_front _ _ _ _ _ _ _ _ _ _ _ B O k c b' i' Ec Hm) as Ef.
      pose proof Hm as (d' & H1' & _ & H3' & _). destruct (off_inj K ds b b' d d' i i' H1 H1' H3 H3') as [-> ->]; [congruence|]. now apply (Hno c). }
    rewrite <- (MU f' k b d i Hk Es H1 H3). unfold f'. rewrite (MA k Hk), (O3 k Hkc). unfold mid. destruct (Nat.ltb_spec k (length cs)) as [L|_]; [lia|].
    rewrite (O1 k Hkc). unfold mx. destruct (Nat.ltb_spec k (length cs)) as [L|_]; [lia|]. rewrite (MU f k b d i Hk Es H1 H3).
    assert (EsE : al_s al m1 k = s).
    { cbn. rewrite (bu_s _ _ _ _ _ _ _ _ _ _ _ B), Es, (SZ b d i H1 H3). apply rename_eval; [exact ND|exact V1|].
      rewrite <- (SZ b d i H1 H3). apply (closed_s K simp ds D). }
    assert (EG : mvmul n (al_Tu al uu) (al_eq al m1) k = mvmul n (al_Mu al uu) g k).
    { unfold al_Mu. cbn [al_n al_M algo_of]. rewrite En, <- mvmul_assoc. apply mvmul_ext. intros q Hq. rewrite M0. cbn [al_eq algo_of].
      rewrite (bu_eq _ _ _ _ _ _ _ _ _ _ _ B). rewrite (rename_eval K n cs m1 val1); [|exact ND|exact V1|apply (closed_eq K simp ds D)].
      destruct (off_ex K ds (sg q) (bu_lt _ _ _ _ _ _ _ _ _ _ _ B q Hq)) as (b' & d' & i' & H1' & H3' & Eq). rewrite Eq.
      rewrite (bu_moments _ _ _ _ _ _ _ _ _ _ _ B g b' d' i' H1' H3'), (Hg b' d' i' H1' H3').
      rewrite (nth_concat K (eqs K simp) (Num 0%K) ds b' d' i'); [|apply Forall_forall; intros x Hx; apply eqs_length; exact (proj1 (Forall_forall _ _) (do_sized K simp ds D) x Hx)|exact H1'|exact H3'].
      now apply (eqs_eval K simp). }
    rewrite EG, EsE, (MU g k b d i Hk Es H1 H3). reflexivity.
Qed.
End Moving.
