(* Lemmas on dictionaries with symbols whose values are given at each call (C90). *)
From Coq Require Import QArith.
From Verif Require Import PyBase VelocityModel GridModel StorageModel ExchangeProofs LinAlg AlgoModel AlgoProofs RelVelProofs KernelProofs GlobalModel GlobalProofs TorusProofs AlgoProps GlobalProps
  GenModel GenProofs GenProps StepGenModel StepGenProofs StepGenProps SchemeModel SchemeProofs SchemeProps BuildModel BuildProofs BuildProps BuildFrame
  DomainModel GeometryModel BoundaryModel ParallelModel InitGenModel TimedModel.
Require Import Lia.

Section Open.
Variable K : ring.
Notation term := (term K).
Notation sdict := (sdict K).
Variable inv : nat -> mat K -> option (mat K).
Variable simp : term -> term.
Hypothesis HI : inv_spec K inv.
Hypothesis HSi : simp_spec K simp.
(* the dictionaries of C64, where other symbols may occur *)
Record open_ok (ds : list sdict) : Prop := {
  oo_sized : Forall (sized K) ds;
  oo_M : forall d M, In d ds -> sd_M K d = Some M -> ds = [d];
  oo_distinct : NoDup (conserved K ds) }.
Variable arg : nat -> K.
Variable cs : list nat.
(* the values of the symbols which are not in cs *)
Definition fixed : term -> term := tsubst K (fun c => if existsb (Nat.eqb c) cs then Var c else Num (arg c)).
Lemma mem_spec c : existsb (Nat.eqb c) cs = true <-> In c cs.
Proof using. rewrite existsb_exists. split; [intros (x & Hx & E); apply Nat.eqb_eq in E; now subst|intros H; exists c; split; [exact H|apply Nat.eqb_refl]]. Qed.
Definition fixed_dict (d : sdict) : sdict :=
  mkSdict K (sd_v K d) (sd_P K d) (sd_M K d) (map fixed (sd_s K d)) (map fixed (eqs K simp d)) None (sd_cons K d) (map (fun p => (fst p, fixed (snd p))) (sd_src K d)).
Lemma nth_fixed l i : nth i (map fixed l) (Num 0%K) = fixed (nth i l (Num 0%K)).
Proof using. exact (map_nth fixed l (Num 0%K) i). Qed.
Lemma fixed_closed t c : In c (vars K (fixed t)) -> In c cs.
Proof using.
  induction t as [x|i|o t IH|o t1 IH1 t2 IH2]; cbn; try tauto.
  - destruct (existsb (Nat.eqb i) cs) eqn:E; cbn; [|tauto]. intros [<-|[]]. now apply mem_spec.
  - rewrite in_app_iff. tauto.
Qed.
Lemma fixed_var t c : In c cs -> (fixed t = Var c <-> t = Var c).
Proof using.
  intros Hc. split; [|intros ->; cbn; apply mem_spec in Hc; now rewrite Hc]. destruct t as [x|i|o t|o t1 t2]; cbn; try discriminate.
  destruct (existsb (Nat.eqb i) cs); [trivial|discriminate].
Qed.
Lemma fixed_eval val t : (forall c, ~ In c cs -> val c = arg c) -> teval K val (fixed t) = teval K val t.
Proof using.
  intros H. induction t as [x|i|o t IH|o t1 IH1 t2 IH2]; cbn; try congruence. destruct (existsb (Nat.eqb i) cs) eqn:E; [reflexivity|]. cbn. symmetry. apply H.
  intros Hi. apply mem_spec in Hi. congruence.
Qed.
Lemma rename_fixed n t : NoDup cs -> (length cs <= n)%nat -> rename K n (ranks cs) (fixed t) = with_args K n arg (rename K n (ranks cs) t).
Proof using.
  intros ND Hn. assert (W : forall i, with_args K n arg (Var i) = if Nat.ltb i n then Var i else Num (arg (i - n)%nat)) by reflexivity.
  assert (R : forall c, rename K n (ranks cs) (Var c) = Var (match odict_get (ranks cs) c with Some r => r | None => n + c end)%nat) by (intros c; cbn; now destruct (odict_get (ranks cs) c)).
  assert (F : forall c, fixed (Var c) = if existsb (Nat.eqb c) cs then Var c else Num (arg c)) by reflexivity.
  induction t as [x|c|o t IH|o t1 IH1 t2 IH2].
  - reflexivity.
  - rewrite F, R. destruct (existsb (Nat.eqb c) cs) eqn:E.
    + apply mem_spec in E. destruct (In_nth_error _ _ E) as [r Hr]. rewrite R. unfold ranks. rewrite (ranks_get cs r c ND Hr), W.
      assert (r < length cs)%nat by (apply nth_error_Some; congruence). destruct (Nat.ltb_spec r n); [reflexivity|lia].
    + assert (Hc : ~ In c cs) by (intros Hc; apply mem_spec in Hc; congruence). unfold ranks. rewrite (ranks_none cs c Hc), W.
      destruct (Nat.ltb_spec (n + c) n); [lia|]. cbn. do 2 f_equal. lia.
  - cbn. unfold with_args in IH. now rewrite IH.
  - cbn. unfold with_args in IH1, IH2. now rewrite IH1, IH2.
Qed.

(* ---- the dictionary with the values ---- *)
Lemma fixed_eqs d : sized K d -> eqs K simp (fixed_dict d) = map fixed (eqs K simp d).
Proof using. intros H. unfold eqs at 1. cbn [fixed_dict sd_eq sd_feq]. destruct (map fixed (eqs K simp d)); reflexivity. Qed.
Lemma fixed_sized d : sized K d -> sized K (fixed_dict d).
Proof using.
  intros H. pose proof (eqs_length K simp d H) as L. destruct H as (H1 & H2 & _). unfold sized. cbn [fixed_dict sd_s sd_M sd_P sd_eq sd_feq]. split; [now rewrite map_length|]. split; [exact H2|].
  unfold nv. cbn. fold (nv K d). destruct (eqs K simp d) as [|e l]; cbn in L |- *; [now symmetry|now rewrite map_length].
Qed.
Variable ds : list sdict.
Notation fds := (map fixed_dict ds).
Hypothesis HO : open_ok ds.
Hypothesis Hcs : cs = conserved K ds.
Lemma fds_conserved : conserved K fds = cs.
Proof using Hcs. rewrite Hcs. unfold conserved. now rewrite map_map. Qed.
Lemma fds_sizes : sizes K fds = sizes K ds.
Proof using. unfold sizes. rewrite map_map. reflexivity. Qed.
Lemma fds_off b : off K fds b = off K ds b.
Proof using. unfold off. now rewrite map_map. Qed.
Lemma fds_nth b d : nth_error fds b = Some d <-> exists d0, nth_error ds b = Some d0 /\ d = fixed_dict d0.
Proof using.
  rewrite nth_error_map. split; [destruct (nth_error ds b) as [d0|]; [|discriminate]; intros [= <-]; now exists d0|]. intros (d0 & -> & ->). reflexivity.
Qed.
Lemma fds_mom f b i : mom K fds f b i = mom K ds f b i.
Proof using. unfold mom. rewrite nth_error_map. destruct (nth_error ds b) as [d|]; [|reflexivity]. cbn [option_map]. rewrite fds_off. reflexivity. Qed.
Lemma fds_moment c b i : is_moment K simp fds c b i <-> is_moment K simp ds c b i.
Proof using HO Hcs.
  assert (X : forall d, In d ds -> In c (sd_cons K d) -> sized K d /\ In c cs).
  { intros d Hd Hc. split; [exact (proj1 (Forall_forall _ _) (oo_sized ds HO) d Hd)|]. rewrite Hcs. apply in_concat. exists (sd_cons K d). split; [now apply in_map|exact Hc]. }
  split.
  - intros (d & H1 & H2 & H3 & H4 & H5). apply fds_nth in H1 as (d0 & H1 & ->). destruct (X d0 (nth_error_In _ _ H1) H2) as [S C]. rewrite (fixed_eqs d0 S) in H4, H5.
    exists d0. split; [exact H1|]. split; [exact H2|]. split; [exact H3|]. split; [rewrite nth_fixed in H4; now apply (fixed_var _ c C)|].
    intros j Hj Ej. apply (H5 j Hj). rewrite nth_fixed. now apply (fixed_var _ c C).
  - intros (d0 & H1 & H2 & H3 & H4 & H5). destruct (X d0 (nth_error_In _ _ H1) H2) as [S C]. exists (fixed_dict d0). rewrite (fixed_eqs d0 S).
    split; [apply fds_nth; now exists d0|]. split; [exact H2|]. split; [exact H3|]. split; [rewrite nth_fixed; now apply (fixed_var _ c C)|].
    intros j Hj Ej. apply (H5 j Hj). rewrite nth_fixed in Ej. now apply (fixed_var _ c C).
Qed.
Lemma fds_ok : dict_ok K simp fds.
Proof using HO Hcs.
  assert (C : forall t, BuildProofs.closed K fds (fixed t)) by (intros t c Hc; rewrite fds_conserved; exact (fixed_closed t c Hc)). constructor.
  - apply Forall_map. eapply Forall_impl; [|exact (oo_sized ds HO)]. exact fixed_sized.
  - intros d M Hd HM. apply in_map_iff in Hd as (d0 & <- & Hd). cbn in HM. pose proof (oo_M ds HO d0 M Hd HM) as E. now rewrite E.
  - rewrite fds_conserved, Hcs. exact (oo_distinct ds HO).
  - intros d t Hd Ht. apply in_map_iff in Hd as (d0 & <- & Hd). rewrite fixed_eqs in Ht by exact (proj1 (Forall_forall _ _) (oo_sized ds HO) d0 Hd).
    apply in_map_iff in Ht as (t0 & <- & _). apply C.
  - intros d t Hd Ht. apply in_map_iff in Hd as (d0 & <- & Hd). cbn in Ht. apply in_map_iff in Ht as (t0 & <- & _). apply C.
  - intros d c g Hd Ht. apply in_map_iff in Hd as (d0 & <- & Hd). cbn in Ht. apply in_map_iff in Ht as ([c0 t0] & [= _ <-] & _). apply C.
Qed.
Lemma fds_ordered : ordered K simp ds -> ordered K simp fds.
Proof using HO Hcs.
  intros O r c b i Hr Hm. rewrite fds_off. apply (O r c b i); [|now apply fds_moment]. rewrite <- Hr, fds_conserved. now f_equal.
Qed.

(* ---- the construction ---- *)
Lemma fds_elementary P ptr l : elementary K P ptr (map fixed_dict l) = elementary K P ptr l.
Proof using. revert ptr. induction l as [|d l IH]; intros ptr; [reflexivity|]. cbn [map elementary]. cbv zeta. change (nv K (fixed_dict d)) with (nv K d). rewrite IH. reflexivity. Qed.
Lemma fds_P : map (sd_P K) fds = map (sd_P K) ds.
Proof using. rewrite map_map. reflexivity. Qed.
Lemma fds_given : given K fds = given K ds.
Proof using. clear HO Hcs. destruct ds as [|d [|d' l]]; reflexivity. Qed.
Lemma fds_blocks : moment_blocks K inv fds = moment_blocks K inv ds.
Proof using. unfold moment_blocks. now rewrite fds_P, fds_elementary. Qed.
Lemma fds_matrices : matrices K inv fds = matrices K inv ds.
Proof using. unfold matrices. now rewrite fds_given, fds_blocks, fds_sizes. Qed.
Lemma fds_rel_blocks P ptr l Cs : rel_blocks K P ptr (map fixed_dict l) Cs = rel_blocks K P ptr l Cs.
Proof using. revert ptr Cs. induction l as [|d l IH]; intros ptr Cs; [reflexivity|]. destruct Cs as [|[m C] Cs]; [reflexivity|]. cbn [map rel_blocks]. change (nv K (fixed_dict d)) with (nv K d). now rewrite IH. Qed.
Lemma fds_translation rel : translation K inv (option_map (map fixed) rel) fds = translation K inv rel ds.
Proof using. unfold translation. rewrite fds_given, fds_blocks, fds_P. destruct (given K ds), rel; cbn [option_map]; try reflexivity. destruct (moment_blocks K inv ds) as [[Bs Cs]|]; [|reflexivity]. now rewrite fds_rel_blocks. Qed.
Lemma fixed_equilibrium M ptr l : Forall (sized K) l -> equilibrium K simp M ptr (map fixed_dict l) = Some (concat (map (fun d => map fixed (eqs K simp d)) l)).
Proof using.
  intros H. revert ptr. induction H as [|d l Hd Hl IH]; intros ptr; [reflexivity|]. cbn [map equilibrium concat]. rewrite IH. cbn [fixed_dict sd_eq sd_feq].
  destruct (map fixed (eqs K simp d)); reflexivity.
Qed.
Lemma add_conserved_ext (EF EF' : nat -> eqexpr K) ptr n l d : (forall k c, In c l -> is_sym (EF k) c = is_sym (EF' k) c) -> add_conserved EF ptr n l d = add_conserved EF' ptr n l d.
Proof using.
  intros H. assert (X : forall c, In c l -> forall n ptr, leq_index EF ptr n c = leq_index EF' ptr n c).
  { intros c Hc. induction n0 as [|m IH]; intros p; [reflexivity|]. cbn. rewrite (H p c Hc), IH. reflexivity. }
  clear H. revert d. induction l as [|c l IH]; intros d; [reflexivity|]. cbn. rewrite (X c (or_introl eq_refl)). destruct (leq_index EF' ptr n c); [|reflexivity]. apply IH. intros c' Hc. apply X. now right.
Qed.
Lemma get_conserved_ext (EF EF' : nat -> eqexpr K) ptr ns css d : (forall k c, In c (concat css) -> is_sym (EF k) c = is_sym (EF' k) c) -> get_conserved EF ptr ns css d = get_conserved EF' ptr ns css d.
Proof using.
  revert ptr ns d. induction css as [|l css IH]; intros ptr ns d H; destruct ns as [|n ns]; try reflexivity. cbn.
  rewrite (add_conserved_ext EF EF') by (intros k c Hc; apply H; cbn; apply in_or_app; now left). destruct (add_conserved EF' ptr n l d); [|reflexivity]. apply IH.
  intros k c Hc. apply H. cbn. apply in_or_app. now right.
Qed.
Lemma fixed_sym t c : In c cs -> is_sym (eqexpr_of K (fixed t)) c = is_sym (eqexpr_of K t) c.
Proof using.
  intros Hc. destruct t as [x|i|o t|o t1 t2]; try reflexivity. cbn. destruct (existsb (Nat.eqb i) cs) eqn:E; [reflexivity|]. cbn. symmetry. apply Nat.eqb_neq. intros ->.
  apply mem_spec in Hc. congruence.
Qed.
Lemma equilibrium_open M N EQ : matrices K inv ds = Some (M, N) -> equilibrium K simp M 0 ds = Some EQ -> EQ = concat (map (eqs K simp) ds).
Proof using HI HO Hcs arg.
  intros EM EE. rewrite <- fds_matrices in EM. destruct (matrices_ok K simp inv fds M N HI fds_ok EM) as (_ & HE & _).
  apply (equilibrium_concat K simp inv M ds ds 0 EQ); [|exact (oo_sized ds HO)|intros x Hx; exact Hx|exact EE].
  intros b d i j Hb Hi Hj. cbn. rewrite <- fds_off. exact (HE b (fixed_dict d) i j (proj2 (fds_nth b _) (ex_intro _ d (conj Hb eq_refl))) Hi Hj).
Qed.
Lemma concat_fixed (l : list (list term)) : concat (map (map fixed) l) = map fixed (concat l).
Proof using. symmetry. apply concat_map. Qed.
Lemma before_fixed b : before_swap K inv simp ds = Some b -> exists b', before_swap K inv simp fds = Some b' /\
  b_n K b' = b_n K b /\ b_M K b' = b_M K b /\ b_invM K b' = b_invM K b /\ b_EQ K b' = map fixed (b_EQ K b) /\ b_s K b' = map fixed (b_s K b) /\ b_consm K b' = b_consm K b /\
  map fst (b_consm K b) = cs /\ (length cs <= b_n K b)%nat.
Proof using HI HO Hcs.
  intros E. unfold before_swap in *. rewrite fds_matrices, fds_sizes. destruct (matrices K inv ds) as [[M N]|] eqn:EM; [|discriminate].
  destruct (equilibrium K simp M 0 ds) as [EQ|] eqn:EE; [|discriminate]. pose proof (equilibrium_open M N EQ EM EE) as EQc.
  rewrite (fixed_equilibrium M 0 ds (oo_sized ds HO)). replace (concat (map (fun d => map fixed (eqs K simp d)) ds)) with (map fixed EQ).
  2:{ rewrite EQc, <- concat_fixed, map_map. reflexivity. }
  replace (concat (map (sd_s K) fds)) with (map fixed (concat (map (sd_s K) ds))) by (rewrite <- concat_fixed, !map_map; reflexivity).
  rewrite !map_length. destruct (Nat.eqb (length EQ) (SchemeModel.total (sizes K ds)) && Nat.eqb (length (concat (map (sd_s K) ds))) (SchemeModel.total (sizes K ds)))%bool; [|discriminate].
  replace (map (sd_cons K) fds) with (map (sd_cons K) ds) by now rewrite map_map.
  set (EF := fun k => eqexpr_of K (nth k EQ (Num 0%K))) in *.
  rewrite (get_conserved_ext (fun k => eqexpr_of K (nth k (map fixed EQ) (Num 0%K))) EF).
  2:{ intros k c Hc. unfold EF. rewrite nth_fixed. apply fixed_sym. now rewrite Hcs. }
  destruct (get_conserved EF 0 (sizes K ds) (map (sd_cons K) ds) []) as [consm|] eqn:EC; [|discriminate]. injection E as <-.
  eexists. split; [reflexivity|]. cbn. repeat (split; [reflexivity|]).
  destruct (C22_conserved_found K EF (sizes K ds) (map (sd_cons K) ds)) as [_ CF]; [unfold sizes; now rewrite !map_length|].
  destruct (CF consm EC) as [_ CK]. specialize (CK (oo_distinct ds HO)). split; [now rewrite Hcs|].
  assert (HF : found K EF (SchemeModel.total (sizes K ds)) consm).
  { apply (get_conserved_spec K EF (SchemeModel.total (sizes K ds)) (sizes K ds) (map (sd_cons K) ds) 0 [] consm); [cbn; lia|split; constructor|exact EC]. }
  pose proof (found_length K EF _ consm HF) as L. rewrite <- (map_length fst), CK in L. rewrite Hcs. exact L.
Qed.
(* two algorithms which write the same statements *)
Record same_algo (a b : salgo K) : Prop := {
  sm_n : sa_n K a = sa_n K b; sm_nc : sa_nc K a = sa_nc K b; sm_dim : sa_dim K a = sa_dim K b;
  sm_M : sa_M K a = sa_M K b; sm_invM : sa_invM K a = sa_invM K b; sm_Tu : sa_Tu K a = sa_Tu K b;
  sm_eq : forall k, sa_eq K a k = sa_eq K b k; sm_s : forall k, sa_s K a k = sa_s K b k;
  sm_rel : match sa_relvel K a, sa_relvel K b with Some r, Some r' => forall j, r j = r' j | None, None => True | _, _ => False end;
  sm_src : sa_source K a = sa_source K b; sm_hdt : sa_hdt K a = sa_hdt K b }.
Lemma rows_fixed n ps l k : NoDup cs -> (length cs <= n)%nat -> rename K n (ranks cs) (BuildModel.rows ps (fun k => nth k (map fixed l) (Num 0%K)) k) =
  with_args K n arg (rename K n (ranks cs) (BuildModel.rows ps (fun k => nth k l (Num 0%K)) k)).
Proof using. intros ND Hn. rewrite !rows_sigma, nth_fixed. now apply rename_fixed. Qed.
Lemma sources_fixed n l r : NoDup cs -> (length cs <= n)%nat -> sources K n (ranks cs) l = Some r ->
  sources K n (ranks cs) (map (fun p => (fst p, fixed (snd p))) l) = Some (map (fun p => (fst p, with_args K n arg (snd p))) r).
Proof using.
  intros ND Hn. revert r. induction l as [|[c g] l IH]; intros r E; cbn in E |- *; [injection E as <-; reflexivity|].
  destruct (odict_get (ranks cs) c) as [i|]; [|discriminate]. destruct (sources K n (ranks cs) l) as [r'|]; [|discriminate]. injection E as <-. rewrite (IH r' eq_refl). cbn. now rewrite (rename_fixed n g ND Hn).
Qed.
Lemma build_fixed rel dm hdt a : build K inv simp rel dm hdt ds = Some a -> exists a', build K inv simp (option_map (map fixed) rel) dm hdt fds = Some a' /\ same_algo a' (called K arg a) /\
  scheme_consm K inv simp fds = scheme_consm K inv simp ds /\ sa_n K a = SchemeModel.total (sizes K ds) /\ forall c g, In (c, g) (concat (map (sd_src K) ds)) -> In c cs.
Proof using HI HO Hcs.
  intros E. unfold build in E. destruct (before_swap K inv simp ds) as [b|] eqn:EB; [|discriminate].
  destruct (before_fixed b EB) as (b' & EB' & E1 & E2 & E3 & E4 & E5 & E6 & E7 & E8). unfold build. rewrite EB', E1, E2, E3, E4, E5, E6, fds_translation.
  assert (LC : length (b_consm K b) = length cs) by (rewrite <- E7; symmetry; apply map_length). rewrite E7, LC in *. fold (ranks cs) in *.
  assert (ND : NoDup cs) by (rewrite Hcs; exact (oo_distinct ds HO)).
  destruct (sources K (b_n K b) (ranks cs) (concat (map (sd_src K) ds))) as [src|] eqn:ES; [|discriminate]. injection E as <-.
  replace (concat (map (sd_src K) fds)) with (map (fun p => (fst p, fixed (snd p))) (concat (map (sd_src K) ds))) by (rewrite concat_map, !map_map; reflexivity).
  rewrite (sources_fixed _ _ _ ND E8 ES). eexists. split; [reflexivity|]. split; [|split; [|split]].
  - constructor; cbn [called sa_n sa_nc sa_dim sa_M sa_invM sa_Tu sa_eq sa_s sa_relvel sa_source sa_hdt]; try reflexivity.
    + intros k. now apply rows_fixed.
    + intros k. now apply rows_fixed.
    + destruct rel as [l|]; [|exact I]. cbn. intros j. rewrite nth_fixed. now apply rename_fixed.
  - unfold scheme_consm. now rewrite EB', EB, E6.
  - cbn. unfold before_swap in EB. destruct (matrices K inv ds) as [[M N]|]; [|discriminate]. destruct (equilibrium K simp M 0 ds); [|discriminate].
    destruct (_ && _)%bool; [|discriminate]. destruct (get_conserved _ _ _ _ _); [|discriminate]. now injection EB as <-.
  - intros c g Hg. pose proof (sources_map K _ _ _ _ ES) as F2. clear - F2 Hg. induction F2 as [|p q l r [H _] F2 IH]; [destruct Hg|]. destruct Hg as [->|Hg]; [|now apply IH].
    cbn in H. change (odict_get (ranks cs) c = Some (fst q)) in H. unfold ranks in H. apply (odict_combine_in K (fun _ _ => None)) in H as [_ H]. now apply nth_error_In in H.
Qed.

(* ---- the meaning of the dictionary with the values ---- *)
Variable hdt : K.
Hypothesis Hkeys : forall c g, In (c, g) (concat (map (sd_src K) ds)) -> In c cs.
Definition given_args (val : vec K) : Prop := forall c, ~ In c cs -> val c = arg c.
Lemma fds_source c : BuildProofs.source K fds c = option_map fixed (BuildProofs.source K ds c).
Proof using.
  unfold BuildProofs.source. replace (concat (map (sd_src K) fds)) with (map (fun p => (fst p, fixed (snd p))) (concat (map (sd_src K) ds))) by (rewrite concat_map, !map_map; reflexivity).
  rewrite <- map_rev. induction (rev (concat (map (sd_src K) ds))) as [|[c' g] l IH]; [reflexivity|]. cbn [map find fst snd]. destruct (Nat.eqb c' c); [reflexivity|exact IH].
Qed.
Lemma half_fixed val : given_args val -> half K hdt fds val = half K hdt ds val /\ given_args (half K hdt ds val).
Proof using Hcs.
  intros HV. unfold half. rewrite fds_conserved, <- Hcs.
  assert (X : forall l, incl l cs -> forall v, given_args v ->
    fold_left (fun val c => match BuildProofs.source K fds c with Some g => fun c' => if Nat.eqb c' c then (val c + hdt * teval K val g)%K else val c' | None => val end) l v =
    fold_left (fun val c => match BuildProofs.source K ds c with Some g => fun c' => if Nat.eqb c' c then (val c + hdt * teval K val g)%K else val c' | None => val end) l v /\
    given_args (fold_left (fun val c => match BuildProofs.source K ds c with Some g => fun c' => if Nat.eqb c' c then (val c + hdt * teval K val g)%K else val c' | None => val end) l v)).
  { induction l as [|c l IH]; intros Hl v Hv; [split; [reflexivity|exact Hv]|]. cbn [fold_left]. rewrite fds_source.
    destruct (BuildProofs.source K ds c) as [g|]; cbn [option_map]; [|apply IH; [intros x Hx; apply Hl; now right|exact Hv]].
    rewrite (fixed_eval v g Hv). apply IH; [intros x Hx; apply Hl; now right|]. intros c' Hc'. destruct (Nat.eqb_spec c' c) as [->|Ne]; [destruct Hc'; apply Hl; now left|now apply Hv]. }
  apply X; [intros x Hx; exact Hx|exact HV].
Qed.
Lemma eqv_fixed d i val : In d ds -> (i < nv K d)%nat -> given_args val -> eqv K (fixed_dict d) i val = eqv K d i val.
Proof using HSi HO.
  intros Hd Hi HV. pose proof (proj1 (Forall_forall _ _) (oo_sized ds HO) d Hd) as S. rewrite <- (eqs_eval K simp d i val HSi Hi), <- (eqs_eval K simp (fixed_dict d) i val HSi Hi), (fixed_eqs d S), nth_fixed.
  now apply fixed_eval.
Qed.
(* any values of the other symbols become those of the call *)
Definition put_args (val : vec K) : vec K := fun c => if existsb (Nat.eqb c) cs then val c else arg c.
Lemma put_given val : given_args (put_args val).
Proof using. intros c Hc. unfold put_args. destruct (existsb (Nat.eqb c) cs) eqn:E; [apply mem_spec in E; contradiction|reflexivity]. Qed.
Lemma put_same val c : In c cs -> put_args val c = val c.
Proof using. intros Hc. unfold put_args. apply mem_spec in Hc. now rewrite Hc. Qed.
(* a source without conserved moments *)
Lemma half_free c g val : In c cs -> BuildProofs.source K ds c = Some g -> (forall x, In x (vars K g) -> ~ In x cs) -> given_args val ->
  half K hdt ds val c = (val c + hdt * teval K arg g)%K.
Proof using Hcs HO.
  intros Hc Hg Hf HV. assert (ND : NoDup cs) by (rewrite Hcs; exact (oo_distinct ds HO)). unfold half. rewrite <- Hcs.
  assert (X : forall l u, ~ In c l -> fold_left (fun val c => match BuildProofs.source K ds c with Some g => fun c' => if Nat.eqb c' c then (val c + hdt * teval K val g)%K else val c' | None => val end) l u c = u c).
  { clear. induction l as [|c0 l IH]; intros u Hn; [reflexivity|]. cbn [fold_left]. rewrite IH by (intros C; apply Hn; now right).
    destruct (BuildProofs.source K ds c0) as [g|]; [|reflexivity]. destruct (Nat.eqb_spec c c0) as [->|_]; [destruct Hn; now left|reflexivity]. }
  assert (Y : forall l u, incl l cs -> NoDup l -> In c l -> given_args u ->
    fold_left (fun val c => match BuildProofs.source K ds c with Some g => fun c' => if Nat.eqb c' c then (val c + hdt * teval K val g)%K else val c' | None => val end) l u c = (u c + hdt * teval K arg g)%K).
  { induction l as [|c0 l IH]; intros u Hl Nl Hi Hu; [destruct Hi|]. inversion Nl as [|? ? N1 N2]; subst. cbn [fold_left]. destruct Hi as [->|Hi].
    - rewrite X by exact N1. rewrite Hg, Nat.eqb_refl. do 2 f_equal. apply teval_ext. intros x Hx. apply Hu. now apply Hf.
    - assert (Ne : c <> c0) by (intros ->; contradiction). rewrite IH; [|intros x Hx; apply Hl; now right|exact N2|exact Hi|].
      + destruct (BuildProofs.source K ds c0); [|reflexivity]. destruct (Nat.eqb_spec c c0) as [->|_]; [contradiction|reflexivity].
      + destruct (BuildProofs.source K ds c0); [|exact Hu]. intros c' Hc'. destruct (Nat.eqb_spec c' c0) as [->|_]; [|now apply Hu]. destruct Hc'. apply Hl. now left. }
  apply Y; [intros x Hx; exact Hx|exact ND|exact Hc|exact HV].
Qed.
End Open.

(* ---- the statements of the kernels ---- *)
Section Same.
Variable K : ring.
Variables a b : salgo K.
Hypothesis H : same_algo K a b.
Lemma sassign_ext t lo hi (e e' : nat -> sym K) : (forall k, e k = e' k) -> sassign K t lo hi e = sassign K t lo hi e'.
Proof using. intros He. unfold sassign. apply map_ext. intros k. now rewrite He. Qed.
Lemma ysum_ext n (g h : nat -> sym K) : (forall j, g j = h j) -> ysum K n g = ysum K n h.
Proof using. intros Hg. unfold ysum. induction (seq 0 n) as [|j l IH]; [reflexivity|]. cbn. now rewrite Hg, IH. Qed.
Lemma same_yM i j : yM K a i j = yM K b i j.
Proof using H. unfold yM. now rewrite (sm_M _ _ _ H). Qed.
Lemma same_yinvM i j : yinvM K a i j = yinvM K b i j.
Proof using H. unfold yinvM. now rewrite (sm_invM _ _ _ H). Qed.
Lemma same_yTu i j : yTu K a i j = yTu K b i j.
Proof using H. unfold yTu. now rewrite (sm_Tu _ _ _ H). Qed.
Lemma same_yTmu i j : yTmu K a i j = yTmu K b i j.
Proof using H. unfold yTmu. now rewrite (sm_Tu _ _ _ H). Qed.
Lemma same_yMu i j : yMu K a i j = yMu K b i j.
Proof using H. unfold yMu, ymm. rewrite (sm_n _ _ _ H). apply ysum_ext. intros k. now rewrite same_yTu, same_yM. Qed.
Lemma same_yinvMu i j : yinvMu K a i j = yinvMu K b i j.
Proof using H. unfold yinvMu, ymm. rewrite (sm_n _ _ _ H). apply ysum_ext. intros k. now rewrite same_yinvM, same_yTmu. Qed.
Lemma same_yeq k : yeq K a k = yeq K b k.
Proof using H. unfold yeq. now rewrite (sm_eq _ _ _ H). Qed.
Lemma same_ys k : ys K a k = ys K b k.
Proof using H. unfold ys. now rewrite (sm_s _ _ _ H). Qed.
Lemma same_sf2m src : sf2m K a src = sf2m K b src.
Proof using H.
  unfold sf2m. pose proof (sm_rel _ _ _ H) as HR. rewrite (sm_n _ _ _ H), (sm_nc _ _ _ H), (sm_dim _ _ _ H). destruct (sa_relvel K a) as [r|], (sa_relvel K b) as [r'|]; try contradiction.
  - f_equal; [|f_equal].
    + apply sassign_ext. intros k. apply ysum_ext. intros j. now rewrite same_yM.
    + apply sassign_ext. intros k. now rewrite HR.
    + apply sassign_ext. intros k. apply ysum_ext. intros j. now rewrite same_yMu.
  - apply sassign_ext. intros k. apply ysum_ext. intros j. now rewrite same_yM.
Qed.
Lemma same_sm2f : sm2f K a = sm2f K b.
Proof using H.
  unfold sm2f. pose proof (sm_rel _ _ _ H) as HR. rewrite (sm_n _ _ _ H). destruct (sa_relvel K a) as [r|], (sa_relvel K b) as [r'|]; try contradiction;
    apply sassign_ext; intros k; apply ysum_ext; intros j; now rewrite ?same_yinvMu, ?same_yinvM.
Qed.
Lemma same_sequilibrium : sequilibrium K a = sequilibrium K b.
Proof using H. unfold sequilibrium. rewrite (sm_n _ _ _ H). apply sassign_ext. exact same_yeq. Qed.
Lemma same_srelaxation : srelaxation K a = srelaxation K b.
Proof using H.
  unfold srelaxation. pose proof (sm_rel _ _ _ H) as HR. rewrite (sm_n _ _ _ H). apply sassign_ext. intros k. rewrite same_ys. do 2 f_equal.
  destruct (sa_relvel K a) as [r|], (sa_relvel K b) as [r'|]; try contradiction; [|apply same_yeq]. apply ysum_ext. intros j. now rewrite same_yTu, same_yeq.
Qed.
Lemma same_swith : swith_source K a = swith_source K b.
Proof using H.
  unfold swith_source, ssource, ssource_of. rewrite (sm_src _ _ _ H), (sm_hdt _ _ _ H), (sm_n _ _ _ H). reflexivity.
Qed.
Lemma same_spull : spull K a = spull K b.
Proof using H.
  unfold spull. rewrite same_sf2m, same_swith, same_srelaxation, same_sm2f. pose proof (sm_rel _ _ _ H) as HR. do 3 f_equal. destruct (sa_relvel K a) as [r|], (sa_relvel K b) as [r'|]; try contradiction; [|reflexivity].
  unfold srestore. rewrite (sm_n _ _ _ H), (sm_nc _ _ _ H). f_equal. apply sassign_ext. intros k. apply ysum_ext. intros j. now rewrite same_yMu.
Qed.
Lemma same_still : same_algo K (still K a) (still K b).
Proof using H. destruct H. constructor; cbn; try assumption. exact I. Qed.
Lemma same_cython pos axes vel : cython_program K a pos axes vel = cython_program K b pos axes vel.
Proof using H. unfold cython_program. now rewrite same_spull, (sm_n _ _ _ H). Qed.
Lemma same_numpy pos axes vel : numpy_program K a pos axes vel = numpy_program K b pos axes vel.
Proof using H. unfold numpy_program. now rewrite same_spull, (sm_n _ _ _ H). Qed.
End Same.
Lemma same_start K a b : same_algo K a b -> forall pos consm be mom g ps data, start K a pos consm be mom g ps data = start K b pos consm be mom g ps data.
Proof.
  intros H pos consm be mom g ps data. pose proof (same_still K a b H) as HS.
  unfold start, start_at, initialization, set_rows, row_of, gen_equilibrium, gen_m2f, gen_f2m, on_cell, call.
  now rewrite (same_sequilibrium K _ _ HS), (same_sm2f K _ _ HS), (same_sf2m K _ _ HS), (sm_n _ _ _ H).
Qed.
