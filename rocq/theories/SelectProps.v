(* C104: some of the schemes of a simulation, in any order, do what they do in a simulation of their own. *)
From Coq Require Import QArith Lqa.
From Verif Require Import PyBase VelocityModel VelocityProofs Velocity3Proofs StencilModel StencilProofs StencilProps GridModel GridProofs StorageModel
  ExchangeProofs StorageProps LinAlg AlgoModel AlgoProofs RelVelProofs KernelProofs GlobalModel GlobalProofs TorusProofs AlgoProps GlobalProps
  GenModel GenProofs GenProps StepGenModel StepGenProofs StepGenProps SchemeModel SchemeProofs SchemeProps BuildModel BuildProofs BuildProps BuildFrame
  DomainModel DomainProofs DomainProps BoundaryModel BoundaryProofs BoundaryProps BoundaryUpdProps VesselProofs VesselProps ChannelProps
  ParallelModel ParallelProofs ObstacleProofs ParallelProps ObstacleProps ParallelMassProps WholeModel WholeProps InitGenModel InitGenProps DuctProps FlowProofs FlowProps PassiveProps AloneProps.
Require Import Lia.
Open Scope Z_scope.

(* ---- the numbers of the distributions ---- *)
Definition start_of (ss : list (list Z)) (b : nat) : nat := length (concat (firstn b ss)).
(* the scheme of the distribution k and its number in the scheme *)
Fixpoint locate (ss : list (list Z)) (k : nat) : nat * nat :=
  match ss with
  | [] => (0, k)%nat
  | s :: ss' => if Nat.ltb k (length s) then (0, k)%nat else let p := locate ss' (k - length s) in (S (fst p), snd p)
  end.
Lemma locate_at ss b s j : nth_error ss b = Some s -> (j < length s)%nat -> locate ss (start_of ss b + j) = (b, j).
Proof.
  revert b. induction ss as [|s0 ss IH]; intros b Hb Hj; [destruct b; discriminate|]. destruct b as [|b].
  - injection Hb as ->. unfold start_of. cbn [firstn concat length Nat.add locate]. destruct (Nat.ltb_spec j (length s)); [reflexivity|lia].
  - cbn in Hb. unfold start_of. cbn [firstn concat locate]. rewrite app_length. fold (start_of ss b). destruct (Nat.ltb_spec (length s0 + start_of ss b + j) (length s0)) as [L|L]; [lia|].
    replace (length s0 + start_of ss b + j - length s0)%nat with (start_of ss b + j)%nat by lia. now rewrite (IH b Hb Hj).
Qed.
(* the scheme b of s1 is the scheme e b of ss *)
Definition moved_to (ss s1 : list (list Z)) (e : nat -> nat) (k : nat) : nat := (start_of ss (e (fst (locate s1 k))) + snd (locate s1 k))%nat.
Lemma moved_at ss s1 e b s j : nth_error s1 b = Some s -> (j < length s)%nat -> moved_to ss s1 e (start_of s1 b + j) = (start_of ss (e b) + j)%nat.
Proof. intros H1 H2. unfold moved_to. now rewrite (locate_at s1 b s j H1 H2). Qed.
Lemma off_start (K : ring) (ds : list (sdict K)) ss b : map (nv K) ds = map (@length Z) ss -> off K ds b = start_of ss b.
Proof.
  intros H. unfold off, start_of. rewrite H. clear. revert b. induction ss as [|s ss IH]; intros [|b]; try reflexivity. cbn [map firstn fold_right concat]. now rewrite app_length, IH.
Qed.

(* ---- one cell ---- *)
Section Cell.
Variable K : ring.
Variable simp : term K -> term K.
Variables (dm : nat) (hdt : K) (ds d1 : list (sdict K)) (a a1 : salgo K) (ss s1 : list (list Z)) (e : nat -> nat).
Variable inv : nat -> mat K -> option (mat K).
Hypothesis HI : inv_spec K inv.
Hypothesis HSi : simp_spec K simp.
Hypothesis D : dict_ok K simp ds.
Hypothesis O : ordered K simp ds.
Hypothesis EB : build K inv simp None dm hdt ds = Some a.
Hypothesis D1 : dict_ok K simp d1.
Hypothesis EB1 : build K inv simp None dm hdt d1 = Some a1.
Hypothesis He : forall b d, nth_error d1 b = Some d -> nth_error ds (e b) = Some d.
Hypothesis Hsz : map (nv K) ds = map (@length Z) ss.
Hypothesis Hsz1 : map (nv K) d1 = map (@length Z) s1.
Notation pi := (moved_to ss s1 e).
Definition moved_vec (f : vec K) : vec K := fun k => f (pi k).

Lemma size_at b d : nth_error d1 b = Some d -> exists s, nth_error s1 b = Some s /\ nv K d = length s.
Proof using Hsz1.
  intros Hb. pose proof (map_nth_error (nv K) _ _ Hb) as M. rewrite Hsz1 in M. rewrite nth_error_map in M. destruct (nth_error s1 b) as [s|]; [|discriminate]. injection M as M. now exists s.
Qed.
Lemma pi_at b d j : nth_error d1 b = Some d -> (j < nv K d)%nat -> pi (off K d1 b + j) = (off K ds (e b) + j)%nat.
Proof using Hsz Hsz1. intros Hb Hj. destruct (size_at b d Hb) as (s & H1 & H2). rewrite (off_start K d1 s1 b Hsz1), (off_start K ds ss (e b) Hsz). apply (moved_at ss s1 e b s); [exact H1|now rewrite <- H2]. Qed.
Lemma mom_moved f b d i : nth_error d1 b = Some d -> mom K d1 (moved_vec f) b i = mom K ds f (e b) i.
Proof using Hsz Hsz1 He. intros Hb. unfold mom. rewrite Hb, (He b d Hb). apply sum_ext. intros j Hj. unfold moved_vec. now rewrite (pi_at b d j Hb Hj). Qed.
Lemma moment_moved c b d i : nth_error d1 b = Some d -> is_moment K simp ds c (e b) i <-> is_moment K simp d1 c b i.
Proof using He. intros Hb. unfold is_moment. now rewrite Hb, (He b d Hb). Qed.
Notation same u v := (forall c, In c (conserved K d1) -> u c = v c).
Lemma no_half l (u : vec K) c : (forall d t, In d l -> ~ In (c, t) (sd_src K d)) -> half K hdt l u c = u c.
Proof using.
  clear. intros H. assert (N : BuildProofs.source K l c = None).
  { unfold BuildProofs.source. destruct (find _ _) as [p|] eqn:Ef; [|reflexivity]. apply find_some in Ef as [Hp Hq]. apply Nat.eqb_eq in Hq. apply in_rev in Hp. apply in_concat in Hp as (m & Hm & Hp).
    apply in_map_iff in Hm as (d & <- & Hd). destruct (H d (snd p) Hd). destruct p; cbn in *; now subst. }
  unfold half. generalize (conserved K l) as cs. intros cs. revert u. induction cs as [|c' cs IH]; intros u; [reflexivity|]. cbn [fold_left]. rewrite IH.
  destruct (BuildProofs.source K l c') as [t|] eqn:Es; [|reflexivity]. destruct (Nat.eqb_spec c c') as [<-|_]; [congruence|reflexivity].
Qed.
Lemma in_ds d : In d d1 -> In d ds.
Proof using He. intros H. apply In_nth_error in H. destruct H as [b Hb]. apply He in Hb. now apply nth_error_In in Hb. Qed.
(* either the conserved moments of d1 have no source *)
Definition no_sources : Prop := forall d c t, In d ds -> In (c, t) (sd_src K d) -> ~ In c (conserved K d1).
(* or they have the same sources in both lists and the same order *)
Definition same_order : Prop := filter (fun c => existsb (Nat.eqb c) (conserved K d1)) (conserved K ds) = conserved K d1 /\
  forall c, In c (conserved K d1) -> BuildProofs.source K ds c = BuildProofs.source K d1 c.
Lemma half_none (u v : vec K) : no_sources -> same u v -> same (half K hdt ds u) (half K hdt d1 v).
Proof using He.
  intros HS H c Hc. rewrite !no_half; [now apply H| |].
  - intros d t Hd X. exact (HS d c t (in_ds d Hd) X Hc).
  - intros d t Hd X. exact (HS d c t Hd X Hc).
Qed.
Lemma half_order (u v : vec K) : same_order -> same u v -> same (half K hdt ds u) (half K hdt d1 v).
Proof using D1.
  intros [HF HR] H. pose (F := fun l => fold_left (fun (val : vec K) c => match BuildProofs.source K l c with Some g => fun c' => if Nat.eqb c' c then (val c + hdt * teval K val g)%K else val c' | None => val end)).
  assert (Eh : half K hdt d1 v = F d1 (filter (fun c => existsb (Nat.eqb c) (conserved K d1)) (conserved K ds)) v) by (rewrite HF; reflexivity).
  rewrite Eh. change (half K hdt ds u) with (F ds (conserved K ds) u). clear Eh HF. generalize (conserved K ds) as l. intros l. unfold F. clear F. revert u v H. induction l as [|c l IH]; intros u v H; [exact H|]. cbn [fold_left filter].
  destruct (existsb (Nat.eqb c) (conserved K d1)) eqn:Ex.
  - apply existsb_exists in Ex. destruct Ex as (c0 & Hc & Ec). apply Nat.eqb_eq in Ec. subst c0. cbn [fold_left]. rewrite <- (HR c Hc). apply IH. destruct (BuildProofs.source K ds c) as [t|] eqn:Es; [|exact H].
    intros c' Hc'. destruct (Nat.eqb c' c); [|now apply H]. rewrite (H c Hc). f_equal. f_equal. apply teval_ext. intros c0 H0. apply H. rewrite (HR c Hc) in Es. exact (source_closed K simp d1 D1 c t Es c0 H0).
  - apply IH. intros c' Hc'. destruct (BuildProofs.source K ds c) as [t|]; [|now apply H]. destruct (Nat.eqb_spec c' c) as [->|_]; [|now apply H].
    assert (X : existsb (Nat.eqb c) (conserved K d1) = true) by (apply existsb_exists; exists c; split; [exact Hc'|apply Nat.eqb_refl]). congruence.
Qed.
Hypothesis HS : no_sources \/ same_order.
Lemma half_moved (u v : vec K) : same u v -> same (half K hdt ds u) (half K hdt d1 v).
Proof using HS He D1. intros H. destruct HS as [X|X]; [now apply half_none|now apply half_order]. Qed.
Lemma values_moved f u v : conserved_values K simp ds f u -> conserved_values K simp d1 (moved_vec f) v -> same u v.
Proof using HI D1 EB1 Hsz Hsz1 He.
  intros Hu Hv c Hc. destruct (found K simp hdt d1 D1 inv None dm a1 HI EB1 c Hc) as (b & i & Hm). pose proof Hm as (d & Hb & _).
  rewrite (Hv c b i Hm), (Hu c (e b) i) by (now apply (moment_moved c b d i Hb)). symmetry. now apply (mom_moved f b d).
Qed.
Theorem C104_cell f f' : collided K simp hdt ds f f' -> collided K simp hdt d1 (moved_vec f) (moved_vec f').
Proof using HI HSi D O EB D1 EB1 HS He Hsz Hsz1.
  intros H. destruct (values_ex K simp hdt ds D O inv None dm a HI EB f) as [u Hu]. destruct (H u Hu) as [H1 H2]. intros v Hv v1.
  pose proof (values_moved f u v Hu Hv) as S0. pose proof (half_moved u v S0) as S1. pose proof (half_moved _ _ S1) as S2. fold v1 in S1, S2. split.
  - intros c b i Hm. pose proof Hm as (d & Hb & _). rewrite (mom_moved f' b d i Hb). rewrite (H1 c (e b) i) by (now apply (moment_moved c b d i Hb)). apply S2. exact (FlowProofs.moment_in K simp d1 c b i Hm).
  - intros b i d Hb Hi Hn s. rewrite !(mom_moved _ b d i Hb). assert (Hd : In d d1) by now apply nth_error_In in Hb.
    rewrite (H2 (e b) i d); [|now apply He|exact Hi|intros c Hm; apply (Hn c); now apply (moment_moved c b d i Hb)].
    rewrite (closed_rate K simp d1 D1 d i _ v1 Hd S1), (closed_eqv K simp d1 HSi D1 d i _ v1 Hd Hi S1). reflexivity.
Qed.
Theorem C104_initial l l1 x f :
  (forall rk rk1 c w, nth_error (conserved K ds) rk = Some c -> nth_error (conserved K d1) rk1 = Some c -> given_value K ds l rk x w -> given_value K d1 l1 rk1 x w) ->
  initial_state K simp ds l x f -> initial_state K simp d1 l1 x (moved_vec f).
Proof using HI HSi D O EB D1 EB1 He Hsz Hsz1.
  intros HL [H1 H2]. destruct (values_ex K simp hdt ds D O inv None dm a HI EB f) as [u Hu]. split.
  - intros rk1 c b i Hr Hm. pose proof Hm as (d & Hb & _). rewrite (mom_moved f b d i Hb). pose proof (proj2 (moment_moved c b d i Hb) Hm) as Hm'.
    destruct (In_nth_error _ _ (FlowProofs.moment_in K simp ds c (e b) i Hm')) as [rk Hrk]. apply (HL rk rk1 c); [exact Hrk|exact Hr|]. exact (H1 rk c (e b) i Hrk Hm').
  - intros v Hv b i d Hb Hi. rewrite (mom_moved f b d i Hb). rewrite (H2 u Hu (e b) i d) by (try apply He; assumption).
    apply (closed_eqv K simp d1 HSi D1 d i u v); [now apply nth_error_In in Hb|exact Hi|]. exact (values_moved f u v Hu Hv).
Qed.
End Cell.

(* ---- the stencils, the links and the simulations ---- *)
Section Select.
Variables (dimz : Z) (ss s1 : list (list Z)) (e : nat -> nat) (st st1 : stencil) (r r1 : list Z) (g : grid) (es : list DomainModel.elem) (labs : list Z) (conds conds1 : Z -> list (nat * method)).
Variables (Dm Dm1 : dom) (ms ms1 : list (method * list blink)).
Hypothesis ND : Forall (@NoDup Z) s1.
Hypothesis E : serial dimz ss st r g es labs conds Dm ms.
Hypothesis E1 : serial dimz s1 st1 r1 g es labs conds1 Dm1 ms1.
Hypothesis He : forall b s, nth_error s1 b = Some s -> nth_error ss (e b) = Some s.
Notation BF := (build_facts dimz ss st (e_nn _ _ _ _ _ _ _ _ _ _ E) (e_build _ _ _ _ _ _ _ _ _ _ E)).
Notation BF1 := (build_facts dimz s1 st1 (e_nn _ _ _ _ _ _ _ _ _ _ E1) (e_build _ _ _ _ _ _ _ _ _ _ E1)).
Notation pi := (moved_to ss s1 e).
Notation n1 := (length (concat s1)).
Lemma dom_sel : Dm1 = Dm.
Proof using E E1. pose proof (e_dom _ _ _ _ _ _ _ _ _ _ E). pose proof (e_dom _ _ _ _ _ _ _ _ _ _ E1). congruence. Qed.
Lemma unique_sel : sunique st1 = sunique st.
Proof using E E1.
  pose proof (e_vel _ _ _ _ _ _ _ _ _ _ E) as V. rewrite (e_vel _ _ _ _ _ _ _ _ _ _ E1) in V.
  pose proof (b_uwf _ _ _ BF) as W. pose proof (b_uwf _ _ _ BF1) as W'. clear - V W W'. revert V. generalize dependent (sunique st). induction (sunique st1) as [|v l IH]; intros [|w l'] W V; try discriminate; [reflexivity|].
  cbn [map] in V. injection V as V1 V2. inversion W as [|? ? [Ww _] Wt]. inversion W' as [|? ? [Wv _] Wt']. subst. f_equal; [now apply wf_coords_inj|]. now apply IH.
Qed.
Lemma num_sel v w : In v (sunique st) -> In w (sunique st) -> vnum v = vnum w -> v = w.
Proof using E.
  pose proof (b_ustrict _ _ _ BF) as S. intros Hv Hw Ev. apply In_nth_error in Hv. apply In_nth_error in Hw. destruct Hv as [i Hi]. destruct Hw as [j Hj].
  assert (i = j); [|subst; congruence]. pose proof (map_nth_error vnum _ _ Hi) as Mi. pose proof (map_nth_error vnum _ _ Hj) as Mj. rewrite Ev in Mi.
  assert (N : NoDup (map vnum (sunique st))) by (apply strictly_NoDup; exact S). rewrite NoDup_nth_error in N. apply N; [apply nth_error_Some; congruence|congruence].
Qed.
Lemma sv_sel s vs : nth_error (sv st1) s = Some vs -> nth_error (sv st) (e s) = Some vs /\ exists sc, nth_error s1 s = Some sc /\ length vs = length sc.
Proof using E E1 He.
  intros Hs. pose proof (map_nth_error (map vnum) _ _ Hs) as M. rewrite (b_v _ _ _ BF1) in M. split; [|exists (map vnum vs); split; [exact M|now rewrite map_length]].
  apply He in M. rewrite <- (b_v _ _ _ BF), nth_error_map in M. destruct (nth_error (sv st) (e s)) as [ws|] eqn:Ew; [|discriminate]. injection M as M. f_equal.
  assert (I : forall v, In v ws -> In v (sunique st)) by (intros v; apply (b_vin _ _ _ BF); now apply nth_error_In in Ew).
  assert (I1 : forall v, In v vs -> In v (sunique st)) by (intros v; rewrite <- unique_sel; apply (b_vin _ _ _ BF1); now apply nth_error_In in Hs).
  pose proof num_sel as J. clear - M I I1 J. revert vs M I1. induction ws as [|w l IH]; intros [|v m] M I1; try discriminate; [reflexivity|]. cbn in M. injection M as M1 M2.
  f_equal; [apply J; auto using in_eq|]. apply IH; auto using in_cons.
Qed.
Lemma row_st s i : row st s i = (start_of ss s + i)%nat.
Proof using E. unfold row, start_of. rewrite <- (b_v _ _ _ BF) at 1. rewrite firstn_map, <- concat_map. now rewrite map_length. Qed.
Lemma row_st1 s i : row st1 s i = (start_of s1 s + i)%nat.
Proof using E1. unfold row, start_of. rewrite <- (b_v _ _ _ BF1) at 1. rewrite firstn_map, <- concat_map. now rewrite map_length. Qed.
Lemma pi_row s vs i v : nth_error (sv st1) s = Some vs -> nth_error vs i = Some v -> pi (row st1 s i) = row st (e s) i.
Proof using E E1 He.
  intros Hs Hi. destruct (sv_sel s vs Hs) as (_ & sc & H1 & H2). rewrite row_st, row_st1. apply (moved_at ss s1 e s sc); [exact H1|]. rewrite <- H2. apply nth_error_Some. congruence.
Qed.
Lemma row_ex1 k : (k < n1)%nat -> exists s vs i v, nth_error (sv st1) s = Some vs /\ nth_error (sv st) (e s) = Some vs /\ nth_error vs i = Some v /\ k = row st1 s i /\ pi k = row st (e s) i.
Proof using E E1 He.
  intros Hk. destruct (VesselProofs.row_of dimz s1 st1 r1 g Dm1 conds1 _ ms1 (serial_setting _ _ _ _ _ _ _ _ _ _ E1) k Hk) as (s & vs & i & v & Hs & Hi & -> & _). exists s, vs, i, v.
  destruct (sv_sel s vs Hs) as [H1 _]. split; [exact Hs|]. split; [exact H1|]. split; [exact Hi|]. split; [reflexivity|]. now apply (pi_row s vs i v).
Qed.
Lemma velk_sel k : (k < n1)%nat -> velk st (pi k) = velk st1 k.
Proof using E E1 He. intros Hk. destruct (row_ex1 k Hk) as (s & vs & i & v & H1 & H2 & H3 & -> & ->). now rewrite (row_velk st1 s vs i v H1 H3), (row_velk st (e s) vs i v H2 H3). Qed.
Lemma row_lt1 s vs i v : nth_error (sv st1) s = Some vs -> nth_error vs i = Some v -> (row st1 s i < n1)%nat.
Proof using E1. exact (row_lt dimz s1 st1 r1 g es labs conds1 Dm1 ms1 E1 s vs i v). Qed.
Lemma symk_sel k : (k < n1)%nat -> symk r (pi k) = pi (symk r1 k) /\ (symk r1 k < n1)%nat.
Proof using E E1 ND He.
  intros Hk. destruct (row_ex1 k Hk) as (s & vs & i & v & H1 & H2 & H3 & H4 & H5).
  destruct (sym_row0 g es labs _ _ _ _ conds _ _ _ (e s) vs i v E eq_refl H2 H3) as (j & u & U1 & U2 & U3). destruct (sym_row0 g es labs _ _ _ _ conds1 _ _ _ s vs i v E1 eq_refl H1 H3) as (j' & u' & V1 & V2 & V3).
  rewrite <- H5 in U3. rewrite <- H4 in V3. rewrite U3, V3. rewrite (pi_row s vs j' u' H1 V1). split; [|now apply (row_lt1 s vs j' u')]. f_equal.
  assert (Eu : u = u').
  { assert (Wu : forall w, In w vs -> wf_velocity w).
    { intros w Hw. pose proof (b_uwf _ _ _ BF) as W. rewrite Forall_forall in W. apply W. eapply (b_vin _ _ _ BF); [eapply nth_error_In; eauto|exact Hw]. }
    apply wf_coords_inj; [apply Wu; eapply nth_error_In; eauto|apply Wu; eapply nth_error_In; eauto|]. change (vel_list u = vel_list u'). congruence. }
  subst u'. assert (N : NoDup vs).
  { apply (NoDup_map_inv vnum). rewrite Forall_forall in ND. apply ND. rewrite <- (b_v _ _ _ BF1). apply in_map. eapply nth_error_In; eauto. }
  rewrite NoDup_nth_error in N. apply N; [apply nth_error_Some; congruence|congruence].
Qed.
(* the same conditions, under the new numbers of the schemes *)
Hypothesis HC : forall lab s m, (s < length s1)%nat -> In (e s, m) (conds lab) <-> In (s, m) (conds1 lab).
(* the same link, under the new number *)
Definition renumbered (b : blink) (k : nat) : blink := mkB k (b_cell b) (b_lab b) (b_dist b) (b_norm b).
Lemma link_to m b1 : has ms1 m b1 -> (b_k b1 < n1)%nat /\ has ms m (renumbered b1 (pi (b_k b1))).
Proof using E E1 He HC.
  pose proof (boundary_links dimz _ st (e_nn _ _ _ _ _ _ _ _ _ _ E) (e_build _ _ _ _ _ _ _ _ _ _ E) g Dm conds _ ms (e_bound _ _ _ _ _ _ _ _ _ _ E)) as BL.
  pose proof (boundary_links dimz _ st1 (e_nn _ _ _ _ _ _ _ _ _ _ E1) (e_build _ _ _ _ _ _ _ _ _ _ E1) g Dm1 conds1 _ ms1 (e_bound _ _ _ _ _ _ _ _ _ _ E1)) as BL1. rewrite BL, BL1. clear BL BL1.
  intros (lab & s & vs & i & v & num & w & x & Hlab & N1 & N2 & Hc & Hs & Hi & Hw & Ew & Hx & Hf & ->). unfold renumbered. cbn [b_k b_cell b_lab b_dist b_norm]. split; [now apply (row_lt1 s vs i v)|].
  destruct (sv_sel s vs Hs) as (H1 & sc & H2 & _). assert (Ls : (s < length s1)%nat) by (apply nth_error_Some; congruence).
  rewrite dom_sel in *. rewrite unique_sel in Hw. rewrite (pi_row s vs i v Hs Hi). rewrite <- HC in Hc by exact Ls. exists lab, (e s), vs, i, v, num, w, x. repeat (split; [assumption|]). reflexivity.
Qed.
Lemma link_from m b j : has ms m b -> (j < n1)%nat -> b_k b = pi j -> has ms1 m (renumbered b j).
Proof using E E1 He HC.
  pose proof (boundary_links dimz _ st (e_nn _ _ _ _ _ _ _ _ _ _ E) (e_build _ _ _ _ _ _ _ _ _ _ E) g Dm conds _ ms (e_bound _ _ _ _ _ _ _ _ _ _ E)) as BL.
  pose proof (boundary_links dimz _ st1 (e_nn _ _ _ _ _ _ _ _ _ _ E1) (e_build _ _ _ _ _ _ _ _ _ _ E1) g Dm1 conds1 _ ms1 (e_bound _ _ _ _ _ _ _ _ _ _ E1)) as BL1. rewrite BL, BL1. clear BL BL1.
  intros (lab & s & vs & i & v & num & w & x & Hlab & N1 & N2 & Hc & Hs & Hi & Hw & Ew & Hx & Hf & ->) Hj Hk. unfold renumbered. cbn [b_k b_cell b_lab b_dist b_norm] in *.
  destruct (row_ex1 j Hj) as (s0 & vs0 & i0 & v0 & A1 & A2 & A3 & A4 & A5). rewrite A5 in Hk.
  assert (X : s = e s0 /\ i = i0).
  { assert (Y : locate ss (start_of ss s + i) = locate ss (start_of ss (e s0) + i0)) by (rewrite <- !row_st; now rewrite Hk).
    pose proof (map_nth_error (map vnum) _ _ Hs) as M. rewrite (b_v _ _ _ BF) in M. pose proof (map_nth_error (map vnum) _ _ A2) as M0. rewrite (b_v _ _ _ BF) in M0.
    rewrite (locate_at ss s _ i M), (locate_at ss (e s0) _ i0 M0) in Y by (rewrite map_length; apply nth_error_Some; congruence). injection Y as Y1 Y2. auto. }
  destruct X as [-> ->]. rewrite A2 in Hs. injection Hs as <-. rewrite A3 in Hi. injection Hi as <-. destruct (sv_sel s0 vs0 A1) as (_ & sc & H2 & _). assert (Ls : (s0 < length s1)%nat) by (apply nth_error_Some; congruence).
  exists lab, s0, vs0, i0, v0, num, w, x. rewrite dom_sel, unique_sel, A4. rewrite HC in Hc by exact Ls. repeat (split; [assumption|]). reflexivity.
Qed.
Definition pk (p : nat * cell) : nat * cell := (pi (fst p), snd p).
Lemma load0_sel m b : (b_k b < n1)%nat -> iload0 g (velk st) (symk r) m (renumbered b (pi (b_k b))) = pk (iload0 g (velk st1) (symk r1) m b).
Proof using E E1 ND He.
  intros Hk. destruct (symk_sel _ Hk) as [S _]. pose proof (velk_sel _ Hk) as V. unfold iload0, pk, ahead, ahead2, ahead_axis, near, renumbered. cbn [b_k b_cell b_lab b_dist b_norm]. rewrite S, V. destruct m; cbn [fst snd]; try reflexivity; destruct (Qltb _ _); reflexivity.
Qed.
Lemma load1_sel b : (b_k b < n1)%nat -> iload1 g (velk st) (symk r) (renumbered b (pi (b_k b))) = pk (iload1 g (velk st1) (symk r1) b).
Proof using E E1 ND He.
  intros Hk. destruct (symk_sel _ Hk) as [S _]. pose proof (velk_sel _ Hk) as V. unfold iload1, pk, ahead, ahead2, near, renumbered. cbn [b_k b_cell b_lab b_dist b_norm]. rewrite S, V. destruct (Qltb _ _); reflexivity.
Qed.
Lemma quiet_sel : quiet st r g ms -> quiet st1 r1 g ms1.
Proof using E E1 ND HC He.
  intros HQ m b p Hb Hp Hw. destruct (link_to m b Hb) as [Hk Hb']. apply (HQ m _ (pk p) Hb').
  - assert (L : loads g (velk st) (symk r) m (renumbered b (pi (b_k b))) = map pk (loads g (velk st1) (symk r1) m b)) by (unfold loads; destruct m; cbn [map]; now rewrite ?(load0_sel _ b Hk), ?(load1_sel b Hk)).
    rewrite L. now apply in_map.
  - apply ParallelProofs.written_has in Hw. destruct Hw as (m2 & b2 & Hb2 & <-). destruct (link_to m2 b2 Hb2) as [_ H2]. exact (has_written ms m2 _ H2).
Qed.
Variables (K : ring) (qk : Q -> K).
Notation gmoved := (fun (G : list Z -> vec K) x => moved_vec K ss s1 e (G x)).
(* the equilibria at the walls, under the new numbers *)
Definition walls_sel (phi phi1 : Z -> list Q -> nat -> K) : Prop := forall lab x k, (k < n1)%nat -> phi1 lab x k = phi lab x (pi k).
Lemma bvalue_sel phi phi1 G m b : walls_sel phi phi1 -> (b_k b < n1)%nat ->
  bvalue K qk g (velk st1) (symk r1) (feq_of st1 phi1 g) m (gfield g K (gmoved G)) b = bvalue K qk g (velk st) (symk r) (feq_of st phi g) m (gfield g K G) (renumbered b (pi (b_k b))).
Proof using E E1 ND He.
  intros HW Hk. destruct (symk_sel _ Hk) as [S L]. pose proof (velk_sel _ Hk) as V.
  assert (A : forall p, at_ K (gfield g K (gmoved G)) p = at_ K (gfield g K G) (pk p)) by (intros [k c]; reflexivity).
  assert (W : forall k, (k < n1)%nat -> feq_of st1 phi1 g b k = feq_of st phi g (renumbered b (pi (b_k b))) (pi k)).
  { intros k Hk'. unfold feq_of. rewrite HW by exact Hk'. unfold renumbered. cbn [b_lab]. f_equal. unfold wall_point. apply map_ext. intros d. unfold bcoord. cbn [b_k b_cell b_dist].
    change (nth (b_k b) (get_all_velocities st1) []) with (velk st1 (b_k b)). change (nth (pi (b_k b)) (get_all_velocities st) []) with (velk st (pi (b_k b))). now rewrite V. }
  unfold bvalue, rhs. cbv zeta. rewrite (load1_sel b Hk). destruct m; rewrite (load0_sel _ b Hk), ?A; change (b_k (renumbered b (pi (b_k b)))) with (pi (b_k b)); rewrite ?S, <- ?W by assumption; reflexivity.
Qed.
Lemma arrives_sel phi phi1 G x j v : walls_sel phi phi1 -> (j < n1)%nat -> arrives st r g ms K qk phi G x (pi j) v -> arrives st1 r1 g ms1 K qk phi1 (gmoved G) x j v.
Proof using E E1 ND HC He.
  intros HW Hj. unfold arrives. cbv zeta. unfold before. rewrite (velk_sel j Hj). intros [(m & b & H1 & H2 & H3 & ->)|[H1 ->]].
  - left. exists m, (renumbered b j). split; [now apply link_from|]. split; [reflexivity|]. split; [exact H3|]. rewrite (bvalue_sel phi phi1 G m (renumbered b j) HW Hj). f_equal. unfold renumbered. cbn [b_k b_cell b_lab b_dist b_norm]. rewrite <- H2. now destruct b.
  - right. split; [|reflexivity]. intros m b Hb [B1 B2]. destruct (link_to m b Hb) as [_ H2]. apply (H1 m _ H2). unfold renumbered. cbn [b_k b_cell]. now rewrite B1.
Qed.
Variable inv : nat -> mat K -> option (mat K).
Variable simp : term K -> term K.
Variables (dm : nat) (hdt : K) (ds d1 : list (sdict K)) (a a1 : salgo K).
Hypothesis HI : inv_spec K inv.
Hypothesis HSi : simp_spec K simp.
Hypothesis D : dict_ok K simp ds.
Hypothesis O : ordered K simp ds.
Hypothesis EB : build K inv simp None dm hdt ds = Some a.
Hypothesis D1 : dict_ok K simp d1.
Hypothesis O1 : ordered K simp d1.
Hypothesis EB1 : build K inv simp None dm hdt d1 = Some a1.
Hypothesis Hed : forall b d, nth_error d1 b = Some d -> nth_error ds (e b) = Some d.
Hypothesis HS : no_sources K ds d1 \/ same_order K ds d1.
Hypothesis HPl : forall d t, In d ds -> In t (sd_P K d) -> below K dm t.
Hypothesis Hsz : map (nv K) ds = map (@length Z) ss.
Hypothesis Hsz1 : map (nv K) d1 = map (@length Z) s1.
Hypothesis HQ : quiet st r g ms.
Lemma total_schemes (l : list (sdict K)) sl : map (nv K) l = map (@length Z) sl -> SchemeModel.total (sizes K l) = length (concat sl).
Proof using. clear. intros H. unfold sizes. rewrite H. clear. induction sl as [|s l IH]; [reflexivity|]. cbn [map concat]. rewrite app_length, <- IH. reflexivity. Qed.
Lemma pi_total k : (k < n1)%nat -> (pi k < SchemeModel.total (sizes K ds))%nat.
Proof using E E1 He Hsz.
  intros Hk. destruct (row_ex1 k Hk) as (s & vs & i & v & H1 & H2 & H3 & _ & ->). rewrite (total_schemes ds ss Hsz). exact (row_lt dimz ss st r g es labs conds Dm ms E (e s) vs i v H2 H3).
Qed.
Theorem C104_history phis phis1 G : history st r g ms K qk simp hdt ds phis G -> (forall t, walls_sel (phis t) (phis1 t)) ->
  history st1 r1 g ms1 K qk simp hdt d1 phis1 (fun t => gmoved (G t)).
Proof using E E1 ND HC He HI HSi D O EB D1 EB1 HS Hed Hsz Hsz1.
  intros H HW t x. destruct (H t x) as (f & F1 & F2). exists (moved_vec K ss s1 e f). split.
  - intros j Hj. rewrite (total_schemes d1 s1 Hsz1) in Hj. apply (arrives_sel (phis t) (phis1 t)); [apply HW|exact Hj|]. apply F1. now apply pi_total.
  - exact (C104_cell K simp dm hdt ds d1 a a1 ss s1 e inv HI HSi D O EB D1 EB1 Hed Hsz Hsz1 HS f (G (S t) x) F2).
Qed.
(* The schemes d1 in a simulation of their own: the distributions they have among the schemes ds,
   at all times, under the new numbers. *)
Theorem C104_selected l l1 phis phis1 : data_ok K ds l -> data_ok K d1 l1 -> walls_ok K phis -> walls_ok K phis1 -> (forall t, walls_sel (phis t) (phis1 t)) ->
  (forall x rk rk1 c w, cell_in g x -> nth_error (conserved K ds) rk = Some c -> nth_error (conserved K d1) rk1 = Some c ->
     given_value K ds l rk (point g (cell_of g x)) w -> given_value K d1 l1 rk1 (point g (cell_of g x)) w) ->
  exists G, simulates st r g es labs conds K qk inv simp ds a l phis G /\
    simulates st1 r1 g es labs conds1 K qk inv simp d1 a1 l1 phis1 (fun t x k => G t x (pi k)).
Proof using E E1 ND HC He HI HSi D O EB D1 O1 EB1 HS Hed HPl Hsz Hsz1 HQ.
  intros Hl Hl1 Hp Hp1 HW HL.
  destruct (flow dimz ss st r g es labs conds Dm ms E K qk inv simp dm hdt ds a HI HSi D O EB HPl Hsz HQ l phis Hl Hp) as (G & G0 & GH & GS). exists G. split; [exact GS|].
  apply (sim_of dimz s1 st1 r1 g es labs conds1 Dm1 ms1 E1 K qk inv simp dm hdt d1 a1 HI HSi D1 O1 EB1); try assumption.
  - intros d t Hd. apply HPl. now apply (in_ds K ds d1 e Hed).
  - now apply quiet_sel.
  - now apply (C104_history phis phis1 G).
  - intros x Hx. apply (C104_initial K simp dm hdt ds d1 a a1 ss s1 e inv HI HSi D O EB D1 EB1 Hed Hsz Hsz1 l l1); [|now apply G0]. intros rk rk1 c w. now apply HL.
Qed.
End Select.
Print Assumptions C104_cell.
Print Assumptions C104_initial.
Print Assumptions C104_history.
Print Assumptions C104_selected.

(* ---- example ---- the two schemes of C103_example in the other order *)
Definition swap (b : nat) : nat := (1 - b)%nat.
Definition pds_swap : list (sdict Zring) := [dpas 6 (Bin zmul (Var 5) (Var 6)); dpas 5 q3].
Definition build_swap := build Zring pinv nosimp None 1 1 pds_swap.
Lemma swap_moment c b i : is_moment Zring nosimp pds_swap c b i <-> ((c = 6 /\ b = 0 /\ i = 0) \/ (c = 5 /\ b = 1 /\ i = 0))%nat.
Proof.
  split.
  - intros (d & H1 & H2 & H3 & H4 & _). destruct b as [|[|[|b]]]; try discriminate; injection H1 as <-;
      (destruct i as [|[|i]]; cbn in H4, H3; [|discriminate|lia]); [left|right]; (split; [congruence|auto]).
  - intros [(-> & -> & ->)|(-> & -> & ->)]; eexists; (split; [reflexivity|]); (split; [now left|]); (split; [cbn; lia|]); (split; [reflexivity|]); intros j Hj; lia.
Qed.
Lemma swap_ok : dict_ok Zring nosimp pds_swap.
Proof.
  constructor; unfold BuildProofs.closed; cbn.
  - repeat constructor.
  - intros d N [<-|[<-|[]]] E; discriminate.
  - repeat constructor; cbn; intuition discriminate.
  - intros d t [<-|[<-|[]]] Ht c Hc; cbn in Ht; (destruct Ht as [<-|[<-|[]]]); cbn in Hc; intuition.
  - intros d t [<-|[<-|[]]] Ht c Hc; cbn in Ht; (destruct Ht as [<-|[<-|[]]]); destruct Hc.
  - intros d c g [<-|[<-|[]]] Hc; destruct Hc.
Qed.
Lemma swap_ordered : ordered Zring nosimp pds_swap.
Proof. intros k c b i Hk Hm. apply swap_moment in Hm as [(-> & -> & ->)|(-> & -> & ->)]; destruct k as [|[|[|k]]]; try discriminate; cbn; lia. Qed.
Lemma pds_given2 (K : ring) ds k1 k2 (f h : list Q -> K) rk rk' P w : refers K ds k1 rk' -> refers K ds k2 rk -> ~ refers K ds k1 rk -> given_value K ds [(k1, f); (k2, h)] rk P w <-> w = h P.
Proof.
  intros R1 R2 N1. split.
  - intros [(l1 & k & v & l2 & E & R & L & ->)|[N _]].
    + destruct l1 as [|p l1]; cbn in E; [injection E as <- <- <-; contradiction|]. injection E as _ E. destruct l1 as [|p1 l1]; cbn in E; [now injection E as <- <- <-|].
      injection E as _ E. destruct l1; discriminate.
    + destruct (N _ (or_intror (or_introl eq_refl))). exact R2.
  - intros ->. left. exists [(k1, f)], k2, h, []. split; [reflexivity|]. split; [exact R2|]. split; [intros p []|reflexivity].
Qed.
Lemma pds_given1 (K : ring) ds k1 k2 (f h : list Q -> K) rk P w : refers K ds k1 rk -> ~ refers K ds k2 rk -> given_value K ds [(k1, f); (k2, h)] rk P w <-> w = f P.
Proof.
  intros R1 N2. split.
  - intros [(l1 & k & v & l2 & E & R & L & ->)|[N _]].
    + destruct l1 as [|p l1]; cbn in E; [now injection E as <- <- <-|]. injection E as _ E. destruct l1 as [|p1 l1]; cbn in E; [injection E as <- <- <-; contradiction|].
      injection E as _ E. destruct l1; discriminate.
    + destruct (N _ (or_introl eq_refl)). exact R1.
  - intros ->. left. exists [], k1, f, [(k2, h)]. split; [reflexivity|]. split; [exact R1|]. split; [intros p [<-|[]]; exact N2|reflexivity].
Qed.
Example C104_example f h : (forall x y, Forall2 Qeq x y -> f x = f y) -> (forall x y, Forall2 Qeq x y -> h x = h y) ->
  exists a a1, pbuild = Some a /\ build_swap = Some a1 /\ exists G,
  simulates pst2 [1; 0; 3; 2] (sline 6) [] [] bb2 Zring (fun _ => 0) pinv nosimp pds a [(ISym 5, f); (ISym 6, h)] wphi G /\
  simulates pst2 [1; 0; 3; 2] (sline 6) [] [] bb2 Zring (fun _ => 0) pinv nosimp pds_swap a1 [(ISym 5, f); (ISym 6, h)] wphi (fun t x k => G t x (moved_to [[1; 2]; [1; 2]] [[1; 2]; [1; 2]] swap k)) /\
  map (moved_to [[1; 2]; [1; 2]] [[1; 2]; [1; 2]] swap) [0; 1; 2; 3]%nat = [2; 3; 0; 1]%nat.
Proof.
  intros Hf Hh. destruct (built_ex pbuild) as [a Ea]; [vm_compute; reflexivity|]. destruct (built_ex build_swap) as [a1 Ea1]; [vm_compute; reflexivity|]. exists a, a1. split; [exact Ea|]. split; [exact Ea1|].
  destruct (C104_selected 1 [[1; 2]; [1; 2]] [[1; 2]; [1; 2]] swap pst2 pst2 [1; 0; 3; 2] [1; 0; 3; 2] (sline 6) [] [] bb2 bb2 (sD 6 []) (sD 6 []) pms2 pms2) with
    (K := Zring) (qk := fun _ : Q => 0) (inv := pinv) (simp := nosimp) (dm := 1%nat) (hdt := 1) (ds := pds) (d1 := pds_swap) (a := a) (a1 := a1) (l := [(ISym 5, f); (ISym 6, h)]) (l1 := [(ISym 5, f); (ISym 6, h)]) (phis := wphi) (phis1 := wphi) as (G & G1 & G2).
  - repeat constructor; cbn; intuition discriminate.
  - exact pserial2.
  - exact pserial2.
  - intros [|[|b]] s Hb; [exact Hb|exact Hb|destruct b; discriminate].
  - intros lab [|[|s]] m Hs; [| |cbn in Hs; lia]; cbn; intuition congruence.
  - apply zinv_ok.
  - exact fsimp.
  - exact pds_ok.
  - exact pds_ordered.
  - exact Ea.
  - exact swap_ok.
  - exact swap_ordered.
  - exact Ea1.
  - intros [|[|b]] d Hb; [exact Hb|exact Hb|destruct b; discriminate].
  - left. intros d c t [<-|[<-|[]]] Hc; destruct Hc.
  - exact pds_below.
  - reflexivity.
  - reflexivity.
  - exact pquiet.
  - now apply pds_data.
  - split; [intros p x y [<-|[<-|[]]] H; [now apply Hf|now apply Hh]|]. intros p [<-|[<-|[]]]; [exists 1%nat|exists 0%nat]; (split; [cbn; lia|reflexivity]).
  - exact wphi_ok.
  - exact wphi_ok.
  - intros t lab x k _. reflexivity.
  - intros x rk rk1 c w _ Hr Hr1 W. destruct rk as [|[|rk]]; [| |destruct rk; discriminate]; (destruct rk1 as [|[|rk1]]; [| |destruct rk1; discriminate]); cbn in Hr, Hr1; try congruence.
    + apply pds_given1 in W; [|reflexivity|discriminate]. apply pds_given1; [reflexivity|discriminate|exact W].
    + apply (pds_given2 _ _ _ _ _ _ _ 0%nat) in W; [|reflexivity|reflexivity|discriminate]. apply (pds_given2 _ _ _ _ _ _ _ 1%nat); [reflexivity|reflexivity|discriminate|exact W].
  - exists G. split; [exact G1|]. split; [exact G2|reflexivity].
Qed.
(* With sources the order of the schemes matters: the half steps of the sources are made in the order
   of the conserved moments, each with the values the ones before have left. *)
Definition dsrc (c : nat) (t : term Zring) : sdict Zring :=
  mkSdict Zring [[1]; [-1]] [Num (K := Zring) 1%Z; Un zhalf (Bin zadd X (Num (K := Zring) 1%Z))] None
    [Num (K := Zring) 0%Z; Num (K := Zring) 2%Z] [Var c; Num (K := Zring) 0%Z] None [c] [(c, t)].
Definition heated : list (sdict Zring) := [dsrc 5 (Num (K := Zring) 1%Z); dsrc 6 (Var 5)].
Definition heated_swap : list (sdict Zring) := [dsrc 6 (Var 5); dsrc 5 (Num (K := Zring) 1%Z)].
Lemma heated_moment c0 c1 t0 t1 c b i : is_moment Zring nosimp [dsrc c0 t0; dsrc c1 t1] c b i <-> ((c = c0 /\ b = 0 /\ i = 0) \/ (c = c1 /\ b = 1 /\ i = 0))%nat.
Proof.
  split.
  - intros (d & H1 & H2 & H3 & H4 & _). destruct b as [|[|[|b]]]; try discriminate; injection H1 as <-;
      (destruct i as [|[|i]]; cbn in H4, H3; [|discriminate|lia]); [left|right]; (split; [congruence|auto]).
  - intros [(-> & -> & ->)|(-> & -> & ->)]; eexists; (split; [reflexivity|]); (split; [now left|]); (split; [cbn; lia|]); (split; [reflexivity|]); intros j Hj; lia.
Qed.
Theorem C104_source_refuted :
  (forall b d, nth_error heated_swap b = Some d -> nth_error heated (swap b) = Some d) /\ exists f f' f1',
  collided Zring nosimp 1 heated f f' /\ collided Zring nosimp 1 heated_swap (moved_vec Zring [[1; 2]; [1; 2]] [[1; 2]; [1; 2]] swap f) f1' /\
  mom Zring heated f' 1 0 = 3 /\ mom Zring heated_swap f1' 0 0 = 1.
Proof.
  split; [intros [|[|b]] d Hb; [exact Hb|exact Hb|destruct b; discriminate]|].
  exists (vec4 [0; 0; 0; 0]), (vec4 [0; 2; 0; 3]), (vec4 [0; 1; 0; 2]). split; [|split; [|split; reflexivity]].
  - intros val HV. assert (V5 : val 5%nat = 0) by (rewrite (HV 5%nat 0%nat 0%nat) by (apply heated_moment; auto); reflexivity). assert (V6 : val 6%nat = 0) by (rewrite (HV 6%nat 1%nat 0%nat) by (apply heated_moment; auto); reflexivity).
    cbv zeta. split.
    + intros c b i Hm. apply heated_moment in Hm as [(-> & -> & ->)|(-> & -> & ->)]; cbn; rewrite ?V5, ?V6; reflexivity.
    + intros b i d Hb Hi Hn. destruct b as [|[|b]]; [| |destruct b; discriminate]; injection Hb as <-; cbn in Hi; (destruct i as [|[|i]]; [| |lia]); try reflexivity;
        [destruct (Hn 5%nat)|destruct (Hn 6%nat)]; apply heated_moment; auto.
  - intros val HV. assert (V5 : val 5%nat = 0) by (rewrite (HV 5%nat 1%nat 0%nat) by (apply heated_moment; auto); reflexivity). assert (V6 : val 6%nat = 0) by (rewrite (HV 6%nat 0%nat 0%nat) by (apply heated_moment; auto); reflexivity).
    cbv zeta. split.
    + intros c b i Hm. apply heated_moment in Hm as [(-> & -> & ->)|(-> & -> & ->)]; cbn; rewrite ?V5, ?V6; reflexivity.
    + intros b i d Hb Hi Hn. destruct b as [|[|b]]; [| |destruct b; discriminate]; injection Hb as <-; cbn in Hi; (destruct i as [|[|i]]; [| |lia]); try reflexivity;
        [destruct (Hn 6%nat)|destruct (Hn 5%nat)]; apply heated_moment; auto.
Qed.
Print Assumptions C104_example.
Print Assumptions C104_source_refuted.
(* A scheme with a source, the second of two, does in a cell what it does alone: its source only reads its own moment. *)
Definition warmed : list (sdict Zring) := [dsrc 5 (Num (K := Zring) 1%Z); dsrc 6 (Var 6)].
Definition warmed1 : list (sdict Zring) := [dsrc 6 (Var 6)].
Definition winv := zinv [mat2 [[0; 1; 0; 0]; [1; -1; 0; 0]; [0; 0; 0; 1]; [0; 0; 1; -1]]; mat2 [[0; 1]; [1; -1]]].
Lemma warmed_ok : dict_ok Zring nosimp warmed.
Proof.
  constructor; unfold BuildProofs.closed; cbn.
  - repeat constructor.
  - intros d N [<-|[<-|[]]] E; discriminate.
  - repeat constructor; cbn; intuition discriminate.
  - intros d t [<-|[<-|[]]] Ht c Hc; cbn in Ht; (destruct Ht as [<-|[<-|[]]]); cbn in Hc; intuition.
  - intros d t [<-|[<-|[]]] Ht c Hc; cbn in Ht; (destruct Ht as [<-|[<-|[]]]); destruct Hc.
  - intros d c g [<-|[<-|[]]] [X|[]]; injection X as <- <-; cbn; (split; [tauto|]) || idtac; intros; cbn in *; intuition.
Qed.
Lemma warmed1_ok : dict_ok Zring nosimp warmed1.
Proof.
  constructor; unfold BuildProofs.closed; cbn.
  - repeat constructor.
  - intros d N [<-|[]] E; discriminate.
  - repeat constructor; cbn; intuition discriminate.
  - intros d t [<-|[]] Ht c Hc; cbn in Ht; (destruct Ht as [<-|[<-|[]]]); cbn in Hc; intuition.
  - intros d t [<-|[]] Ht c Hc; cbn in Ht; (destruct Ht as [<-|[<-|[]]]); destruct Hc.
  - intros d c g [<-|[]] [X|[]]; injection X as <- <-; cbn; (split; [tauto|]) || idtac; intros; cbn in *; intuition.
Qed.
Lemma warmed_ordered : ordered Zring nosimp warmed.
Proof. intros k c b i Hk Hm. apply heated_moment in Hm as [(-> & -> & ->)|(-> & -> & ->)]; destruct k as [|[|[|k]]]; try discriminate; cbn; lia. Qed.
Example C104_source_example f f' : collided Zring nosimp 1 warmed f f' ->
  collided Zring nosimp 1 warmed1 (moved_vec Zring [[1; 2]; [1; 2]] [[1; 2]] S f) (moved_vec Zring [[1; 2]; [1; 2]] [[1; 2]] S f') /\
  map (moved_to [[1; 2]; [1; 2]] [[1; 2]] S) [0; 1]%nat = [2; 3]%nat /\ ~ no_sources Zring warmed warmed1.
Proof.
  intros H. destruct (built_ex (build Zring winv nosimp None 1 1 warmed)) as [a Ea]; [vm_compute; reflexivity|]. destruct (built_ex (build Zring winv nosimp None 1 1 warmed1)) as [a1 Ea1]; [vm_compute; reflexivity|].
  split; [|split; [reflexivity|]].
  - apply (C104_cell Zring nosimp 1 1 warmed warmed1 a a1 [[1; 2]; [1; 2]] [[1; 2]] S winv (zinv_ok _) fsimp warmed_ok warmed_ordered Ea warmed1_ok Ea1); try reflexivity; [| |exact H].
    + intros [|b] d Hb; [exact Hb|destruct b; discriminate].
    + right. split; [reflexivity|]. intros c [<-|[]]. reflexivity.
  - intros X. apply (X (dsrc 6 (Var 6)) 6%nat (Var 6)); [right; now left|now left|now left].
Qed.
Print Assumptions C104_source_example.
