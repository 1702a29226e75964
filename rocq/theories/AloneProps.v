(* C103: the first schemes of a simulation, if they do not read the others, do what they do alone. *)
From Coq Require Import QArith Lqa.
From Verif Require Import PyBase VelocityModel VelocityProofs Velocity3Proofs StencilModel StencilProofs StencilProps GridModel GridProofs StorageModel
  ExchangeProofs StorageProps LinAlg AlgoModel AlgoProofs RelVelProofs KernelProofs GlobalModel GlobalProofs TorusProofs AlgoProps GlobalProps
  GenModel GenProofs GenProps StepGenModel StepGenProofs StepGenProps SchemeModel SchemeProofs SchemeProps BuildModel BuildProofs BuildProps BuildFrame
  DomainModel DomainProofs DomainProps BoundaryModel BoundaryProofs BoundaryProps BoundaryUpdProps VesselProofs VesselProps ChannelProps
  ParallelModel ParallelProofs ObstacleProofs ParallelProps ObstacleProps ParallelMassProps WholeModel WholeProps InitGenModel InitGenProps DuctProps FlowProofs FlowProps PassiveProps.
Require Import Lia.
Open Scope Z_scope.

(* ---- one cell ---- *)
Section Cell.
Variable K : ring.
Variable simp : term K -> term K.
Variables (dm : nat) (hdt : K) (d1 d2 : list (sdict K)) (a a1 : salgo K).
Notation ds := (d1 ++ d2).
Variable inv : nat -> mat K -> option (mat K).
Hypothesis HI : inv_spec K inv.
Hypothesis HSi : simp_spec K simp.
Hypothesis D : dict_ok K simp ds.
Hypothesis O : ordered K simp ds.
Hypothesis EB : build K inv simp None dm hdt ds = Some a.
(* the equilibria, parameters and sources of d1 only contain the conserved moments of d1 *)
Hypothesis D1 : dict_ok K simp d1.
Hypothesis EB1 : build K inv simp None dm hdt d1 = Some a1.
(* the sources of the moments of d1 are given in d1 *)
Hypothesis HS : forall d c t, In d d2 -> In (c, t) (sd_src K d) -> ~ In c (conserved K d1).

Lemma nth_d1 b : (b < length d1)%nat -> nth_error ds b = nth_error d1 b.
Proof using. intros H. now apply nth_error_app1. Qed.
Lemma off_d1 b : (b <= length d1)%nat -> off K ds b = off K d1 b.
Proof using. clear HS. intros H. unfold off. rewrite map_app, firstn_app, map_length. replace (b - length d1)%nat with 0%nat by lia. cbn [firstn]. now rewrite app_nil_r. Qed.
Lemma mom_d1 f b i : (b < length d1)%nat -> mom K ds f b i = mom K d1 f b i.
Proof using. clear HS. intros H. unfold mom. now rewrite nth_d1, off_d1 by lia. Qed.
Lemma moment_d1 c b i : (b < length d1)%nat -> is_moment K simp ds c b i <-> is_moment K simp d1 c b i.
Proof using. intros H. unfold is_moment. now rewrite nth_d1. Qed.
Lemma moment_lt c b i : is_moment K simp d1 c b i -> (b < length d1)%nat.
Proof using. intros (d & H & _). apply nth_error_Some. congruence. Qed.
Lemma conserved_d1 : conserved K ds = conserved K d1 ++ conserved K d2.
Proof using. unfold conserved. now rewrite map_app, concat_app. Qed.
Lemma source_d1 c : In c (conserved K d1) -> BuildProofs.source K ds c = BuildProofs.source K d1 c.
Proof using HS.
  intros Hc. unfold BuildProofs.source. rewrite map_app, concat_app, rev_app_distr.
  assert (X : forall l m : list (nat * term K), (forall p, In p l -> fst p <> c) -> find (fun p => Nat.eqb (fst p) c) (l ++ m) = find (fun p => Nat.eqb (fst p) c) m).
  { clear. induction l as [|p l IH]; intros m H; [reflexivity|]. cbn [app find]. destruct (Nat.eqb_spec (fst p) c) as [e|_]; [destruct (H p (or_introl eq_refl) e)|]. apply IH. intros q Hq. apply H. now right. }
  rewrite X; [reflexivity|]. intros p Hp Ep. apply in_rev in Hp. apply in_concat in Hp as (l & Hl & Hp). apply in_map_iff in Hl as (d & <- & Hd). apply (HS d (fst p) (snd p) Hd); [now destruct p|]. now rewrite Ep.
Qed.
Notation same u v := (forall c, In c (conserved K d1) -> u c = v c).
Lemma half_d1 (u v : vec K) : same u v -> same (half K hdt ds u) (half K hdt d1 v).
Proof using HS D D1.
  intros H. unfold half. rewrite conserved_d1, fold_left_app. pose proof (do_distinct K simp ds D) as ND. rewrite conserved_d1 in ND. apply NoDup_app_inv in ND as (_ & _ & ND).
  assert (X1 : forall l u v, incl l (conserved K d1) -> same u v -> same
    (fold_left (fun val c => match BuildProofs.source K ds c with Some g => fun c' => if Nat.eqb c' c then (val c + hdt * teval K val g)%K else val c' | None => val end) l u)
    (fold_left (fun val c => match BuildProofs.source K d1 c with Some g => fun c' => if Nat.eqb c' c then (val c + hdt * teval K val g)%K else val c' | None => val end) l v)).
  { clear H u v. induction l as [|c l IH]; intros u v Hl H; [exact H|]. cbn [fold_left]. apply IH; [intros x Hx; apply Hl; now right|]. pose proof (Hl c (or_introl eq_refl)) as Hc. rewrite (source_d1 c Hc).
    destruct (BuildProofs.source K d1 c) as [t|] eqn:Es; [|exact H]. intros c' Hc'. destruct (Nat.eqb c' c); [|now apply H]. rewrite (H c Hc). f_equal. f_equal.
    apply teval_ext. intros c0 H0. apply H. exact (source_closed K simp d1 D1 c t Es c0 H0). }
  assert (X2 : forall l (u : vec K) c', ~ In c' l -> 
    fold_left (fun val c => match BuildProofs.source K ds c with Some g => fun c' => if Nat.eqb c' c then (val c + hdt * teval K val g)%K else val c' | None => val end) l u c' = u c').
  { clear. induction l as [|c l IH]; intros u c' H; [reflexivity|]. cbn [fold_left]. rewrite IH by (intros X; apply H; now right). destruct (BuildProofs.source K _ c); [|reflexivity].
    destruct (Nat.eqb_spec c' c) as [->|_]; [destruct H; now left|reflexivity]. }
  intros c Hc. rewrite X2 by now apply ND. apply X1; [intros x Hx; exact Hx|exact H|exact Hc].
Qed.
Lemma values_d1 f u v : conserved_values K simp ds f u -> conserved_values K simp d1 f v -> same u v.
Proof using HI D1 EB1.
  intros Hu Hv c Hc. destruct (found K simp hdt d1 D1 inv None dm a1 HI EB1 c Hc) as (b & i & Hm). pose proof (moment_lt c b i Hm) as Hb.
  rewrite (Hv c b i Hm), (Hu c b i) by (now apply moment_d1). now apply mom_d1.
Qed.
(* a step of all the schemes is a step of the first ones *)
Theorem C103_alone_cell f f' : collided K simp hdt ds f f' -> collided K simp hdt d1 f f'.
Proof using HI HSi D O EB D1 EB1 HS.
  intros H. destruct (values_ex K simp hdt ds D O inv None dm a HI EB f) as [u Hu]. destruct (H u Hu) as [H1 H2]. intros v Hv v1.
  pose proof (values_d1 f u v Hu Hv) as S0. pose proof (half_d1 u v S0) as S1. pose proof (half_d1 _ _ S1) as S2. fold v1 in S1, S2. split.
  - intros c b i Hm. pose proof (moment_lt c b i Hm) as Hb. rewrite <- mom_d1 by exact Hb. rewrite (H1 c b i) by (now apply moment_d1). apply S2. exact (FlowProofs.moment_in K simp d1 c b i Hm).
  - intros b i d Hb Hi Hn s. assert (Lb : (b < length d1)%nat) by (apply nth_error_Some; congruence). rewrite <- !mom_d1 by exact Lb. assert (Hd : In d d1) by now apply nth_error_In in Hb.
    rewrite (H2 b i d); [|now rewrite nth_d1|exact Hi|intros c Hm; apply (Hn c); now apply moment_d1].
    rewrite (closed_rate K simp d1 D1 d i _ v1 Hd S1), (closed_eqv K simp d1 HSi D1 d i _ v1 Hd Hi S1). reflexivity.
Qed.
Theorem C103_alone_initial l l1 x f :
  (forall rk w, (rk < length (conserved K d1))%nat -> given_value K ds l rk x w -> given_value K d1 l1 rk x w) ->
  initial_state K simp ds l x f -> initial_state K simp d1 l1 x f.
Proof using HI HSi D O EB D1 EB1.
  intros HL [H1 H2]. destruct (values_ex K simp hdt ds D O inv None dm a HI EB f) as [u Hu]. split.
  - intros rk c b i Hr Hm. pose proof (moment_lt c b i Hm) as Hb. rewrite <- mom_d1 by exact Hb. assert (Lr : (rk < length (conserved K d1))%nat) by (apply nth_error_Some; congruence).
    apply HL; [exact Lr|]. apply (H1 rk c b i); [rewrite conserved_d1; now rewrite nth_error_app1|now apply moment_d1].
  - intros v Hv b i d Hb Hi. assert (Lb : (b < length d1)%nat) by (apply nth_error_Some; congruence). rewrite <- mom_d1 by exact Lb.
    rewrite (H2 u Hu b i d) by (rewrite ?nth_d1; assumption). apply (closed_eqv K simp d1 HSi D1 d i u v); [now apply nth_error_In in Hb|exact Hi|]. exact (values_d1 f u v Hu Hv).
Qed.
End Cell.

(* ---- the stencils, the links and the simulations ---- *)
Section Alone.
Variables (dimz : Z) (s1 s2 : list (list Z)) (st st1 : stencil) (r r1 : list Z) (g : grid) (es : list DomainModel.elem) (labs : list Z) (conds conds1 : Z -> list (nat * method)).
Variables (Dm Dm1 : dom) (ms ms1 : list (method * list blink)).
Hypothesis ND : Forall (@NoDup Z) s1.
Hypothesis E : serial dimz (s1 ++ s2) st r g es labs conds Dm ms.
(* the first schemes alone, on the same grid: the others have no new velocity *)
Hypothesis E1 : serial dimz s1 st1 r1 g es labs conds1 Dm1 ms1.
Notation BF := (build_facts dimz (s1 ++ s2) st (e_nn _ _ _ _ _ _ _ _ _ _ E) (e_build _ _ _ _ _ _ _ _ _ _ E)).
Notation BF1 := (build_facts dimz s1 st1 (e_nn _ _ _ _ _ _ _ _ _ _ E1) (e_build _ _ _ _ _ _ _ _ _ _ E1)).
Lemma dom_alone : Dm1 = Dm.
Proof using E E1. pose proof (e_dom _ _ _ _ _ _ _ _ _ _ E). pose proof (e_dom _ _ _ _ _ _ _ _ _ _ E1). congruence. Qed.
Lemma unique_alone : sunique st1 = sunique st.
Proof using E E1.
  pose proof (e_vel _ _ _ _ _ _ _ _ _ _ E) as V. rewrite (e_vel _ _ _ _ _ _ _ _ _ _ E1) in V.
  pose proof (b_uwf _ _ _ BF) as W. pose proof (b_uwf _ _ _ BF1) as W'. clear - V W W'. revert V. generalize dependent (sunique st). induction (sunique st1) as [|v l IH]; intros [|w l'] W V; try discriminate; [reflexivity|].
  cbn [map] in V. injection V as V1 V2. inversion W as [|? ? [Ww _] Wt]. inversion W' as [|? ? [Wv _] Wt']. subst. f_equal; [now apply wf_coords_inj|]. now apply IH.
Qed.
Lemma num_alone v w : In v (sunique st) -> In w (sunique st) -> vnum v = vnum w -> v = w.
Proof using E.
  pose proof (b_ustrict _ _ _ BF) as S. intros Hv Hw Ev. apply In_nth_error in Hv. apply In_nth_error in Hw. destruct Hv as [i Hi]. destruct Hw as [j Hj].
  assert (i = j); [|subst; congruence]. pose proof (map_nth_error vnum _ _ Hi) as Mi. pose proof (map_nth_error vnum _ _ Hj) as Mj. rewrite Ev in Mi.
  assert (N : NoDup (map vnum (sunique st))) by (apply strictly_NoDup; exact S). rewrite NoDup_nth_error in N. apply N; [apply nth_error_Some; congruence|congruence].
Qed.
Lemma sv_alone : exists rest, sv st = sv st1 ++ rest.
Proof using E E1.
  exists (skipn (length (sv st1)) (sv st)). rewrite <- (firstn_skipn (length (sv st1)) (sv st)) at 1. f_equal.
  assert (L1 : length (sv st1) = length s1) by (transitivity (length (map (map vnum) (sv st1))); [symmetry; apply map_length|now rewrite (b_v _ _ _ BF1)]).
  assert (M : map (map vnum) (firstn (length (sv st1)) (sv st)) = map (map vnum) (sv st1)).
  { rewrite <- firstn_map, (b_v _ _ _ BF), (b_v _ _ _ BF1), L1. rewrite firstn_app, Nat.sub_diag, firstn_all. cbn [firstn]. apply app_nil_r. }
  assert (I : forall vs v, In vs (firstn (length (sv st1)) (sv st)) -> In v vs -> In v (sunique st)).
  { intros vs v Hvs. apply (b_vin _ _ _ BF). rewrite <- (firstn_skipn (length (sv st1)) (sv st)). apply in_or_app. now left. }
  assert (I1 : forall vs v, In vs (sv st1) -> In v vs -> In v (sunique st)) by (intros vs v; rewrite <- unique_alone; apply (b_vin _ _ _ BF1)).
  pose proof num_alone as J. revert M I I1. generalize (firstn (length (sv st1)) (sv st)) as A. generalize (sv st1) as B. clear - J.
  assert (X : forall l m, map vnum l = map vnum m -> (forall v, In v l -> In v (sunique st)) -> (forall v, In v m -> In v (sunique st)) -> l = m).
  { induction l as [|v l IH]; intros [|w m] M I I1; try discriminate; [reflexivity|]. cbn in M. injection M as M1 M2. f_equal; [apply J; auto using in_eq|]. apply IH; auto using in_cons. }
  intros B A. revert B. induction A as [|l A IH]; intros [|m B] M I I1; try discriminate; [reflexivity|]. cbn in M. injection M as M1 M2. f_equal.
  - apply X; [exact M1|intros v; apply I; now left|intros v; apply I1; now left].
  - apply IH; [exact M2|intros vs v Hvs; apply I; now right|intros vs v Hvs; apply I1; now right].
Qed.
Lemma len_alone : length (sv st1) = length s1.
Proof using E1. transitivity (length (map (map vnum) (sv st1))); [symmetry; apply map_length|now rewrite (b_v _ _ _ BF1)]. Qed.
Lemma nth_alone s : (s < length s1)%nat -> nth_error (sv st) s = nth_error (sv st1) s.
Proof using E E1. intros Hs. destruct sv_alone as [rest ->]. apply nth_error_app1. now rewrite len_alone. Qed.
Lemma row_alone s i : (s <= length s1)%nat -> row st s i = row st1 s i.
Proof using E E1. intros Hs. unfold row. destruct sv_alone as [rest ->]. rewrite firstn_app, len_alone. replace (s - length s1)%nat with 0%nat by lia. cbn [firstn]. now rewrite app_nil_r. Qed.
Notation n1 := (length (concat s1)).
Lemma rows_total : length (concat (sv st1)) = n1.
Proof using E1. rewrite <- (b_v _ _ _ BF1), <- concat_map, map_length. reflexivity. Qed.
Lemma row_lt s vs i v : nth_error (sv st1) s = Some vs -> nth_error vs i = Some v -> (row st1 s i < n1)%nat.
Proof using E1.
  intros Hs Hi. rewrite <- rows_total. unfold row. clear - Hs Hi. revert s Hs. induction (sv st1) as [|ws l IH]; intros [|s] Hs; cbn in Hs; try discriminate.
  - injection Hs as ->. cbn. rewrite app_length. assert (i < length vs)%nat by (apply nth_error_Some; congruence). lia.
  - cbn [firstn concat]. rewrite !app_length. specialize (IH s Hs). lia.
Qed.
Lemma row_ge s i : (length s1 <= s)%nat -> (n1 <= row st s i)%nat.
Proof using E E1.
  intros Hs. unfold row. destruct sv_alone as [rest ->]. rewrite firstn_app, len_alone, concat_app, app_length. rewrite firstn_all2 by (rewrite len_alone; exact Hs). rewrite rows_total. lia.
Qed.
Lemma row_ex k : (k < n1)%nat -> exists s vs i v, (s < length s1)%nat /\ nth_error (sv st1) s = Some vs /\ nth_error (sv st) s = Some vs /\ nth_error vs i = Some v /\ k = row st1 s i /\ k = row st s i.
Proof using E E1.
  intros Hk. destruct (VesselProofs.row_of dimz s1 st1 r1 g Dm1 conds1 _ ms1 (serial_setting _ _ _ _ _ _ _ _ _ _ E1) k Hk) as (s & vs & i & v & Hs & Hi & -> & Ls). exists s, vs, i, v.
  rewrite nth_alone by exact Ls. rewrite row_alone by lia. repeat (split; [assumption|]). now split.
Qed.
Lemma velk_alone k : (k < n1)%nat -> velk st k = velk st1 k.
Proof using E E1. intros Hk. destruct (row_ex k Hk) as (s & vs & i & v & Ls & H1 & H2 & H3 & -> & H5). rewrite (row_velk st1 s vs i v H1 H3), H5. now apply (row_velk st s vs i v). Qed.
Lemma sym_row0 dz sc t q c dd mm cc s vs i v : serial dz sc t q g es labs cc dd mm -> c = cc -> nth_error (sv t) s = Some vs -> nth_error vs i = Some v ->
  exists j u, nth_error vs j = Some u /\ vel_list u = map Z.opp (vel_list v) /\ symk q (row t s i) = row t s j.
Proof using.
  clear. intros E _ Hs Hi. destruct (C07_lemma dz sc t None (e_nn _ _ _ _ _ _ _ _ _ _ E) (e_build _ _ _ _ _ _ _ _ _ _ E) ltac:(intros; discriminate)) as [_ T].
  destruct (T q (e_sym _ _ _ _ _ _ _ _ _ _ E)) as (_ & T2 & _). destruct (T2 s i vs v Hs Hi) as (j & u & Hj & Eu & Er). exists j, u. split; [exact Hj|]. split.
  - change (vel_list u) with (vcoords u). rewrite Eu. apply sym_coords_opp.
  - assert (R : forall k, row t s k = (length (concat (firstn s sc)) + k)%nat).
    { intros k. unfold row. pose proof (build_facts dz sc t (e_nn _ _ _ _ _ _ _ _ _ _ E) (e_build _ _ _ _ _ _ _ _ _ _ E)) as BF. rewrite <- (b_v _ _ _ BF) at 1. rewrite firstn_map, <- concat_map. now rewrite map_length. }
    rewrite !R. unfold symk. rewrite (nth_error_nth _ _ _ Er). apply Nat2Z.id.
Qed.
Lemma symk_alone k : (k < n1)%nat -> symk r k = symk r1 k /\ (symk r1 k < n1)%nat.
Proof using E E1 ND.
  intros Hk. destruct (row_ex k Hk) as (s & vs & i & v & Ls & H1 & H2 & H3 & H4 & H5).
  destruct (sym_row0 _ _ _ _ conds _ _ _ s vs i v E eq_refl H2 H3) as (j & u & U1 & U2 & U3). destruct (sym_row0 _ _ _ _ conds1 _ _ _ s vs i v E1 eq_refl H1 H3) as (j' & u' & V1 & V2 & V3).
  rewrite <- H5 in U3. rewrite <- H4 in V3. rewrite U3, V3. rewrite row_alone by lia. split; [|now apply (row_lt s vs j' u')]. f_equal.
  assert (Eu : u = u').
  { assert (Wu : forall w, In w vs -> wf_velocity w).
    { intros w Hw. pose proof (b_uwf _ _ _ BF) as W. rewrite Forall_forall in W. apply W. eapply (b_vin _ _ _ BF); [eapply nth_error_In; eauto|exact Hw]. }
    apply wf_coords_inj; [apply Wu; eapply nth_error_In; eauto|apply Wu; eapply nth_error_In; eauto|]. change (vel_list u = vel_list u'). congruence. }
  subst u'. assert (N : NoDup vs).
  { apply (NoDup_map_inv vnum). rewrite Forall_forall in ND. apply ND. rewrite <- (b_v _ _ _ BF1). apply in_map. eapply nth_error_In; eauto. }
  rewrite NoDup_nth_error in N. apply N; [apply nth_error_Some; congruence|congruence].
Qed.
(* the same conditions for the first schemes *)
Hypothesis HC : forall lab s m, (s < length s1)%nat -> In (s, m) (conds lab) <-> In (s, m) (conds1 lab).
(* the links of the first schemes *)
Lemma links_alone m b : has ms1 m b <-> has ms m b /\ (b_k b < n1)%nat.
Proof using E E1 HC.
  pose proof (boundary_links dimz _ st (e_nn _ _ _ _ _ _ _ _ _ _ E) (e_build _ _ _ _ _ _ _ _ _ _ E) g Dm conds _ ms (e_bound _ _ _ _ _ _ _ _ _ _ E)) as BL.
  pose proof (boundary_links dimz _ st1 (e_nn _ _ _ _ _ _ _ _ _ _ E1) (e_build _ _ _ _ _ _ _ _ _ _ E1) g Dm1 conds1 _ ms1 (e_bound _ _ _ _ _ _ _ _ _ _ E1)) as BL1. rewrite BL, BL1. clear BL BL1. split.
  - intros (lab & s & vs & i & v & num & w & x & Hlab & N1 & N2 & Hc & Hs & Hi & Hw & Ew & Hx & Hf & ->). cbn [b_k]. assert (Ls : (s < length s1)%nat) by (rewrite <- len_alone; apply nth_error_Some; congruence).
    rewrite dom_alone in *. rewrite unique_alone in Hw. split; [|now apply (row_lt s vs i v)]. exists lab, s, vs, i, v, num, w, x. rewrite row_alone by lia. rewrite nth_alone by exact Ls. rewrite <- HC in Hc by exact Ls. repeat (split; [assumption|]). reflexivity.
  - intros [(lab & s & vs & i & v & num & w & x & Hlab & N1 & N2 & Hc & Hs & Hi & Hw & Ew & Hx & Hf & ->) Hk]. cbn [b_k] in Hk. assert (Ls : (s < length s1)%nat) by (destruct (Nat.lt_ge_cases s (length s1)) as [L|L]; [exact L|]; pose proof (row_ge s i L); lia).
    exists lab, s, vs, i, v, num, w, x. rewrite dom_alone, unique_alone. rewrite row_alone by lia. rewrite nth_alone in Hs by exact Ls. rewrite HC in Hc by exact Ls. repeat (split; [assumption|]). reflexivity.
Qed.
Lemma loads_alone m b : (b_k b < n1)%nat -> loads g (velk st) (symk r) m b = loads g (velk st1) (symk r1) m b.
Proof using E E1 ND.
  intros Hk. destruct (symk_alone _ Hk) as [S _]. pose proof (velk_alone _ Hk) as V. unfold loads, iload0, iload1, ahead, ahead2, ahead_axis. now rewrite S, V.
Qed.
Lemma quiet_alone : quiet st r g ms -> quiet st1 r1 g ms1.
Proof using E E1 ND HC.
  intros HQ m b p Hb Hp Hw. apply links_alone in Hb as [Hb Hk]. rewrite <- loads_alone in Hp by exact Hk. apply (HQ m b p Hb Hp).
  apply ParallelProofs.written_has in Hw. destruct Hw as (m2 & b2 & Hb2 & <-). apply links_alone in Hb2 as [Hb2 _]. now apply (has_written ms m2).
Qed.
Variables (K : ring) (qk : Q -> K).
Lemma bvalue_alone phi m F b : (b_k b < n1)%nat -> bvalue K qk g (velk st) (symk r) (feq_of st phi g) m F b = bvalue K qk g (velk st1) (symk r1) (feq_of st1 phi g) m F b.
Proof using E E1 ND.
  intros Hk. destruct (symk_alone _ Hk) as [S _]. pose proof (velk_alone _ Hk) as V.
  assert (W : forall k, feq_of st phi g b k = feq_of st1 phi g b k).
  { intros k. unfold feq_of. f_equal. unfold wall_point. apply map_ext. intros d. unfold bcoord. change (nth (b_k b) (get_all_velocities st1) []) with (velk st1 (b_k b)). change (nth (b_k b) (get_all_velocities st) []) with (velk st (b_k b)). now rewrite V. }
  unfold bvalue, rhs, iload0, iload1, ahead, ahead2, ahead_axis. cbv zeta. rewrite S, V. destruct m; rewrite ?W; reflexivity.
Qed.
Lemma arrives_alone phi G x j v : (j < n1)%nat -> arrives st r g ms K qk phi G x j v -> arrives st1 r1 g ms1 K qk phi G x j v.
Proof using E E1 ND HC.
  intros Hj. unfold arrives. cbv zeta. unfold before. rewrite (velk_alone j Hj). intros [(m & b & H1 & H2 & H3 & ->)|[H1 ->]].
  - left. assert (Hk : (b_k b < n1)%nat) by (rewrite H2; exact Hj). exists m, b. split; [apply links_alone; now split|]. split; [exact H2|]. split; [exact H3|]. now apply bvalue_alone.
  - right. split; [|reflexivity]. intros m b Hb. apply links_alone in Hb as [Hb _]. now apply (H1 m b).
Qed.
Variable inv : nat -> mat K -> option (mat K).
Variable simp : term K -> term K.
Variables (dm : nat) (hdt : K) (d1 d2 : list (sdict K)) (a a1 : salgo K).
Notation ds := (d1 ++ d2).
Hypothesis HI : inv_spec K inv.
Hypothesis HSi : simp_spec K simp.
Hypothesis D : dict_ok K simp ds.
Hypothesis O : ordered K simp ds.
Hypothesis EB : build K inv simp None dm hdt ds = Some a.
Hypothesis D1 : dict_ok K simp d1.
Hypothesis O1 : ordered K simp d1.
Hypothesis EB1 : build K inv simp None dm hdt d1 = Some a1.
Hypothesis HS : forall d c t, In d d2 -> In (c, t) (sd_src K d) -> ~ In c (conserved K d1).
Hypothesis HPl : forall d t, In d ds -> In t (sd_P K d) -> below K dm t.
Hypothesis Hsz1 : map (nv K) d1 = map (@length Z) s1.
Hypothesis Hsz2 : map (nv K) d2 = map (@length Z) s2.
Hypothesis HQ : quiet st r g ms.
Lemma total_alone : SchemeModel.total (sizes K d1) = n1.
Proof using Hsz1.
  unfold sizes. rewrite Hsz1. clear. induction s1 as [|s l IH]; [reflexivity|]. cbn [map concat]. rewrite app_length, <- IH. reflexivity.
Qed.
Lemma total_le : (SchemeModel.total (sizes K d1) <= SchemeModel.total (sizes K ds))%nat.
Proof using. clear. unfold sizes, SchemeModel.total. induction d1 as [|d l IH]; cbn; lia. Qed.
(* a history of all the schemes is a history of the first ones *)
Theorem C103_alone_history phis G : history st r g ms K qk simp hdt ds phis G -> history st1 r1 g ms1 K qk simp hdt d1 phis G.
Proof using E E1 ND HC HI HSi D O EB D1 EB1 HS Hsz1.
  intros H t x. destruct (H t x) as (f & F1 & F2). exists f. split.
  - intros j Hj. apply arrives_alone; [now rewrite <- total_alone|]. apply F1. pose proof total_le. lia.
  - exact (C103_alone_cell K simp dm hdt d1 d2 a a1 inv HI HSi D O EB D1 EB1 HS f (G (S t) x) F2).
Qed.
(* The simulation of all the schemes and that of the first ones alone hold the values of one
   history, on any two process grids. *)
Theorem C103_alone l l1 phis : data_ok K ds l -> data_ok K d1 l1 -> walls_ok K phis ->
  (forall x rk w, cell_in g x -> (rk < length (conserved K d1))%nat -> given_value K ds l rk (point g (cell_of g x)) w -> given_value K d1 l1 rk (point g (cell_of g x)) w) ->
  exists G, simulates st r g es labs conds K qk inv simp ds a l phis G /\ simulates st1 r1 g es labs conds1 K qk inv simp d1 a1 l1 phis G.
Proof using E E1 ND HC HI HSi D O EB D1 O1 EB1 HS HPl Hsz1 Hsz2 HQ.
  intros Hl Hl1 Hp HL. assert (Hsz : map (nv K) ds = map (@length Z) (s1 ++ s2)) by (rewrite !map_app; congruence).
  destruct (flow dimz (s1 ++ s2) st r g es labs conds Dm ms E K qk inv simp dm hdt ds a HI HSi D O EB HPl Hsz HQ l phis Hl Hp) as (G & G0 & GH & GS). exists G. split; [exact GS|].
  apply (sim_of dimz s1 st1 r1 g es labs conds1 Dm1 ms1 E1 K qk inv simp dm hdt d1 a1 HI HSi D1 O1 EB1); try assumption.
  - intros d t Hd. apply HPl. apply in_or_app. now left.
  - now apply quiet_alone.
  - now apply C103_alone_history.
  - intros x Hx. apply (C103_alone_initial K simp dm hdt d1 d2 a a1 inv HI HSi D O EB D1 EB1 l l1); [|now apply G0]. intros rk w. now apply HL.
Qed.
End Alone.
Print Assumptions C103_alone_cell.
Print Assumptions C103_alone_initial.
Print Assumptions C103_alone_history.
Print Assumptions C103_alone.

(* ---- example ---- the two schemes of C103_example and the first one alone *)
Definition ms_alone : list (method * list blink) := match boundary sst (sline 6) (sD 6 []) bb (labels_of (sline 6) []) with Some ms => ms | None => [] end.
Lemma serial_alone : serial 1 [[1; 2]] sst [1; 0] (sline 6) [] [] bb (sD 6 []) ms_alone.
Proof.
  split.
  - intros s x [<-|[]] Hx; cbn in Hx; lia.
  - reflexivity.
  - reflexivity.
  - reflexivity.
  - split; [reflexivity|]. cbn. lia.
  - apply sline_wf. lia.
  - intros lb s m1 m2 [E1|[]] [E2|[]]; congruence.
  - reflexivity.
  - split; cbn; unfold valin; intuition discriminate.
  - intros e [].
  - intros es1 e es2 E. destruct es1; discriminate.
  - intros [].
  - reflexivity.
  - vm_compute. reflexivity.
Qed.
Definition build_alone := build Zring pinv nosimp None 1 1 [dflow q3 []].
Example C103_alone_example f h : (forall x y, Forall2 Qeq x y -> f x = f y) -> (forall x y, Forall2 Qeq x y -> h x = h y) ->
  exists a a1, pbuild = Some a /\ build_alone = Some a1 /\ exists G,
  simulates pst2 [1; 0; 3; 2] (sline 6) [] [] bb2 Zring (fun _ => 0) pinv nosimp pds a [(ISym 5, f); (ISym 6, h)] wphi G /\
  simulates sst [1; 0] (sline 6) [] [] bb Zring (fun _ => 0) pinv nosimp [dflow q3 []] a1 [(ISym 5, f)] wphi G.
Proof.
  intros Hf Hh. destruct (built_ex pbuild) as [a Ea]; [vm_compute; reflexivity|]. destruct (built_ex build_alone) as [a1 Ea1]; [vm_compute; reflexivity|]. exists a, a1. split; [exact Ea|]. split; [exact Ea1|].
  assert (H1 : q3 = q3 \/ q3 = qh) by now left. assert (H2 : (@nil (nat * term Zring)) = [] \/ [] = src3) by now left.
  apply (C103_alone 1 [[1; 2]] [[1; 2]] pst2 sst [1; 0; 3; 2] [1; 0] (sline 6) [] [] bb2 bb (sD 6 []) (sD 6 []) pms2 ms_alone) with (dm := 1%nat) (hdt := 1) (d1 := [dflow q3 []]) (d2 := [dpas 6 (Bin zmul (Var 5) (Var 6))]).
  - repeat constructor; cbn; intuition discriminate.
  - exact pserial2.
  - exact serial_alone.
  - intros lab [|s] m Hs; [|cbn in Hs; lia]. cbn. intuition congruence.
  - apply zinv_ok.
  - exact fsimp.
  - exact pds_ok.
  - exact pds_ordered.
  - exact Ea.
  - exact (dflow_ok _ _ H1 H2).
  - exact (dflow_ordered _ _ H1).
  - exact Ea1.
  - intros d c t [<-|[]] Hc. destruct Hc.
  - exact pds_below.
  - reflexivity.
  - reflexivity.
  - exact pquiet.
  - now apply (pds_data f h).
  - now apply dflow_data.
  - exact wphi_ok.
  - intros x rk w _ Hr W. cbn in Hr. assert (rk = 0%nat) as -> by lia. apply (pds_given f h) in W. apply given_one. left. now split.
Qed.
Print Assumptions C103_alone_example.
