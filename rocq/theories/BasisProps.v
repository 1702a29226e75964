(* C94: the choice of the moments which are not conserved. *)
From Coq Require Import QArith Qcanon.
From Verif Require Import PyBase VelocityModel VelocityProofs Velocity3Proofs StencilModel StencilProofs GridModel GridProofs StorageModel
  ExchangeProofs StorageProps LinAlg AlgoModel AlgoProofs RelVelProofs KernelProofs GlobalModel GlobalProofs TorusProofs AlgoProps GlobalProps
  GenModel GenProofs GenProps StepGenModel StepGenProofs StepGenProps SchemeModel SchemeProofs SchemeProps BuildModel BuildProofs BuildProps BuildFrame
  DomainModel DomainProofs DomainProps BoundaryModel BoundaryProofs BoundaryProps BoundaryUpdProps VesselProofs VesselProps ChannelProps
  ParallelModel ParallelProofs ObstacleProofs ParallelProps ObstacleProps ParallelMassProps WholeModel WholeProps InitGenModel InitGenProps DuctProps FlowProofs FlowProps MovingProps BoundsProps.
Require Import Lia.
Open Scope Z_scope.

Section Pair.
Variable K : ring.
Add Ring Kringb : (rth K).
Variable simp : term K -> term K.
Hypothesis HSi : simp_spec K simp.
Variables (ds ds' : list (sdict K)).
(* The two dictionaries have the same velocities, conserved moments (symbols and polynomials) and sources. *)
Record alike : Prop := {
  al_v : map (sd_v K) ds' = map (sd_v K) ds;
  al_cons : map (sd_cons K) ds' = map (sd_cons K) ds;
  al_src : map (sd_src K) ds' = map (sd_src K) ds;
  al_to : forall c b i, is_moment K simp ds c b i -> exists i', is_moment K simp ds' c b i' /\ forall f, mom K ds' f b i' = mom K ds f b i;
  al_from : forall c b i', is_moment K simp ds' c b i' -> exists i, is_moment K simp ds c b i /\ forall f, mom K ds' f b i' = mom K ds f b i }.
(* Each moment i of ds' which is not conserved is a combination of moments of ds, with coefficients A b i:
   the moments which are not conserved have its relaxation parameter, the conserved ones have no source;
   its equilibrium is the same combination of the equilibria. *)
Definition combined (A : nat -> mat K) : Prop := forall b d d' i, nth_error ds b = Some d -> nth_error ds' b = Some d' -> (i < nv K d')%nat -> (forall c, ~ is_moment K simp ds' c b i) ->
  (forall j, (j < nv K d)%nat -> entry K d' i j = sum (nv K d) (fun l => (A b i l * entry K d l j)%K)) /\
  (forall val, eqv K d' i val = sum (nv K d) (fun l => (A b i l * eqv K d l val)%K)) /\
  forall l, (l < nv K d)%nat -> A b i l = 0%K \/
    (exists c, is_moment K simp ds c b l /\ BuildProofs.source K ds c = None) \/
    ((forall c, ~ is_moment K simp ds c b l) /\ forall val, teval K val (nth i (sd_s K d') (Num 0%K)) = teval K val (nth l (sd_s K d) (Num 0%K))).

Hypothesis HA : alike.
Lemma nv_pair : map (nv K) ds' = map (nv K) ds.
Proof using HA. pose proof (al_v HA) as H. unfold nv. rewrite <- (map_map (sd_v K) (@length (list K)) ds'), <- (map_map (sd_v K) (@length (list K)) ds). now rewrite H. Qed.
Lemma off_pair b : off K ds' b = off K ds b.
Proof using HA. unfold off. now rewrite nv_pair. Qed.
Lemma total_pair : SchemeModel.total (sizes K ds') = SchemeModel.total (sizes K ds).
Proof using HA. unfold sizes. now rewrite nv_pair. Qed.
Lemma nth_pair b d' : nth_error ds' b = Some d' -> exists d, nth_error ds b = Some d /\ nv K d = nv K d'.
Proof using HA.
  intros H. pose proof (map_nth_error (nv K) _ _ H) as M. rewrite nv_pair in M. destruct (nth_error ds b) as [d|] eqn:E.
  - exists d. split; [reflexivity|]. rewrite (map_nth_error (nv K) _ _ E) in M. congruence.
  - apply nth_error_None in E. assert (nth_error (map (nv K) ds) b = None) by (apply nth_error_None; now rewrite map_length). congruence.
Qed.
Lemma cons_pair : conserved K ds' = conserved K ds.
Proof using HA. unfold conserved. now rewrite (al_cons HA). Qed.
Lemma src_pair c : BuildProofs.source K ds' c = BuildProofs.source K ds c.
Proof using HA. unfold BuildProofs.source. now rewrite (al_src HA). Qed.
Lemma half_pair hdt u : half K hdt ds' u = half K hdt ds u.
Proof using HA. unfold half. rewrite cons_pair. generalize (conserved K ds) u. induction l as [|c l IH]; intros w; [reflexivity|]. cbn [fold_left]. now rewrite src_pair, IH. Qed.
Lemma refers_pair k rk : refers K ds' k rk <-> refers K ds k rk.
Proof using HA. unfold refers. rewrite cons_pair, total_pair. reflexivity. Qed.
Lemma given_pair l rk x v : given_value K ds l rk x v -> given_value K ds' l rk x v.
Proof using HA.
  intros [(l1 & k & w & l2 & H1 & H2 & H3 & H4)|[H1 H2]].
  - left. exists l1, k, w, l2. split; [exact H1|]. split; [now apply refers_pair|]. split; [|exact H4]. intros p Hp C. apply (H3 p Hp). now apply refers_pair.
  - right. split; [|exact H2]. intros p Hp C. apply (H1 p Hp). now apply refers_pair.
Qed.
Lemma data_pair l : data_ok K ds l -> data_ok K ds' l.
Proof using HA.
  intros [H1 H2]. split; [exact H1|]. intros p Hp. destruct (H2 p Hp) as (rk & H3 & H4). exists rk. rewrite total_pair. split; [exact H3|]. now apply refers_pair.
Qed.
(* the values of the conserved moments are the same *)
Lemma values_pair f val : (forall c b i, is_moment K simp ds' c b i -> val c = mom K ds' f b i) -> forall c b i, is_moment K simp ds c b i -> val c = mom K ds f b i.
Proof using HA. intros H c b i Hm. destruct (al_to HA c b i Hm) as (i' & M & <-). now apply H. Qed.
Lemma moment_eqv c b i d val : is_moment K simp ds c b i -> nth_error ds b = Some d -> eqv K d i val = val c.
Proof using HSi. intros (d0 & Hb & Hc & Hi & Hq & _) H. rewrite H in Hb. injection Hb as <-. rewrite <- (eqs_eval K simp d i val HSi Hi), Hq. reflexivity. Qed.
Lemma moment_eqv' c b i d val : is_moment K simp ds' c b i -> nth_error ds' b = Some d -> eqv K d i val = val c.
Proof using HSi. intros (d0 & Hb & Hc & Hi & Hq & _) H. rewrite H in Hb. injection Hb as <-. rewrite <- (eqs_eval K simp d i val HSi Hi), Hq. reflexivity. Qed.

Section Combined.
Variable A : nat -> mat K.
Hypothesis HC : combined A.
Lemma mom_combined b d d' i f : nth_error ds b = Some d -> nth_error ds' b = Some d' -> (i < nv K d')%nat -> (forall c, ~ is_moment K simp ds' c b i) ->
  mom K ds' f b i = sum (nv K d) (fun l => (A b i l * mom K ds f b l)%K).
Proof using HA HC.
  intros Hb Hb' Hi Hn. destruct (HC b d d' i Hb Hb' Hi Hn) as (H1 & _ & _). destruct (nth_pair b d' Hb') as (d0 & E0 & En). rewrite Hb in E0. injection E0 as <-.
  unfold mom. rewrite Hb, Hb', off_pair, <- En. rewrite (sum_ext K _ _ (fun j => sum (nv K d) (fun l => (A b i l * entry K d l j * f (off K ds b + j)%nat)%K))).
  - unfold sum. rewrite sumL_swap. apply (sum_ext K). intros l Hl. rewrite <- sumL_mul_l. apply (sum_ext K). intros j Hj. ring.
  - intros j Hj. rewrite (H1 j Hj). transitivity (f (off K ds b + j)%nat * sum (nv K d) (fun l => (A b i l * entry K d l j)%K))%K; [ring|]. unfold sum. rewrite <- sumL_mul_l. apply (sum_ext K). intros l Hl. ring.
Qed.
Lemma collided_combined hdt f f' : collided K simp hdt ds f f' -> collided K simp hdt ds' f f'.
Proof using HA HC HSi.
  intros H val Hv. cbv zeta. destruct (H val (values_pair f val Hv)) as [H1 H2]. cbv zeta in H1, H2. rewrite !half_pair. set (val1 := half K hdt ds val) in *. split.
  - intros c b i Hm. destruct (al_from HA c b i Hm) as (i0 & M & ->). now apply H1.
  - intros b i d' Hb' Hi Hn. destruct (nth_pair b d' Hb') as (d & Hb & En). destruct (HC b d d' i Hb Hb' Hi Hn) as (_ & E2 & E3).
    set (s := teval K val1 (nth i (sd_s K d') (Num 0%K))). rewrite !(mom_combined b d d' i _ Hb Hb' Hi Hn), E2. unfold sum. rewrite <- !sumL_mul_l, <- sumL_add. apply (sum_ext K). intros l Hl. destruct (E3 l Hl) as [->|[(c & Hm & Hs)|[Hm Hs]]].
    + ring.
    + rewrite (H1 c b l Hm), (half_none K hdt ds c _ Hs), (moment_eqv c b l d _ Hm Hb), <- (values_pair f val Hv c b l Hm). assert (E1 : val1 c = val c) by (unfold val1; now apply half_none). rewrite E1. ring.
    + rewrite (H2 b l d Hb Hl Hm), <- Hs. fold s. ring.
Qed.
Lemma initial_combined l x f : initial_state K simp ds l x f -> initial_state K simp ds' l x f.
Proof using HA HC HSi.
  intros [H1 H2]. split.
  - intros rk c b i Hr Hm. destruct (al_from HA c b i Hm) as (i0 & M & ->). rewrite cons_pair in Hr. apply given_pair. now apply (H1 rk c b i0).
  - intros val Hv b i d' Hb' Hi. destruct (nth_pair b d' Hb') as (d & Hb & En). destruct (moment_dec K simp ds' b i) as [[c Hm]|Hn].
    + rewrite (moment_eqv' c b i d' val Hm Hb'). symmetry. now apply Hv.
    + destruct (HC b d d' i Hb Hb' Hi Hn) as (_ & E2 & _). rewrite (mom_combined b d d' i _ Hb Hb' Hi Hn), E2. apply (sum_ext K). intros q Hq. f_equal. apply H2; try assumption. now apply values_pair.
Qed.
End Combined.
End Pair.

(* ------------------------------------------------- one relaxation parameter *)
Section Single.
Variable K : ring.
Add Ring Kringb2 : (rth K).
Variable simp : term K -> term K.
Hypothesis HSi : simp_spec K simp.
Variables (ds ds' : list (sdict K)).
Hypothesis HA : alike K simp ds ds'.
Variable hdt : K.
(* val ↦ F val: the equilibrium distributions, the same for the two dictionaries *)
Definition equilibria (ds : list (sdict K)) (F : vec K -> vec K) : Prop := forall val b d i, nth_error ds b = Some d -> (i < nv K d)%nat -> mom K ds (F val) b i = eqv K d i val.
Variable F : vec K -> vec K.
Hypothesis HF : equilibria ds F.
Hypothesis HF' : equilibria ds' F.
(* all the moments which are not conserved have the parameter s *)
Definition single (ds : list (sdict K)) (s : vec K -> K) : Prop := forall val b i d, nth_error ds b = Some d -> (i < nv K d)%nat -> (forall c, ~ is_moment K simp ds c b i) ->
  teval K val (nth i (sd_s K d) (Num 0%K)) = s val.
Variable s : vec K -> K.
Hypothesis Hs : single ds s.
Hypothesis Hs' : single ds' s.
Hypothesis Hsrc : forall c, BuildProofs.source K ds c = None.
Variables (inv : nat -> mat K -> option (mat K)) (dm : nat) (a : salgo K).
Hypothesis HI : inv_spec K inv.
Hypothesis D : dict_ok K simp ds.
Hypothesis EB : build K inv simp None dm hdt ds = Some a.
Notation n := (SchemeModel.total (sizes K ds)).
Lemma no_source val : half K hdt ds val = val.
Proof using Hsrc. unfold half. generalize (conserved K ds). induction l as [|c l IH]; [reflexivity|]. cbn [fold_left]. now rewrite Hsrc. Qed.
Lemma mom_injective f f' : (forall b d i, nth_error ds b = Some d -> (i < nv K d)%nat -> mom K ds f b i = mom K ds f' b i) -> agree K n f f'.
Proof using HI D EB.
  intros A. destruct (build_built K simp inv hdt None dm ds a HI D EB) as (M & N & sg & B). pose proof (bu_inverse _ _ _ _ _ _ _ _ _ _ _ B) as [I1 I2]. pose proof (bu_moments _ _ _ _ _ _ _ _ _ _ _ B) as HM.
  intros k Hk. rewrite <- (mvmul_inverse K n _ _ f k I2 Hk), <- (mvmul_inverse K n _ _ f' k I2 Hk).
  apply mvmul_ext. intros j Hj. destruct (off_ex K ds j Hj) as (b & d & i & H1 & H3 & ->). rewrite !(HM _ b d i H1 H3). now apply (A b d).
Qed.
Lemma agree_pair f f' b i : agree K n f f' -> mom K ds' f b i = mom K ds' f' b i.
Proof using HA. intros H. apply mom_agree. now rewrite (total_pair K simp ds ds' HA). Qed.
Lemma collided_single f f' : collided K simp hdt ds f f' -> collided K simp hdt ds' f f'.
Proof using HA HSi HF HF' Hs Hs' Hsrc HI D EB.
  intros H val Hv. cbv zeta. pose proof (values_pair K simp ds ds' HA f val Hv) as Hv0. destruct (H val Hv0) as [H1 H2]. cbv zeta in H1, H2. rewrite !(half_pair K simp ds ds' HA). rewrite !no_source in *.
  assert (X : agree K n f' (comb K (1 - s val)%K (s val) f (F val))).
  { apply mom_injective. intros b d i Hb Hi. rewrite mom_comb, (HF val b d i Hb Hi). destruct (moment_dec K simp ds b i) as [[c Hm]|Hn].
    - rewrite (H1 c b i Hm), (moment_eqv K simp HSi ds c b i d val Hm Hb), <- (Hv0 c b i Hm). ring.
    - rewrite (H2 b i d Hb Hi Hn), (Hs val b i d Hb Hi Hn). reflexivity. }
  assert (Y : forall b i d, nth_error ds' b = Some d -> (i < nv K d)%nat -> mom K ds' f' b i = ((1 - s val) * mom K ds' f b i + s val * eqv K d i val)%K).
  { intros b i d Hb Hi. rewrite (agree_pair _ _ b i X), mom_comb, (HF' val b d i Hb Hi). reflexivity. }
  split.
  - intros c b i Hm. pose proof Hm as (d & Hb & _ & Hi & _). rewrite (Y b i d Hb Hi), (moment_eqv K simp HSi ds' c b i d val Hm Hb), <- (Hv c b i Hm). ring.
  - intros b i d Hb Hi Hn. rewrite (Y b i d Hb Hi), (Hs' val b i d Hb Hi Hn). reflexivity.
Qed.
Lemma initial_single l x f : initial_state K simp ds l x f -> initial_state K simp ds' l x f.
Proof using HA HF HF' HI D EB.
  intros [H1 H2]. split.
  - intros rk c b i Hr Hm. destruct (al_from K simp ds ds' HA c b i Hm) as (i0 & M & ->). rewrite (cons_pair K simp ds ds' HA) in Hr. apply (given_pair K simp ds ds' HA). now apply (H1 rk c b i0).
  - intros val Hv b i d Hb Hi. rewrite <- (HF' val b d i Hb Hi). apply agree_pair. apply mom_injective. intros b0 d0 i0 Hb0 Hi0. rewrite (HF val b0 d0 i0 Hb0 Hi0). apply (H2 val); try assumption. now apply (values_pair K simp ds ds' HA).
Qed.
End Single.

(* ------------------------------------------------- the simulations *)
Section Basis.
Variables (dimz : Z) (schemes : list (list Z)) (st : stencil) (r : list Z) (g : grid) (es : list DomainModel.elem) (labs : list Z) (conds : Z -> list (nat * method)).
Variables (Dm : dom) (ms : list (method * list blink)).
Hypothesis E : serial dimz schemes st r g es labs conds Dm ms.
Variables (K : ring) (qk : Q -> K).
Variable inv : nat -> mat K -> option (mat K).
Variable simp : term K -> term K.
Variables (dm : nat) (hdt : K) (ds ds' : list (sdict K)) (a a' : salgo K).
Hypothesis HI : inv_spec K inv.
Hypothesis HSi : simp_spec K simp.
Hypothesis D : dict_ok K simp ds.
Hypothesis D' : dict_ok K simp ds'.
Hypothesis O : ordered K simp ds.
Hypothesis O' : ordered K simp ds'.
Hypothesis EB : build K inv simp None dm hdt ds = Some a.
Hypothesis EB' : build K inv simp None dm hdt ds' = Some a'.
Hypothesis HPl : forall d t, In d ds -> In t (sd_P K d) -> below K dm t.
Hypothesis HPl' : forall d t, In d ds' -> In t (sd_P K d) -> below K dm t.
Hypothesis Hsz : map (nv K) ds = map (@length Z) schemes.
Hypothesis HQ : quiet st r g ms.
Hypothesis HA : alike K simp ds ds'.
Lemma transfer l phis : (forall f f', collided K simp hdt ds f f' -> collided K simp hdt ds' f f') -> (forall x f, initial_state K simp ds l x f -> initial_state K simp ds' l x f) ->
  data_ok K ds l -> walls_ok K phis -> exists G, simulates st r g es labs conds K qk inv simp ds a l phis G /\ simulates st r g es labs conds K qk inv simp ds' a' l phis G.
Proof using E HI HSi D D' O O' EB EB' HPl HPl' Hsz HQ HA.
  intros HC HJ Hl Hp. destruct (flow dimz schemes st r g es labs conds Dm ms E K qk inv simp dm hdt ds a HI HSi D O EB HPl Hsz HQ l phis Hl Hp) as (G & G0 & GH & GS).
  exists G. split; [exact GS|].
  assert (Hsz' : map (nv K) ds' = map (@length Z) schemes) by (now rewrite (nv_pair K simp ds ds' HA)).
  apply (sim_of dimz schemes st r g es labs conds Dm ms E K qk inv simp dm hdt ds' a' HI HSi D' O' EB' HPl' Hsz' HQ).
  - now apply (data_pair K simp ds ds' HA).
  - exact Hp.
  - intros t x. destruct (GH t x) as (f & F1 & F2). exists f. rewrite (total_pair K simp ds ds' HA). split; [exact F1|now apply HC].
  - intros x Hx. apply HJ. now apply G0.
Qed.
(* C94: moments which are combinations of moments with the same parameter (and of conserved moments without
   source) give the same distributions. *)
Theorem C94_combined A l phis : combined K simp ds ds' A -> data_ok K ds l -> walls_ok K phis ->
  exists G, simulates st r g es labs conds K qk inv simp ds a l phis G /\ simulates st r g es labs conds K qk inv simp ds' a' l phis G.
Proof using E HI HSi D D' O O' EB EB' HPl HPl' Hsz HQ HA.
  intros HC. apply transfer; intros; [now apply (collided_combined K simp HSi ds ds' HA A HC)|now apply (initial_combined K simp HSi ds ds' HA A HC)].
Qed.
(* With one parameter (the BGK collision) and no source, the moments which are not conserved do not matter. *)
Theorem C94_single F s l phis : equilibria K ds F -> equilibria K ds' F -> single K simp ds s -> single K simp ds' s -> (forall c, BuildProofs.source K ds c = None) -> data_ok K ds l -> walls_ok K phis ->
  exists G, simulates st r g es labs conds K qk inv simp ds a l phis G /\ simulates st r g es labs conds K qk inv simp ds' a' l phis G.
Proof using E HI HSi D D' O O' EB EB' HPl HPl' Hsz HQ HA.
  intros H1 H2 H3 H4 H5. apply transfer; intros; [eapply (collided_single K simp HSi ds ds' HA hdt F); eassumption|eapply (initial_single K simp ds ds' HA hdt F); eassumption].
Qed.
End Basis.
Print Assumptions C94_combined.
Print Assumptions C94_single.

(* ------------------------------------------------- examples *)
(* The dictionary of C87 with other polynomials, equilibria and sources. *)
Definition db (P eq : list (term QcR)) (s1 s2 : Q) (src : list (nat * term QcR)) : sdict QcR :=
  mkSdict QcR [[Q2Qc 0]; [Q2Qc 1]; [Q2Qc (-1)]] P None [qn 0; qn s1; qn s2] eq None [5%nat] src.
Definition qX2 : term QcR := Bin (K := QcR) Qcmult qX qX.
Definition qu (q : Q) : term QcR := Bin (K := QcR) Qcmult (qn q) (Var 5).
(* 1, X, X^2 with the equilibria u, 0, u/2; 1, X + X^2, X^2 with u, u/2, u/2 *)
Definition db1 (s1 s2 : Q) src : sdict QcR := db [qn 1; qX; qX2] [Var 5; qn 0; qu (1 # 2)] s1 s2 src.
Definition db2 (s1 s2 : Q) : sdict QcR := db [qn 1; Bin (K := QcR) Qcplus qX qX2; qX2] [Var 5; qu (1 # 2); qu (1 # 2)] s1 s2 [].
Definition dqs (s1 s2 : Q) src : sdict QcR := db [qn 1; qX; Bin (K := QcR) Qcminus qX2 (qn (1 # 2))] [Var 5; qn 0; qn 0] s1 s2 src.
Lemma dqs_dq s1 s2 : dqs s1 s2 [] = dq s1 s2.
Proof. reflexivity. Qed.
(* e1, e2: the other equilibria are not the symbol u *)
Section Db.
Variables (p0 p1 p2 e1 e2 : term QcR) (s1 s2 : Q) (src : list (nat * term QcR)).
Notation d := (db [p0; p1; p2] [Var 5; e1; e2] s1 s2 src).
Hypothesis He1 : e1 <> Var 5.
Hypothesis He2 : e2 <> Var 5.
Lemma db_moment c b i : is_moment QcR qsimp [d] c b i <-> b = 0%nat /\ c = 5%nat /\ i = 0%nat.
Proof using He1 He2.
  split.
  - intros (d0 & H1 & H2 & H3 & H4 & _). destruct b as [|[|b]]; try discriminate. injection H1 as <-. split; [reflexivity|].
    destruct H2 as [<-|[]]. destruct i as [|[|[|i]]]; cbn in H4, H3; try contradiction; [now split|lia].
  - intros (-> & -> & ->). exists d. repeat split; [cbn; tauto|cbn; lia|]. intros j Hj. lia.
Qed.
Lemma db_ordered : ordered QcR qsimp [d].
Proof using He1 He2. intros r c b i Hr Hm. apply db_moment in Hm as (-> & -> & ->). unfold conserved in Hr. cbn in Hr. destruct r as [|[|r]]; try discriminate. reflexivity. Qed.
Lemma db_ok : (forall c, In c (vars QcR e1 ++ vars QcR e2 ++ flat_map (fun p => vars QcR (snd p)) src) -> c = 5%nat) -> dict_ok QcR qsimp [d].
Proof using.
  clear He1 He2. intros H. constructor; unfold BuildProofs.closed, conserved; cbn [map concat sd_cons db app].
  - constructor; [|constructor]. repeat split.
  - intros d0 N [<-|[]] _. reflexivity.
  - repeat constructor. intros [].
  - intros d0 t [<-|[]] Ht c Hc. cbn in Ht. left. symmetry. destruct Ht as [<-|[<-|[<-|[]]]]; [destruct Hc as [<-|[]]; reflexivity| |]; apply H; rewrite !in_app_iff; tauto.
  - intros d0 t [<-|[]] Ht c Hc. cbn in Ht. destruct Ht as [<-|[<-|[<-|[]]]]; destruct Hc.
  - intros d0 c g [<-|[]] Hg c0 Hc. left. symmetry. apply H. rewrite !in_app_iff. right. right. apply in_flat_map. exists (c, g). now split.
Qed.
Lemma db_below : (forall c, In c (vars QcR p0 ++ vars QcR p1 ++ vars QcR p2) -> c = 0%nat) -> forall d0 t, In d0 [d] -> In t (sd_P QcR d0) -> below QcR 1 t.
Proof using.
  clear He1 He2. intros H d0 t [<-|[]] Ht c Hc. cbn in Ht. assert (c = 0%nat); [|lia]. apply H. rewrite !in_app_iff. destruct Ht as [<-|[<-|[<-|[]]]]; tauto.
Qed.
End Db.
Lemma db_alike p1 p2 e1 e2 s1 s2 p1' p2' e1' e2' s1' s2' src : e1 <> Var 5 -> e2 <> Var 5 -> e1' <> Var 5 -> e2' <> Var 5 ->
  alike QcR qsimp [db [qn 1; p1; p2] [Var 5; e1; e2] s1 s2 src] [db [qn 1; p1'; p2'] [Var 5; e1'; e2'] s1' s2' src].
Proof.
  intros H1 H2 H3 H4. split; try reflexivity.
  - intros c b i Hm. apply db_moment in Hm as (-> & -> & ->); try assumption. exists 0%nat. split; [now apply db_moment|reflexivity].
  - intros c b i Hm. apply db_moment in Hm as (-> & -> & ->); try assumption. exists 0%nat. split; [now apply db_moment|reflexivity].
Qed.
Definition bcands : list (mat QcR) := qcands ++ [qm [[1; 0; - 1]; [0; 1 # 2; 1 # 2]; [0; - (1 # 2); 1 # 2]]%Q; qm [[1; 0; - 1]; [0; 1 # 2; 0]; [0; - (1 # 2); 1]]%Q].
Definition bbuild (ds : list (sdict QcR)) : option (salgo QcR) := build QcR (qinv bcands) qsimp None 1 (Q2Qc 0) ds.
(* X^2 is X^2 - 1/2 plus one half of the conserved moment *)
Definition Ab : nat -> mat QcR := fun _ i l => qm [[1; 0; 0]; [0; 1; 0]; [1 # 2; 0; 1]]%Q i l.
Lemma Ab_combined s1 s2 : combined QcR qsimp [dq s1 s2] [db1 s1 s2 []] Ab.
Proof.
  intros b d d' i Hb Hb' Hi Hn. destruct b as [|[|b]]; try discriminate. injection Hb as <-. injection Hb' as <-. change (i < 3)%nat in Hi. change (nv QcR (dq s1 s2)) with 3%nat.
  destruct i as [|[|[|i]]]; try (exfalso; clear - Hi; lia); [destruct (Hn 5%nat); apply db_moment; now try discriminate| |]; (split; [|split]).
  - intros j Hj. destruct j as [|[|[|j]]]; try (exfalso; clear - Hj; lia); apply Qc_is_canon; vm_compute; reflexivity.
  - intros val. unfold eqv, sum, sumL, Ab, qm. cbn [seq fold_right sd_eq dq db1 db nth teval qn Ab qm radd rmul r0 rar QcR]. apply Qc_is_canon. qc_q. ring.
  - intros l Hl. destruct l as [|[|[|l]]]; try (exfalso; clear - Hl; lia); [left; apply Qc_is_canon; reflexivity| |left; apply Qc_is_canon; reflexivity].
    right. right. split; [|reflexivity]. intros c Hm. apply dq_moment in Hm. intuition discriminate.
  - intros j Hj. destruct j as [|[|[|j]]]; try (exfalso; clear - Hj; lia); apply Qc_is_canon; vm_compute; reflexivity.
  - intros val. unfold eqv, sum, sumL, Ab, qm. cbn [seq fold_right sd_eq dq db1 db nth teval qn qu Ab qm radd rmul r0 rar QcR]. apply Qc_is_canon. qc_q. ring.
  - intros l Hl. destruct l as [|[|[|l]]]; try (exfalso; clear - Hl; lia).
    + right. left. exists 5%nat. split; [now apply dq_moment|reflexivity].
    + left. apply Qc_is_canon. reflexivity.
    + right. right. split; [|reflexivity]. intros c Hm. apply dq_moment in Hm. intuition discriminate.
Qed.
Lemma db1_ok s1 s2 src : (forall c, In c (flat_map (fun p => vars QcR (snd p)) src) -> c = 5%nat) -> dict_ok QcR qsimp [db1 s1 s2 src].
Proof. intros H. apply db_ok. intros c Hc. cbn in Hc. destruct Hc as [<-|Hc]; [reflexivity|now apply H]. Qed.
(* the parameters 1/2 of the flux and 1/3 of X^2 - 1/2: the same simulation with X^2 *)
Example C94_example : exists a a', bbuild [dq (1 # 2) (1 # 3)] = Some a /\ bbuild [db1 (1 # 2) (1 # 3) []] = Some a' /\ exists G,
  simulates st3 [0; 2; 1] v3line [] [] bb QcR Q2Qc (qinv bcands) qsimp [dq (1 # 2) (1 # 3)] a qdata qphi G /\
  simulates st3 [0; 2; 1] v3line [] [] bb QcR Q2Qc (qinv bcands) qsimp [db1 (1 # 2) (1 # 3) []] a' qdata qphi G.
Proof.
  destruct (built_some (bbuild [dq (1 # 2) (1 # 3)])) as [a Ea]; [vm_compute; reflexivity|]. destruct (built_some (bbuild [db1 (1 # 2) (1 # 3) []])) as [a' Ea']; [vm_compute; reflexivity|].
  exists a, a'. split; [exact Ea|]. split; [exact Ea'|].
  apply (C94_combined 1 [[0; 1; 2]] st3 [0; 2; 1] v3line [] [] bb D3 ms3 serial3 QcR Q2Qc (qinv bcands) qsimp 1 (Q2Qc 0) [dq (1 # 2) (1 # 3)] [db1 (1 # 2) (1 # 3) []] a a' (qinv_ok _) qsimp_ok (dq_ok _ _)) with (A := Ab); try assumption.
  - apply db1_ok. intros c [].
  - apply dq_ordered.
  - apply db_ordered; discriminate.
  - apply dq_below.
  - apply db_below. intros c Hc. cbn in Hc. intuition.
  - reflexivity.
  - exact quiet3.
  - apply db_alike; discriminate.
  - apply Ab_combined.
  - apply qdata_ok.
  - exact qphi_ok.
Qed.
(* one parameter 1/2: the same simulation with X + X^2 and X^2 *)
Example C94_single_example : exists a a', bbuild [dq (1 # 2) (1 # 2)] = Some a /\ bbuild [db2 (1 # 2) (1 # 2)] = Some a' /\ exists G,
  simulates st3 [0; 2; 1] v3line [] [] bb QcR Q2Qc (qinv bcands) qsimp [dq (1 # 2) (1 # 2)] a qdata qphi G /\
  simulates st3 [0; 2; 1] v3line [] [] bb QcR Q2Qc (qinv bcands) qsimp [db2 (1 # 2) (1 # 2)] a' qdata qphi G.
Proof.
  destruct (built_some (bbuild [dq (1 # 2) (1 # 2)])) as [a Ea]; [vm_compute; reflexivity|]. destruct (built_some (bbuild [db2 (1 # 2) (1 # 2)])) as [a' Ea']; [vm_compute; reflexivity|].
  exists a, a'. split; [exact Ea|]. split; [exact Ea'|].
  apply (C94_single 1 [[0; 1; 2]] st3 [0; 2; 1] v3line [] [] bb D3 ms3 serial3 QcR Q2Qc (qinv bcands) qsimp 1 (Q2Qc 0) [dq (1 # 2) (1 # 2)] [db2 (1 # 2) (1 # 2)] a a' (qinv_ok _) qsimp_ok (dq_ok _ _)) with (F := fun val k => Wq k (val 5%nat)) (s := fun _ => Q2Qc (1 # 2)); try assumption.
  - apply db_ok. intros c Hc. cbn in Hc. intuition.
  - apply dq_ordered.
  - apply db_ordered; discriminate.
  - apply dq_below.
  - apply db_below. intros c Hc. cbn in Hc. intuition.
  - reflexivity.
  - exact quiet3.
  - apply db_alike; discriminate.
  - intros val b d i Hb Hi. exact (sc_eq _ _ _ _ _ _ (dq_scalar (1 # 2) (1 # 2)) val b d i Hb Hi).
  - intros val b d i Hb Hi. destruct b as [|[|b]]; try discriminate. injection Hb as <-. change (i < 3)%nat in Hi.
    destruct i as [|[|[|i]]]; try (exfalso; clear - Hi; lia); unfold mom, eqv, entry, sum, sumL, Wq; cbn [nth_error seq fold_right sd_v sd_P sd_M sd_eq db2 db nv length nth teval qn qu qX qX2 coord off firstn map Nat.add Nat.eqb radd rmul r0 rar QcR]; apply Qc_is_canon; qc_q; ring.
  - intros val b i d Hb Hi Hn. destruct b as [|[|b]]; try discriminate. injection Hb as <-. change (i < 3)%nat in Hi. destruct i as [|[|[|i]]]; try (exfalso; clear - Hi; lia); try reflexivity. destruct (Hn 5%nat). now apply dq_moment.
  - intros val b i d Hb Hi Hn. destruct b as [|[|b]]; try discriminate. injection Hb as <-. change (i < 3)%nat in Hi. destruct i as [|[|[|i]]]; try (exfalso; clear - Hi; lia); try reflexivity. destruct (Hn 5%nat). apply db_moment; now try discriminate.
  - reflexivity.
  - apply qdata_ok.
  - exact qphi_ok.
Qed.

(* With a source of the conserved moment the choice of X^2 or X^2 - 1/2 matters: the source acts on X^2 - 1/2
   as a moment which is not conserved, and the half steps do not go through the relaxation of the mixed moment. *)
Definition but_source (K : ring) (simp : term K -> term K) (ds ds' : list (sdict K)) (A : nat -> mat K) : Prop :=
  forall b d d' i, nth_error ds b = Some d -> nth_error ds' b = Some d' -> (i < nv K d')%nat -> (forall c, ~ is_moment K simp ds' c b i) ->
  (forall j, (j < nv K d)%nat -> entry K d' i j = sum (nv K d) (fun l => (A b i l * entry K d l j)%K)) /\
  (forall val, eqv K d' i val = sum (nv K d) (fun l => (A b i l * eqv K d l val)%K)) /\
  forall l, (l < nv K d)%nat -> A b i l = 0%K \/ (exists c, is_moment K simp ds c b l) \/
    ((forall c, ~ is_moment K simp ds c b l) /\ forall val, teval K val (nth i (sd_s K d') (Num 0%K)) = teval K val (nth l (sd_s K d) (Num 0%K))).
Definition one_src : list (nat * term QcR) := [(5%nat, qn 1)].
Theorem C94_source_refuted : exists (ds ds' : list (sdict QcR)) hdt A f f',
  alike QcR qsimp ds ds' /\ but_source QcR qsimp ds ds' A /\ dict_ok QcR qsimp ds /\ dict_ok QcR qsimp ds' /\ ordered QcR qsimp ds /\ ordered QcR qsimp ds' /\
  (exists a, bbuild ds = Some a) /\ (exists a', bbuild ds' = Some a') /\ collided QcR qsimp hdt ds f f' /\ ~ collided QcR qsimp hdt ds' f f'.
Proof.
  exists [dqs (1 # 2) (1 # 2) one_src], [db1 (1 # 2) (1 # 2) one_src], (Q2Qc (1 # 2)), Ab, (fun _ => Q2Qc 0), (fun k => Wq k (Q2Qc 1)).
  split; [apply db_alike; discriminate|].
  assert (M : forall c b i, is_moment QcR qsimp [dqs (1 # 2) (1 # 2) one_src] c b i <-> b = 0%nat /\ c = 5%nat /\ i = 0%nat) by (intros; apply db_moment; discriminate).
  assert (M' : forall c b i, is_moment QcR qsimp [db1 (1 # 2) (1 # 2) one_src] c b i <-> b = 0%nat /\ c = 5%nat /\ i = 0%nat) by (intros; apply db_moment; discriminate).
  split.
  { intros b d d' i Hb Hb' Hi Hn. destruct b as [|[|b]]; try discriminate. injection Hb as <-. injection Hb' as <-. change (i < 3)%nat in Hi.
    assert (Hn' : forall c, ~ is_moment QcR qsimp [db1 (1 # 2) (1 # 2) []] c 0 i) by (intros c Hc; apply (Hn c); apply M'; revert Hc; apply db_moment; discriminate).
    destruct (Ab_combined (1 # 2) (1 # 2) 0%nat _ _ i eq_refl eq_refl Hi Hn') as (H1 & H2 & H3). split; [exact H1|]. split; [exact H2|]. intros l Hl. destruct (H3 l Hl) as [H|[(c & Hc & _)|[H H']]].
    - now left.
    - right. left. exists c. apply M. revert Hc. apply dq_moment.
    - right. right. split; [|exact H']. intros c Hc. apply (H c). apply dq_moment. now apply M. }
  split; [apply db_ok; intros c Hc; cbn in Hc; contradiction|]. split; [apply db1_ok; intros c Hc; cbn in Hc; contradiction|].
  split; [apply db_ordered; discriminate|]. split; [apply db_ordered; discriminate|].
  split; [apply built_some; vm_compute; reflexivity|]. split; [apply built_some; vm_compute; reflexivity|]. split.
  - intros val Hv. cbv zeta. specialize (Hv 5%nat 0%nat 0%nat (proj2 (M _ _ _) (conj eq_refl (conj eq_refl eq_refl)))). assert (V : val 5%nat = Q2Qc 0) by (rewrite Hv; apply Qc_is_canon; vm_compute; reflexivity). split.
    + intros c b i Hm. apply M in Hm as (-> & -> & ->). change (half QcR (Q2Qc (1 # 2)) [dqs (1 # 2) (1 # 2) one_src] (half QcR (Q2Qc (1 # 2)) [dqs (1 # 2) (1 # 2) one_src] val) 5%nat) with (val 5%nat + Q2Qc (1 # 2) * Q2Qc 1 + Q2Qc (1 # 2) * Q2Qc 1)%Qc.
      rewrite V. apply Qc_is_canon. vm_compute. reflexivity.
    + intros b i d Hb Hi Hn. destruct b as [|[|b]]; try discriminate. injection Hb as <-. change (i < 3)%nat in Hi. destruct i as [|[|[|i]]]; try (exfalso; clear - Hi; lia).
      * destruct (Hn 5%nat). now apply M.
      * apply Qc_is_canon. vm_compute. reflexivity.
      * apply Qc_is_canon. vm_compute. reflexivity.
  - intros C. destruct (C (fun _ => Q2Qc 0)) as [_ H].
    + intros c b i Hm. apply M' in Hm as (-> & -> & ->). apply Qc_is_canon. vm_compute. reflexivity.
    + specialize (H 0%nat 2%nat _ eq_refl ltac:(cbn; lia)). assert (N : forall c, ~ is_moment QcR qsimp [db1 (1 # 2) (1 # 2) one_src] c 0 2) by (intros c Hc; apply M' in Hc; intuition discriminate).
      specialize (H N). apply (f_equal (fun q : Qc => this q)) in H. vm_compute in H. discriminate.
Qed.
Print Assumptions C94_source_refuted.
