(* Parallelograms, triangles and bases of cylinders in the coordinates of their frame. *)
From Coq Require Import Reals ZArith List Lra Psatz Bool.
From Verif Require Import ElementModel ElementProofs ElementLinesProofs.
Import ListNotations.
Open Scope R_scope.

Definition O2 : p2 := P2 0 0.
Definition pv (e : edge) : p2 * p2 := (e_p e, e_v e).
Lemma seg_pv e e' x : pv e = pv e' -> seg e x -> seg e' x.
Proof. unfold pv, seg. intros H. injection H as -> ->. auto. Qed.
Lemma crosses_pv e e' v : pv e = pv e' -> crosses v e -> crosses v e'.
Proof. unfold pv, crosses. intros H. injection H as _ ->. auto. Qed.

Section Frame.
Variables v1 v2 : p2.
Hypothesis IND : indep2 v1 v2.
Let u_ (x : p2) := co1 O2 v1 v2 x.
Let w_ (x : p2) := co2 O2 v1 v2 x.

Lemma co_at q v t :
  u_ (at2 q v t) = u_ q + t * u_ v /\ w_ (at2 q v t) = w_ q + t * w_ v.
Proof. unfold indep2 in IND. unfold u_, w_, co1, co2, O2; cbn. split; field; auto. Qed.
Lemma comb_unique a b x : x = comb2 O2 v1 v2 a b -> u_ x = a /\ w_ x = b.
Proof. intros ->. apply comb_co. auto. Qed.
Lemma parallel_v1 v : parallel v v1 <-> w_ v = 0.
Proof.
  rewrite parallel_det. unfold indep2 in IND.
  assert (E : py v * px v1 - px v * py v1 = w_ v * (px v1 * py v2 - py v1 * px v2))
    by (unfold w_, co2, O2; cbn; field; auto).
  rewrite E. split; intros H; [apply Rmult_integral in H; tauto|rewrite H; ring].
Qed.
Lemma parallel_v2 v : parallel v v2 <-> u_ v = 0.
Proof.
  rewrite parallel_det. unfold indep2 in IND.
  assert (E : py v * px v2 - px v * py v2 = - u_ v * (px v1 * py v2 - py v1 * px v2))
    by (unfold u_, co1, O2; cbn; field; auto).
  rewrite E. split; intros H; [apply Rmult_integral in H; lra|rewrite H; ring].
Qed.
Lemma parallel_v3 v : parallel v (sub2 v2 v1) <-> u_ v + w_ v = 0.
Proof.
  rewrite parallel_det. unfold indep2 in IND.
  assert (E : py v * px (sub2 v2 v1) - px v * py (sub2 v2 v1) = - (u_ v + w_ v) * (px v1 * py v2 - py v1 * px v2))
    by (unfold u_, w_, co1, co2, O2, sub2; cbn; field; auto).
  rewrite E. split; intros H; [apply Rmult_integral in H; lra|rewrite H; ring].
Qed.

Definition sq_edges (es : list edge) : Prop :=
  forall k, In k (map pv es) <-> k = (O2, v1) \/ k = (O2, v2) \/ k = (v2, v1) \/ k = (v1, v2).
Definition tr_edges (es : list edge) : Prop :=
  forall k, In k (map pv es) <-> k = (O2, v1) \/ k = (O2, v2) \/ k = (v1, sub2 v2 v1).
(* the boundary, relative to the first vertex *)
Definition sq_Bd (x : p2) : Prop := sq_bd (u_ x) (w_ x).
Definition tr_Bd (x : p2) : Prop := tr_bd (u_ x) (w_ x).

Lemma at2_frame p w s : at2 p w s = comb2 O2 v1 v2 (u_ p + s * u_ w) (w_ p + s * w_ w).
Proof. unfold indep2 in IND. apply p2_eq; unfold u_, w_, co1, co2, O2; cbn; field; auto. Qed.
Lemma co_v1 : u_ v1 = 1 /\ w_ v1 = 0.
Proof. unfold indep2 in IND. unfold u_, w_, co1, co2, O2; cbn; split; field; auto. Qed.
Lemma co_v2 : u_ v2 = 0 /\ w_ v2 = 1.
Proof. unfold indep2 in IND. unfold u_, w_, co1, co2, O2; cbn; split; field; auto. Qed.
Lemma co_v3 : u_ (sub2 v2 v1) = -1 /\ w_ (sub2 v2 v1) = 1.
Proof. unfold indep2 in IND. unfold u_, w_, co1, co2, O2, sub2; cbn; split; field; auto. Qed.
Lemma co_O : u_ O2 = 0 /\ w_ O2 = 0.
Proof. unfold indep2 in IND. unfold u_, w_, co1, co2, O2; cbn; split; field; auto. Qed.

Lemma seg_of p w x s : 0 <= s <= 1 -> u_ x = u_ p + s * u_ w -> w_ x = w_ p + s * w_ w ->
  forall l, seg (mkEdge p w l) x.
Proof.
  intros H1 H2 H3 l. exists s. split; auto. cbn [e_p e_v]. rewrite at2_frame, <- H2, <- H3.
  now apply co_comb.
Qed.
Lemma seg_to e x : seg e x -> exists s, 0 <= s <= 1 /\ u_ x = u_ (e_p e) + s * u_ (e_v e) /\
  w_ x = w_ (e_p e) + s * w_ (e_v e).
Proof. intros (s & Hs & ->). exists s. split; auto. apply comb_unique. apply at2_frame. Qed.

Lemma sq_edges_bd es : sq_edges es -> forall e x, In e es -> seg e x -> sq_Bd x.
Proof.
  intros H e x He S. apply (in_map pv) in He. apply H in He.
  apply seg_to in S as (s & Hs & E1 & E2). unfold sq_Bd. rewrite E1, E2.
  destruct co_v1 as [A1 A2], co_v2 as [B1 B2], co_O as [C1 C2]. unfold pv in He.
  destruct He as [K|[K|[K|K]]]; injection K as -> ->;
    rewrite ?A1, ?A2, ?B1, ?B2, ?C1, ?C2; unfold sq_bd, sq_in; lra.
Qed.
Lemma tr_edges_bd es : tr_edges es -> forall e x, In e es -> seg e x -> tr_Bd x.
Proof.
  intros H e x He S. apply (in_map pv) in He. apply H in He.
  apply seg_to in S as (s & Hs & E1 & E2). unfold tr_Bd. rewrite E1, E2.
  destruct co_v1 as [A1 A2], co_v2 as [B1 B2], co_v3 as [D1 D2], co_O as [C1 C2]. unfold pv in He.
  destruct He as [K|[K|K]]; injection K as -> ->;
    rewrite ?A1, ?A2, ?B1, ?B2, ?C1, ?C2, ?D1, ?D2; unfold tr_bd, tr_in; lra.
Qed.

Lemma pick es p w : In (p, w) (map pv es) -> exists e, In e es /\ pv e = (p, w).
Proof. intros H. apply in_map_iff in H as (e & E & He). eauto. Qed.
Lemma pick_hit es p w v q t' s : In (p, w) (map pv es) -> ~ parallel v w -> 0 <= s <= 1 ->
  u_ (at2 q v t') = u_ p + s * u_ w -> w_ (at2 q v t') = w_ p + s * w_ w ->
  exists e, In e es /\ crosses v e /\ seg e (at2 q v t').
Proof.
  intros H N Hs E1 E2. apply pick in H as (e & He & K). exists e. split; auto. split.
  - apply (crosses_pv (mkEdge p w 0)); [now rewrite K|]. exact N.
  - apply (seg_pv (mkEdge p w 0)); [now rewrite K|]. eapply seg_of; eauto.
Qed.

Lemma sq_H3 es q v : sq_edges es -> forall t, 0 < t -> sq_Bd (at2 q v t) ->
  sq_Bd q \/ exists e t', In e es /\ crosses v e /\ 0 < t' /\ t' <= t /\ seg e (at2 q v t').
Proof.
  intros H t Pt B. unfold sq_Bd in *. destruct (co_at q v t) as [E1 E2]. rewrite E1, E2 in B.
  destruct (sq_hit _ _ _ _ _ Pt B) as [D|(t' & P' & L' & D)]; [now left|right].
  destruct (co_at q v t') as [F1 F2].
  destruct co_v1 as [A1 A2], co_v2 as [B1 B2], co_O as [C1 C2].
  assert (X : exists e, In e es /\ crosses v e /\ seg e (at2 q v t')).
  { destruct D as [(NB & [D|D] & R)|(NA & [D|D] & R)].
    - apply (pick_hit es O2 v1 v q t' (u_ (at2 q v t'))); [apply H; auto|now rewrite parallel_v1|lra| |];
        rewrite ?C1, ?C2, ?A1, ?A2; lra.
    - apply (pick_hit es v2 v1 v q t' (u_ (at2 q v t'))); [apply H; auto|now rewrite parallel_v1|lra| |];
        rewrite ?B1, ?B2, ?A1, ?A2; lra.
    - apply (pick_hit es O2 v2 v q t' (w_ (at2 q v t'))); [apply H; auto|now rewrite parallel_v2|lra| |];
        rewrite ?C1, ?C2, ?B1, ?B2; lra.
    - apply (pick_hit es v1 v2 v q t' (w_ (at2 q v t'))); [apply H; auto|now rewrite parallel_v2|lra| |];
        rewrite ?A1, ?A2, ?B1, ?B2; lra. }
  destruct X as (e & X1 & X2 & X3). exists e, t'. auto.
Qed.
Lemma tr_H3 es q v : tr_edges es -> forall t, 0 < t -> tr_Bd (at2 q v t) ->
  tr_Bd q \/ exists e t', In e es /\ crosses v e /\ 0 < t' /\ t' <= t /\ seg e (at2 q v t').
Proof.
  intros H t Pt B. unfold tr_Bd in *. destruct (co_at q v t) as [E1 E2]. rewrite E1, E2 in B.
  destruct (tr_hit _ _ _ _ _ Pt B) as [D|(t' & P' & L' & D)]; [now left|right].
  destruct (co_at q v t') as [F1 F2].
  destruct co_v1 as [A1 A2], co_v2 as [B1 B2], co_O as [C1 C2], co_v3 as [D1 D2].
  assert (X : exists e, In e es /\ crosses v e /\ seg e (at2 q v t')).
  { destruct D as [(NB & D & R)|[(NA & D & R)|(NC & D & R)]].
    - apply (pick_hit es O2 v1 v q t' (u_ (at2 q v t'))); [apply H; auto|now rewrite parallel_v1|lra| |];
        rewrite ?C1, ?C2, ?A1, ?A2; lra.
    - apply (pick_hit es O2 v2 v q t' (w_ (at2 q v t'))); [apply H; auto|now rewrite parallel_v2|lra| |];
        rewrite ?C1, ?C2, ?B1, ?B2; lra.
    - apply (pick_hit es v1 (sub2 v2 v1) v q t' (w_ (at2 q v t'))); [apply H; auto|now rewrite parallel_v3|lra| |];
        rewrite ?A1, ?A2, ?D1, ?D2; lra. }
  destruct X as (e & X1 & X2 & X3). exists e, t'. auto.
Qed.
End Frame.
