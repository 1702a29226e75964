(* Lines, polygons and cylinders: geometric descriptions and lemmas. *)
From Coq Require Import Reals ZArith List Lra Psatz Bool.
From Verif Require Import ElementModel ElementProofs.
Import ListNotations.
Open Scope R_scope.

Definition parallel (v w : p2) : Prop := exists a b, (a <> 0 \/ b <> 0) /\ scale2 a v = scale2 b w.
Definition crosses (v : p2) (e : edge) : Prop := ~ parallel v (e_v e).
(* the points of an edge *)
Definition seg (e : edge) (x : p2) : Prop := exists s, 0 <= s <= 1 /\ x = at2 (e_p e) (e_v e) s.

Lemma parallel_det v w : parallel v w <-> py v * px w - px v * py w = 0.
Proof.
  split.
  - intros (a & b & N & E). assert (E1 := f_equal px E). assert (E2 := f_equal py E). cbn in *.
    destruct N as [N|N].
    + assert (a * (py v * px w - px v * py w) = 0).
      { replace (a * (py v * px w - px v * py w)) with ((a * py v) * px w - (a * px v) * py w) by ring.
        rewrite E1, E2. ring. }
      apply Rmult_integral in H. tauto.
    + assert (b * (py v * px w - px v * py w) = 0).
      { replace (b * (py v * px w - px v * py w)) with (py v * (b * px w) - px v * (b * py w)) by ring.
        rewrite <- E1, <- E2. ring. }
      apply Rmult_integral in H. tauto.
  - intros D. destruct (Req_dec (px w) 0) as [X|X]; [destruct (Req_dec (py w) 0) as [Y|Y]|].
    + exists 0, 1. split; [right; lra|]. apply p2_eq; cbn; lra.
    + exists (py w), (py v). split; auto. apply p2_eq; cbn; lra.
    + exists (px w), (px v). split; auto. apply p2_eq; cbn; lra.
Qed.

Lemma intersection_some q v p w t s :
  intersection_two_lines q v p w = Some (t, s) ->
  ~ parallel v w /\ at2 q v t = at2 p w s /\
  forall t' s', at2 q v t' = at2 p w s' -> t' = t /\ s' = s.
Proof.
  unfold intersection_two_lines. cmp (py v * px w - px v * py w) 0 Reqb; [discriminate|].
  intros H. injection H as <- <-. split; [now rewrite parallel_det|]. split.
  - apply p2_eq; cbn; field; auto.
  - intros t' s' H. assert (H1 := f_equal px H). assert (H2 := f_equal py H). cbn in *.
    assert (C1 : px p - px q = t' * px v - s' * px w) by lra.
    assert (C2 : py p - py q = t' * py v - s' * py w) by lra.
    rewrite C1, C2. split; field; auto.
Qed.
Lemma intersection_none q v p w : intersection_two_lines q v p w = None <-> parallel v w.
Proof.
  unfold intersection_two_lines. rewrite parallel_det. cmp (py v * px w - px v * py w) 0 Reqb; split; auto; try discriminate.
  intros; contradiction.
Qed.

(* a unit vector, orthogonal to the edge, against the velocity *)
Definition edge_normal (v : p2) (e : edge) (n : p2) : Prop :=
  dot2 n (e_v e) = 0 /\ norm2 n = 1 /\ dot2 n v < 0.

Definition lines_inv (q v : p2) (dmax : option R) (es : list edge) (h : hit p2) : Prop :=
  (h = mkHit tgv (-1)%Z (P2 0 0) /\
   forall e t, In e es -> crosses v e -> 0 < t -> t < tgv -> below dmax t = true -> ~ seg e (at2 q v t)) \/
  (0 < h_alpha h /\ h_alpha h < tgv /\ below dmax (h_alpha h) = true /\
   (exists e, In e es /\ crosses v e /\ seg e (at2 q v (h_alpha h)) /\ h_border h = e_label e /\
              edge_normal v e (h_normal h)) /\
   forall e t, In e es -> crosses v e -> 0 < t -> t < h_alpha h -> below dmax t = true -> ~ seg e (at2 q v t)).

Lemma edge_normal_code v w p l : ~ parallel v w ->
  let sign := if Rltb (px v * py w) (py v * px w) then 1 else -1 in
  let nv := sqrt (px w ^ 2 + py w ^ 2) in
  edge_normal v (mkEdge p w l) (P2 (sign * py w / nv) (- sign * px w / nv)).
Proof.
  intros N. rewrite parallel_det in N. cbv zeta.
  set (nv := sqrt (px w ^ 2 + py w ^ 2)).
  assert (PW : 0 < px w ^ 2 + py w ^ 2).
  { assert (0 <= px w ^ 2) by apply pow2_ge_0. assert (0 <= py w ^ 2) by apply pow2_ge_0.
    destruct (Req_dec (px w) 0) as [X|X]; [|apply sq_pos in X; lra].
    destruct (Req_dec (py w) 0) as [Y|Y]; [|apply sq_pos in Y; lra].
    exfalso. apply N. rewrite X, Y. ring. }
  assert (PN : 0 < nv) by (apply sqrt_lt_R0; auto).
  assert (SQ : nv * nv = px w ^ 2 + py w ^ 2) by (apply sqrt_sqrt; lra).
  assert (IN : 0 < / nv) by (apply Rinv_0_lt_compat; auto).
  assert (GEN : forall sg, sg * sg = 1 -> sg * (px v * py w - py v * px w) < 0 ->
    edge_normal v (mkEdge p w l) (P2 (sg * py w / nv) (- sg * px w / nv))).
  { intros sg S1 S2. unfold edge_normal, norm2, dot2. cbn [px py e_v]. repeat split.
    - field. lra.
    - rewrite <- sqrt_1. f_equal.
      replace (sg * py w / nv * (sg * py w / nv) + - sg * px w / nv * (- sg * px w / nv))
        with ((sg * sg) * (px w ^ 2 + py w ^ 2) / (nv * nv)) by (field; lra).
      rewrite S1, SQ. field. lra.
    - replace (sg * py w / nv * px v + - sg * px w / nv * py v)
        with ((sg * (px v * py w - py v * px w)) * / nv) by (field; lra). nra. }
  cmp (px v * py w) (py v * px w) Rltb; apply GEN; lra.
Qed.

Lemma lines_step_inv q v dmax es h e :
  lines_inv q v dmax es h -> lines_inv q v dmax (es ++ [e]) (line_step q v dmax h e).
Proof.
  intros I. pose proof tgv_pos as TG. unfold line_step.
  assert (AL : h_alpha h <= tgv) by (destruct I as [[-> _]|(_ & L & _)]; cbn [h_alpha]; lra).
  assert (OLD : forall x t, In x es -> crosses v x -> 0 < t -> t < h_alpha h -> below dmax t = true ->
                            ~ seg x (at2 q v t)).
  { destruct I as [[-> I]|(_ & _ & _ & _ & I)]; cbn [h_alpha]; intros; apply I; auto. }
  assert (KEEP : (forall t, crosses v e -> 0 < t -> t < h_alpha h -> below dmax t = true -> ~ seg e (at2 q v t)) ->
                 lines_inv q v dmax (es ++ [e]) h).
  { intros K. destruct I as [[-> I]|(P1 & P2 & P3 & (e0 & A1 & A2 & A3 & A4) & I)].
    - left. split; auto. intros x t Hx. apply in_app_or in Hx as [Hx|[<-|[]]]; [apply I; auto|intros; apply K; auto].
    - right. repeat split; auto. exists e0. split; [apply in_or_app; auto|]. auto.
      intros x t Hx. apply in_app_or in Hx as [Hx|[<-|[]]]; [apply I; auto|intros; apply K; auto]. }
  destruct (intersection_two_lines q v (e_p e) (e_v e)) as [[t1 s1]|] eqn:EI.
  2:{ apply KEEP. intros t C. apply intersection_none in EI. contradiction. }
  destruct (intersection_some _ _ _ _ _ _ EI) as (NP & MEET & UNI).
  destruct (Rltb t1 (h_alpha h) && (Rltb 0 t1 && below dmax t1 && (Rleb 0 s1 && Rleb s1 1))) eqn:C.
  - repeat (apply andb_prop in C; destruct C as [C ?]).
    repeat match goal with H : _ && _ = true |- _ => apply andb_prop in H as [? ?] end.
    rewrite Rltb_iff in *. rewrite Rleb_iff in *. right. cbn [h_alpha h_border h_normal].
    repeat split; auto; try lra.
    + exists e. split; [apply in_or_app; right; now left|]. split; [exact NP|]. split; [|split; auto].
      * exists s1. split; auto.
      * destruct e as [p w l]. cbn [e_v e_p e_label] in *. now apply edge_normal_code.
    + intros x t Hx Cx Pt Lt Bt. apply in_app_or in Hx as [Hx|[<-|[]]]; [apply OLD; auto; lra|].
      intros (s & Hs & E). destruct (UNI t s E). lra.
  - apply KEEP. intros t _ Pt Lt Bt (s & Hs & E). destruct (UNI t s E) as [-> ->].
    assert (Rltb t1 (h_alpha h) && (Rltb 0 t1 && below dmax t1 && (Rleb 0 s1 && Rleb s1 1)) = true).
    { rewrite Bt. rewrite (proj2 (Rltb_iff _ _) Lt), (proj2 (Rltb_iff _ _) Pt).
      rewrite (proj2 (Rleb_iff 0 s1)), (proj2 (Rleb_iff s1 1)) by lra. reflexivity. }
    congruence.
Qed.
Lemma lines_fold_inv q v dmax es2 : forall es1 h, lines_inv q v dmax es1 h ->
  lines_inv q v dmax (es1 ++ es2) (fold_left (line_step q v dmax) es2 h).
Proof.
  induction es2 as [|e es2 IH]; intros es1 h I; cbn.
  - now rewrite app_nil_r.
  - apply (lines_step_inv _ _ _ _ _ e) in I. apply IH in I. now rewrite <- app_assoc in I.
Qed.

Lemma lines_spec q v es dmax : cap_ok dmax ->
  let h := distance_lines q v es dmax in
  (h_alpha h = -1 /\ h_border h = (-1)%Z /\ h_normal h = P2 0 0 /\
   forall e t, In e es -> crosses v e -> 0 < t -> capped dmax t -> ~ seg e (at2 q v t)) \/
  (0 < h_alpha h /\ capped dmax (h_alpha h) /\
   (exists e, In e es /\ crosses v e /\ seg e (at2 q v (h_alpha h)) /\ h_border h = e_label e /\
              edge_normal v e (h_normal h)) /\
   forall e t, In e es -> crosses v e -> 0 < t -> t < h_alpha h -> ~ seg e (at2 q v t)).
Proof.
  intros Hm. cbv zeta. unfold distance_lines.
  assert (I : lines_inv q v dmax ([] ++ es) (fold_left (line_step q v dmax) es (mkHit tgv (-1)%Z (P2 0 0)))).
  { apply lines_fold_inv. left. split; [reflexivity|]. intros e t []. }
  cbn [app] in I. set (h := fold_left _ _ _) in *. clearbody h.
  destruct I as [[-> I]|(P & L & B & X & I)].
  - cbn [h_alpha h_border h_normal]. rewrite (proj2 (Reqb_iff tgv tgv) eq_refl). cbn. left. repeat split; auto.
    intros e t He Ce Pt Ct. apply I; [auto|auto|auto|eapply capped_tgv; eauto|now apply capped_below].
  - rewrite (proj2 (Reqb_false (h_alpha h) tgv)) by lra. right. repeat split; auto. now apply below_capped.
    intros e t He Ce Pt Lt. apply I; auto. destruct dmax as [m|]; cbn in *; auto.
    apply Rleb_iff in B. apply Rleb_iff. lra.
Qed.

(* A set of edges which bounds a region. *)
Lemma poly_spec (Bd : p2 -> Prop) q v es dmax : cap_ok dmax ->
  (forall e x, In e es -> seg e x -> Bd x) ->
  (forall t, 0 < t -> Bd (at2 q v t) ->
     Bd q \/ exists e t', In e es /\ crosses v e /\ 0 < t' /\ t' <= t /\ seg e (at2 q v t')) ->
  let h := distance_lines q v es dmax in
  (h_alpha h = -1 /\ h_border h = (-1)%Z /\
   forall t, 0 < t -> capped dmax t -> Bd (at2 q v t) -> Bd q) \/
  (0 < h_alpha h /\ capped dmax (h_alpha h) /\ Bd (at2 q v (h_alpha h)) /\
   (exists e, In e es /\ crosses v e /\ seg e (at2 q v (h_alpha h)) /\ h_border h = e_label e /\
              edge_normal v e (h_normal h)) /\
   forall t, 0 < t -> t < h_alpha h -> Bd (at2 q v t) -> Bd q).
Proof.
  intros Hm H1 H3. cbv zeta. destruct (lines_spec q v es dmax Hm) as [(A & B & _ & I)|(P & L & X & I)].
  - left. repeat split; auto. intros t Pt Ct Bt. destruct (H3 t Pt Bt) as [|(e & t' & He & Ce & P' & L' & S)]; auto.
    exfalso. apply (I e t'); auto. eapply capped_le; eauto.
  - right. repeat split; auto.
    + destruct X as (e & He & _ & S & _). eapply H1; eauto.
    + intros t Pt Lt Bt. destruct (H3 t Pt Bt) as [|(e & t' & He & Ce & P' & L' & S)]; auto.
      exfalso. apply (I e t'); auto. lra.
Qed.

(* ---- regions in the coordinates of their frame ---- *)
Definition sq_in (u w : R) : Prop := 0 <= u <= 1 /\ 0 <= w <= 1.
Definition sq_bd (u w : R) : Prop := sq_in u w /\ (u = 0 \/ u = 1 \/ w = 0 \/ w = 1).
Definition tr_in (u w : R) : Prop := 0 <= u /\ 0 <= w /\ u + w <= 1.
Definition tr_bd (u w : R) : Prop := tr_in u w /\ (u = 0 \/ w = 0 \/ u + w = 1).

Lemma hit_value U0 A t k : 0 < t -> (U0 < k /\ k <= U0 + t * A \/ k < U0 /\ U0 + t * A <= k) ->
  exists t', 0 < t' /\ t' <= t /\ U0 + t' * A = k.
Proof.
  intros Pt H.
  assert (NA : A <> 0) by (intros ->; lra).
  exists ((k - U0) / A).
  assert (E : U0 + (k - U0) / A * A = k) by (field; auto).
  set (t' := (k - U0) / A) in *. clearbody t'.
  assert (t' * A = k - U0) by lra.
  destruct H as [[H1 H2]|[H1 H2]]; [assert (0 < A) by nra|assert (A < 0) by nra]; repeat split; auto; nra.
Qed.

Lemma sq_hit U0 V0 A B t : 0 < t -> sq_bd (U0 + t * A) (V0 + t * B) ->
  sq_bd U0 V0 \/
  exists t', 0 < t' /\ t' <= t /\
    (B <> 0 /\ (V0 + t' * B = 0 \/ V0 + t' * B = 1) /\ 0 <= U0 + t' * A <= 1 \/
     A <> 0 /\ (U0 + t' * A = 0 \/ U0 + t' * A = 1) /\ 0 <= V0 + t' * B <= 1).
Proof.
  intros Pt [[HU HV] H].
  destruct (Req_dec A 0) as [ZA|ZA]; destruct (Req_dec B 0) as [ZB|ZB].
  - left. subst. unfold sq_bd, sq_in. rewrite !Rmult_0_r, !Rplus_0_r in *. tauto.
  - subst A. rewrite Rmult_0_r, Rplus_0_r in *.
    destruct H as [H|[H|H]]; [| |right; exists t; repeat split; try lra; left; repeat split; auto; lra].
    + destruct (Rlt_dec V0 0) as [L|L]; [|destruct (Rlt_dec 1 V0) as [L'|L']].
      * right. destruct (hit_value V0 B t 0 Pt) as (t' & P1 & P2 & P3); [lra|]. exists t'. repeat split; auto.
        left. repeat split; auto; lra.
      * right. destruct (hit_value V0 B t 1 Pt) as (t' & P1 & P2 & P3); [lra|]. exists t'. repeat split; auto.
        left. repeat split; auto; lra.
      * left. unfold sq_bd, sq_in. split; [lra|]. tauto.
    + destruct (Rlt_dec V0 0) as [L|L]; [|destruct (Rlt_dec 1 V0) as [L'|L']].
      * right. destruct (hit_value V0 B t 0 Pt) as (t' & P1 & P2 & P3); [lra|]. exists t'. repeat split; auto.
        left. repeat split; auto; lra.
      * right. destruct (hit_value V0 B t 1 Pt) as (t' & P1 & P2 & P3); [lra|]. exists t'. repeat split; auto.
        left. repeat split; auto; lra.
      * left. unfold sq_bd, sq_in. split; [lra|]. tauto.
  - subst B. rewrite Rmult_0_r, Rplus_0_r in *.
    destruct H as [H|[H|H]]; [right; exists t; repeat split; try lra; right; repeat split; auto; lra
                             |right; exists t; repeat split; try lra; right; repeat split; auto; lra|].
    destruct (Rlt_dec U0 0) as [L|L]; [|destruct (Rlt_dec 1 U0) as [L'|L']].
    + right. destruct (hit_value U0 A t 0 Pt) as (t' & P1 & P2 & P3); [lra|]. exists t'. repeat split; auto.
      right. repeat split; auto; rewrite ?Rmult_0_r; lra.
    + right. destruct (hit_value U0 A t 1 Pt) as (t' & P1 & P2 & P3); [lra|]. exists t'. repeat split; auto.
      right. repeat split; auto; rewrite ?Rmult_0_r; lra.
    + left. unfold sq_bd, sq_in. split; [lra|]. tauto.
  - right. exists t. split; [lra|split; [lra|]].
    destruct H as [H|[H|H]]; [right|right|left]; repeat split; auto; lra.
Qed.

Lemma tr_hit U0 V0 A B t : 0 < t -> tr_bd (U0 + t * A) (V0 + t * B) ->
  tr_bd U0 V0 \/
  exists t', 0 < t' /\ t' <= t /\
    (B <> 0 /\ V0 + t' * B = 0 /\ 0 <= U0 + t' * A <= 1 \/
     A <> 0 /\ U0 + t' * A = 0 /\ 0 <= V0 + t' * B <= 1 \/
     A + B <> 0 /\ U0 + t' * A + (V0 + t' * B) = 1 /\ 0 <= V0 + t' * B <= 1).
Proof.
  intros Pt [(HU & HV & HS) H].
  destruct H as [H|[H|H]].
  - (* u = 0 *)
    destruct (Req_dec A 0) as [ZA|ZA]; [|right; exists t; repeat split; try lra; right; left; repeat split; auto; lra].
    subst A. rewrite Rmult_0_r, Rplus_0_r in *.
    destruct (Rlt_dec V0 0) as [L|L]; [|destruct (Rlt_dec 1 V0) as [L'|L']].
    + destruct (hit_value V0 B t 0 Pt) as (t' & P1 & P2 & P3); [lra|]. right. exists t'. repeat split; auto.
      left. split; [intros ->; lra|]. rewrite Rmult_0_r. repeat split; auto; lra.
    + destruct (hit_value V0 B t 1 Pt) as (t' & P1 & P2 & P3); [lra|]. right. exists t'. repeat split; auto.
      right; right. split; [intros E; assert (B = 0) by lra; subst; lra|]. rewrite Rmult_0_r. repeat split; lra.
    + left. split; [unfold tr_in; lra|]. auto.
  - destruct (Req_dec B 0) as [ZB|ZB]; [|right; exists t; repeat split; try lra; left; repeat split; auto; lra].
    subst B. rewrite Rmult_0_r, Rplus_0_r in *.
    destruct (Rlt_dec U0 0) as [L|L]; [|destruct (Rlt_dec 1 U0) as [L'|L']].
    + destruct (hit_value U0 A t 0 Pt) as (t' & P1 & P2 & P3); [lra|]. right. exists t'. repeat split; auto.
      right; left. split; [intros ->; lra|]. rewrite Rmult_0_r. repeat split; auto; lra.
    + destruct (hit_value U0 A t 1 Pt) as (t' & P1 & P2 & P3); [lra|]. right. exists t'. repeat split; auto.
      right; right. split; [intros E; assert (A = 0) by lra; subst; lra|]. rewrite Rmult_0_r. repeat split; lra.
    + left. split; [unfold tr_in; lra|]. auto.
  - destruct (Req_dec (A + B) 0) as [ZB|ZB];
      [|right; exists t; repeat split; try lra; right; right; repeat split; auto; lra].
    assert (B = - A) by lra. subst B. clear ZB.
    assert (S0 : U0 + V0 = 1) by (assert (t * - A = - (t * A)) by ring; lra).
    destruct (Rlt_dec U0 0) as [L|L]; [|destruct (Rlt_dec V0 0) as [L'|L']].
    + destruct (hit_value U0 A t 0 Pt) as (t' & P1 & P2 & P3); [lra|]. right. exists t'. repeat split; auto.
      right; left. split; [intros ->; lra|]. assert (t' * - A = - (t' * A)) by ring. repeat split; auto; lra.
    + destruct (hit_value V0 (- A) t 0 Pt) as (t' & P1 & P2 & P3); [lra|]. right. exists t'. repeat split; auto.
      assert (t' * - A = - (t' * A)) by ring. left. split; [intros E; rewrite E in *; lra|]. repeat split; auto; lra.
    + left. split; [unfold tr_in; lra|]. auto.
Qed.

(* an affine function not negative at a and b is not negative between them *)
Lemma between a b c d t : a <= t -> t <= b -> 0 <= c + a * d -> 0 <= c + b * d -> 0 <= c + t * d.
Proof. intros. destruct (Rle_dec 0 d); nra. Qed.

(* entering a region described by finitely many affine inequalities *)
Lemma enter (l : list (R * R)) t : 0 < t ->
  (forall f, In f l -> 0 <= fst f + t * snd f) ->
  (forall f, In f l -> 0 <= fst f) \/
  exists t', 0 < t' /\ t' <= t /\ (forall f, In f l -> 0 <= fst f + t' * snd f) /\
             exists f, In f l /\ fst f + t' * snd f = 0.
Proof.
  intros Pt. induction l as [|[c d] l IH]; intros H.
  - left. intros f [].
  - assert (Hc : 0 <= c + t * d) by (apply (H (c, d)); now left).
    destruct IH as [IH|(t1 & P1 & L1 & A1 & (f0 & F0 & Z0))]; [intros f Hf; apply H; now right| |].
    + destruct (Rlt_dec c 0) as [C|C].
      * right. destruct (hit_value c d t 0 Pt) as (t' & Q1 & Q2 & Q3); [lra|]. exists t'. repeat split; auto.
        -- intros f [<-|Hf]; cbn; [lra|]. pose proof (IH f Hf). apply (between 0 t); try lra. apply H. now right.
        -- exists (c, d). split; [now left|]. auto.
      * left. intros f [<-|Hf]; cbn; [lra|auto].
    + right. destruct (Rlt_dec c 0) as [C|C].
      * destruct (hit_value c d t 0 Pt) as (t' & Q1 & Q2 & Q3); [lra|].
        destruct (Rle_dec t1 t') as [LE|GT].
        -- exists t'. repeat split; auto.
           ++ intros f [<-|Hf]; cbn; [lra|]. apply (between t1 t); try lra; [auto|]. apply H. now right.
           ++ exists (c, d). split; [now left|]. auto.
        -- exists t1. repeat split; auto.
           ++ intros f [<-|Hf]; cbn; [apply (between t' t); lra|auto].
           ++ exists f0. split; [now right|auto].
      * exists t1. repeat split; auto.
        -- intros f [<-|Hf]; cbn; [apply (between 0 t); lra|auto].
        -- exists f0. split; [now right|auto].
Qed.

Lemma sq_enter U0 V0 A B t : 0 < t -> sq_in (U0 + t * A) (V0 + t * B) ->
  sq_in U0 V0 \/ exists t', 0 < t' /\ t' <= t /\ sq_bd (U0 + t' * A) (V0 + t' * B).
Proof.
  intros Pt [H1 H2].
  destruct (enter [(U0, A); (1 - U0, - A); (V0, B); (1 - V0, - B)] t Pt) as [E|(t' & P & L & F & (f & Hf & Z))].
  - intros f [<-|[<-|[<-|[<-|[]]]]]; cbn; lra.
  - left. pose proof (E _ (or_introl eq_refl)). pose proof (E _ (or_intror (or_introl eq_refl))).
    pose proof (E _ (or_intror (or_intror (or_introl eq_refl)))).
    pose proof (E _ (or_intror (or_intror (or_intror (or_introl eq_refl))))). cbn in *. unfold sq_in. lra.
  - right. exists t'. repeat split; auto.
    1-4: pose proof (F _ (or_introl eq_refl)); pose proof (F _ (or_intror (or_introl eq_refl)));
    pose proof (F _ (or_intror (or_intror (or_introl eq_refl))));
    pose proof (F _ (or_intror (or_intror (or_intror (or_introl eq_refl))))); cbn in *; lra.
    destruct Hf as [<-|[<-|[<-|[<-|[]]]]]; cbn in Z; lra.
Qed.
Lemma tr_enter U0 V0 A B t : 0 < t -> tr_in (U0 + t * A) (V0 + t * B) ->
  tr_in U0 V0 \/ exists t', 0 < t' /\ t' <= t /\ tr_bd (U0 + t' * A) (V0 + t' * B).
Proof.
  intros Pt (H1 & H2 & H3).
  destruct (enter [(U0, A); (V0, B); (1 - U0 - V0, - A - B)] t Pt) as [E|(t' & P & L & F & (f & Hf & Z))].
  - intros f [<-|[<-|[<-|[]]]]; cbn; lra.
  - left. pose proof (E _ (or_introl eq_refl)). pose proof (E _ (or_intror (or_introl eq_refl))).
    pose proof (E _ (or_intror (or_intror (or_introl eq_refl)))). cbn in *. unfold tr_in. lra.
  - right. exists t'.
    pose proof (F _ (or_introl eq_refl)); pose proof (F _ (or_intror (or_introl eq_refl)));
    pose proof (F _ (or_intror (or_intror (or_introl eq_refl)))). cbn in *. repeat split; auto; try lra.
    destruct Hf as [<-|[<-|[<-|[]]]]; cbn in Z; lra.
Qed.
