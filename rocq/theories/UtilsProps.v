(* C45: hsl_to_rgb. *)
From Coq Require Import QArith Qround Qminmax Lqa Lia.
From Verif Require Import UtilsModel.
Open Scope Q_scope.

(* The standard conversion (HSL to RGB, alternative formula): channel n of hue
   h (turns), saturation s, lightness l, with n = 0, 8, 4 for red, green, blue:
   f(n) = l - a max(-1, min(k-3, 9-k, 1)),  k = (n + 12 h) mod 12,  a = s min(l, 1-l). *)
Definition qmod (x m : Q) : Q := x - m * inject_Z (Qfloor (x / m)).
Definition channel (n h s l : Q) : Q :=
  let k := qmod (n + 12 * h) 12 in
  let a := s * Qmin l (1 - l) in
  l - a * Qmax (-1) (Qmin (Qmin (k - 3) (9 - k)) 1).

Lemma Qltb_true a b : Qltb a b = true <-> a < b.
Proof.
  unfold Qltb. rewrite Bool.negb_true_iff. split.
  - intros H. apply Qnot_le_lt. intros C. apply Qle_bool_iff in C. congruence.
  - intros H. destruct (Qle_bool b a) eqn:E; [|reflexivity]. apply Qle_bool_iff in E.
    exfalso. exact (Qlt_not_le _ _ H E).
Qed.
Lemma Qltb_false a b : Qltb a b = false <-> b <= a.
Proof.
  unfold Qltb. rewrite Bool.negb_false_iff. apply Qle_bool_iff.
Qed.
Lemma qmod1_spec t : 0 <= qmod1 t < 1 /\ exists z, t == qmod1 t + inject_Z z.
Proof.
  unfold qmod1. pose proof (Qfloor_le t). pose proof (Qlt_floor t) as H1. rewrite inject_Z_plus in H1. change (inject_Z 1) with 1 in H1.
  split; [lra|]. exists (Qfloor t). ring.
Qed.
Lemma qmod_spec x : 0 <= qmod x 12 < 12 /\ exists z, x == qmod x 12 + 12 * inject_Z z.
Proof.
  unfold qmod. pose proof (Qfloor_le (x / 12)) as H0. pose proof (Qlt_floor (x / 12)) as H1.
  rewrite inject_Z_plus in H1. change (inject_Z 1) with 1 in H1.
  assert (E : x == 12 * (x / 12)) by field. set (y := x / 12) in *. clearbody y.
  split; [|exists (Qfloor y); ring]. split; lra.
Qed.
Lemma inject_lt a b : inject_Z a < inject_Z b + 1 -> (a <= b)%Z.
Proof. intros H. change 1 with (inject_Z 1) in H. rewrite <- inject_Z_plus, <- Zlt_Qlt in H. lia. Qed.

(* hue position of a channel: 12 ((t - 1/3) mod 1) = (12 t - 4) mod 12 *)
Lemma wave p q l a t k :
  p == l - a -> q == l + a -> 0 <= k < 12 -> (exists z, 12 * t - 4 == k + 12 * inject_Z z) ->
  hue2rgb p q t == l - a * Qmax (-1) (Qmin (Qmin (k - 3) (9 - k)) 1).
Proof.
  intros Hp Hq Hk (z & Hz). unfold hue2rgb. destruct (qmod1_spec t) as [Hr (y & Hy)].
  set (r := qmod1 t) in *. cbv zeta.
  (* 12 r - 4 = k - 12 w with w = y - z shift *)
  assert (Hrel : 12 * r - 4 == k + 12 * (inject_Z z - inject_Z y)) by lra.
  assert (Hw : (y = z \/ y = z + 1)%Z).
  { assert (y <= z + 1)%Z by (apply inject_lt; rewrite inject_Z_plus; change (inject_Z 1) with 1; lra).
    assert (z <= y)%Z by (apply inject_lt; lra). lia. }
  assert (Hk2 : (k == 12 * r - 4 /\ (1#3) <= r) \/ (k == 12 * r + 8 /\ r < (1#3))).
  { destruct Hw as [->| ->].
    - left. split; lra.
    - rewrite inject_Z_plus in Hrel. change (inject_Z 1) with 1 in Hrel. right. split; lra. }
  clear Hrel Hw Hz Hy z y.
  destruct (Qltb r (1#6)) eqn:E1; [apply Qltb_true in E1|apply Qltb_false in E1; destruct (Qltb r (1#2)) eqn:E2;
    [apply Qltb_true in E2|apply Qltb_false in E2; destruct (Qltb r (2#3)) eqn:E3; [apply Qltb_true in E3|apply Qltb_false in E3]]].
  - (* k = 12 r + 8 in [8,10) : 9 - k = 1 - 12 r *)
    destruct Hk2 as [[Hk2 Hk3]|[Hk2 Hk3]]; [lra|].
    assert (X : Qmax (-1) (Qmin (Qmin (k - 3) (9 - k)) 1) == 1 - 12 * r).
    { rewrite (Q.min_r (k - 3) (9 - k)) by lra. rewrite Q.min_l by lra. rewrite Q.max_r by lra. lra. }
    rewrite X, Hp, Hq. ring.
  - assert (X : Qmax (-1) (Qmin (Qmin (k - 3) (9 - k)) 1) == -1).
    { destruct Hk2 as [[Hk2 Hk3]|[Hk2 Hk3]].
      - rewrite (Q.min_l (k - 3) (9 - k)) by lra. rewrite Q.min_l by lra. rewrite Q.max_l by lra. reflexivity.
      - rewrite (Q.min_r (k - 3) (9 - k)) by lra. rewrite Q.min_l by lra. rewrite Q.max_l by lra. reflexivity. }
    rewrite X, Hq. ring.
  - destruct Hk2 as [[Hk2 Hk3]|[Hk2 Hk3]]; [|lra].
    assert (X : Qmax (-1) (Qmin (Qmin (k - 3) (9 - k)) 1) == 12 * r - 7).
    { rewrite (Q.min_l (k - 3) (9 - k)) by lra. rewrite Q.min_l by lra. rewrite Q.max_r by lra. lra. }
    rewrite X, Hp, Hq. ring.
  - destruct Hk2 as [[Hk2 Hk3]|[Hk2 Hk3]]; [|lra].
    assert (X : Qmax (-1) (Qmin (Qmin (k - 3) (9 - k)) 1) == 1).
    { rewrite Q.min_r; [|apply Q.min_glb; lra]. rewrite Q.max_r by lra. reflexivity. }
    rewrite X, Hp. ring.
Qed.

(* C45: the value is the standard conversion. *)
Theorem C45_standard h s l r g b : hsl_to_rgb h s l = (r, g, b) ->
  r == channel 0 h s l /\ g == channel 8 h s l /\ b == channel 4 h s l.
Proof.
  unfold hsl_to_rgb. destruct (Qeq_bool s 0) eqn:Es.
  - apply Qeq_bool_iff in Es. intros E. injection E as <- <- <-. unfold channel. cbv zeta.
    rewrite Es. repeat split; ring.
  - intros E. injection E as <- <- <-.
    set (q := if Qltb l (1#2) then l * (1 + s) else l + s - l * s).
    assert (Hq : q == l + s * Qmin l (1 - l)).
    { unfold q. destruct (Qltb l (1#2)) eqn:El; [apply Qltb_true in El|apply Qltb_false in El].
      - rewrite Q.min_l by lra. ring.
      - rewrite Q.min_r by lra. ring. }
    assert (Hp : 2 * l - q == l - s * Qmin l (1 - l)) by (rewrite Hq; ring).
    unfold channel. cbv zeta. repeat split; apply wave; auto.
    all: match goal with |- context [qmod ?x 12] => destruct (qmod_spec x) as [Hk (z & Hz)] end; try exact Hk.
    + exists z. rewrite <- Hz. ring.
    + exists (z - 1)%Z. unfold Z.sub. rewrite inject_Z_plus. change (inject_Z (-(1))) with (-(1)).
      assert (E : 12 * h - 4 == (8 + 12 * h) - 12) by ring. rewrite E, Hz at 1. ring.
    + exists (z - 1)%Z. unfold Z.sub. rewrite inject_Z_plus. change (inject_Z (-(1))) with (-(1)).
      assert (E : 12 * (h - (1#3)) - 4 == (4 + 12 * h) - 12) by ring. rewrite E, Hz at 1. ring.
Qed.

Lemma clamp_bounds x : -1 <= Qmax (-1) (Qmin x 1) <= 1.
Proof.
  split; [apply Q.le_max_l|]. apply Q.max_lub; [lra|apply Q.le_min_r].
Qed.
Lemma amplitude s l : 0 <= s <= 1 -> 0 <= l <= 1 ->
  0 <= s * Qmin l (1 - l) /\ s * Qmin l (1 - l) <= l /\ s * Qmin l (1 - l) <= 1 - l.
Proof.
  intros Hs Hl. assert (H0 : 0 <= Qmin l (1 - l)) by (apply Q.min_glb; lra).
  pose proof (Q.le_min_l l (1 - l)). pose proof (Q.le_min_r l (1 - l)).
  assert (0 <= s * Qmin l (1 - l)) by (apply Qmult_le_0_compat; tauto || lra).
  assert (s * Qmin l (1 - l) <= Qmin l (1 - l)) by nra. lra.
Qed.
(* C45: the components are in [0,1] when saturation and lightness are, for every
   hue. *)
Theorem C45_range h s l r g b : 0 <= s <= 1 -> 0 <= l <= 1 -> hsl_to_rgb h s l = (r, g, b) ->
  (0 <= r <= 1) /\ (0 <= g <= 1) /\ (0 <= b <= 1).
Proof.
  intros Hs Hl E. destruct (C45_standard _ _ _ _ _ _ E) as (-> & -> & ->).
  destruct (amplitude s l Hs Hl) as (A0 & A1 & A2). unfold channel. cbv zeta.
  set (a := s * Qmin l (1 - l)) in *. clearbody a.
  assert (X : forall x, 0 <= l - a * Qmax (-1) (Qmin x 1) <= 1).
  { intros x. pose proof (clamp_bounds x) as [B0 B1]. set (y := Qmax (-1) (Qmin x 1)) in *. clearbody y. split; nra. }
  auto.
Qed.
(* C45: grey without saturation. *)
Theorem C45_grey h s l : s == 0 -> hsl_to_rgb h s l = (l, l, l).
Proof. intros Hs. unfold hsl_to_rgb. apply Qeq_bool_iff in Hs. now rewrite Hs. Qed.
(* C45: the hue is periodic. *)
Theorem C45_periodic h z s l r g b r' g' b' : hsl_to_rgb h s l = (r, g, b) ->
  hsl_to_rgb (h + inject_Z z) s l = (r', g', b') -> r == r' /\ g == g' /\ b == b'.
Proof.
  assert (F : forall n, channel n h s l == channel n (h + inject_Z z) s l).
  { intros n. unfold channel. cbv zeta.
    assert (K : qmod (n + 12 * h) 12 == qmod (n + 12 * (h + inject_Z z)) 12).
    { destruct (qmod_spec (n + 12 * h)) as [H1 (y1 & E1)]. destruct (qmod_spec (n + 12 * (h + inject_Z z))) as [H2 (y2 & E2)].
      set (k1 := qmod (n + 12 * h) 12) in *. set (k2 := qmod (n + 12 * (h + inject_Z z)) 12) in *. clearbody k1 k2.
      assert (H : k1 - k2 == 12 * (inject_Z y2 - inject_Z y1 - inject_Z z)) by lra.
      assert ((y2 <= y1 + z)%Z) by (apply inject_lt; rewrite inject_Z_plus; lra).
      assert ((y1 + z <= y2)%Z) by (apply inject_lt; rewrite inject_Z_plus; lra).
      assert (y2 = y1 + z)%Z as -> by lia. rewrite inject_Z_plus in H. lra. }
    now rewrite K. }
  intros E1 E2. apply C45_standard in E1. apply C45_standard in E2.
  destruct E1 as (-> & -> & ->), E2 as (-> & -> & ->). auto.
Qed.

(* A violet: hue 3/4, saturation 1/2, lightness 2/5. *)
Example C45_ex : let '(r, g, b) := hsl_to_rgb (3#4) (1#2) (2#5) in r == 2#5 /\ g == 1#5 /\ b == 3#5.
Proof. vm_compute. auto. Qed.

Print Assumptions C45_standard.
Print Assumptions C45_range.
Print Assumptions C45_grey.
Print Assumptions C45_periodic.
