(* C100: the progress bar and the headers. *)
From Coq Require Import QArith Qround Ascii Lqa.
From Verif Require Import PyBase GridModel GridProofs ProgressModel.
Require Import Lia.
Open Scope Z_scope.

(* Nearest integer, in integers. *)
Lemma filled_near bar i total n : 0 < total -> filled bar i total = Some n -> 2 * Z.abs (n * total - bar * i) <= total.
Proof.
  intros Ht H. unfold filled in H. destruct (Z.eqb_spec total 0); [lia|]. injection H as <-.
  set (q := (inject_Z (bar * i) / inject_Z total)%Q). pose proof (py_round_near q) as N. generalize dependent (py_round q). intros m N.
  assert (T : (0 < inject_Z total)%Q) by (change 0%Q with (inject_Z 0); now rewrite <- Zlt_Qlt).
  assert (E : (q * inject_Z total == inject_Z (bar * i))%Q) by (unfold q; field; lra).
  apply Qabs.Qabs_Qle_condition in N. destruct N as [N1 N2].
  assert (A1 : (inject_Z (bar * i) - inject_Z total * (1 # 2) <= inject_Z m * inject_Z total)%Q) by (rewrite <- E; nra).
  assert (A2 : (inject_Z m * inject_Z total <= inject_Z (bar * i) + inject_Z total * (1 # 2))%Q) by (rewrite <- E; nra).
  assert (B1 : (inject_Z (2 * (bar * i) - total) <= inject_Z (2 * (m * total)))%Q).
  { unfold Z.sub. rewrite inject_Z_plus, inject_Z_opp, !(inject_Z_mult 2), (inject_Z_mult m). change (inject_Z 2) with 2%Q. lra. }
  assert (B2 : (inject_Z (2 * (m * total)) <= inject_Z (2 * (bar * i) + total))%Q).
  { rewrite inject_Z_plus, !(inject_Z_mult 2), (inject_Z_mult m). change (inject_Z 2) with 2%Q. lra. }
  rewrite <- Zle_Qle in B1, B2. lia.
Qed.
Lemma filled_some bar i total : total <> 0 -> exists n, filled bar i total = Some n.
Proof. intros H. unfold filled. destruct (Z.eqb_spec total 0); [contradiction|]. eauto. Qed.
Lemma times_len c n : length (times c n) = Z.to_nat n.
Proof. apply repeat_length. Qed.

(* Inside of the range: the bar has its length, the number of stars is the nearest to the share
   which is done, none at the start and all at the end; the line ends at the end only. *)
Theorem C100_bar bar i total prefix suffix percents : 0 < total -> 0 <= bar -> 0 <= i <= total ->
  exists n, 0 <= n <= bar /\ 2 * Z.abs (n * total - bar * i) <= total /\ (i = 0 -> n = 0) /\ (i = total -> n = bar) /\
  exists b, print_progress bar i total prefix suffix percents =
      Some (cr :: prefix ++ " "%char :: "|"%char :: b ++ "|"%char :: " "%char :: percents i ++ "%"%char :: " "%char :: suffix ++ (if i =? total then [nl] else [])) /\
    length b = Z.to_nat bar /\ forall j, (j < length b)%nat -> nth j b " "%char = if Z.of_nat j <? n then "*"%char else "-"%char.
Proof.
  intros Ht Hb Hi. destruct (filled_some bar i total ltac:(lia)) as [n Hn]. pose proof (filled_near bar i total n Ht Hn) as N.
  assert (R : 0 <= n <= bar) by nia. exists n. split; [exact R|]. split; [exact N|]. split; [intros ->; nia|]. split; [intros ->; nia|].
  exists (p_bar bar n). split; [|split].
  - unfold print_progress. rewrite Hn. reflexivity.
  - unfold p_bar. rewrite app_length, !times_len. lia.
  - intros j Hj. unfold p_bar in *. rewrite app_length, !times_len in Hj. unfold times. destruct (Z.ltb_spec (Z.of_nat j) n).
    + rewrite app_nth1 by (rewrite repeat_length; lia). rewrite (nth_indep _ _ "*"%char) by (rewrite repeat_length; lia). apply nth_repeat.
    + rewrite app_nth2 by (rewrite repeat_length; lia). rewrite repeat_length. rewrite (nth_indep _ _ "-"%char) by (rewrite repeat_length; lia). apply nth_repeat.
Qed.
(* The bar never goes back. *)
Theorem C100_monotone bar total i i' n n' : 0 < total -> 0 <= bar -> i < i' -> filled bar i total = Some n -> filled bar i' total = Some n' -> n <= n'.
Proof.
  intros Ht Hb Hi H H'. unfold filled in *. destruct (Z.eqb_spec total 0); [lia|]. injection H as <-. injection H' as <-.
  assert (L : (inject_Z (bar * i) / inject_Z total <= inject_Z (bar * i') / inject_Z total)%Q).
  { apply Qmult_le_compat_r; [rewrite <- Zle_Qle; nia|]. apply Qinv_le_0_compat. change 0%Q with (inject_Z 0). rewrite <- Zle_Qle. lia. }
  revert L. generalize (inject_Z (bar * i) / inject_Z total)%Q (inject_Z (bar * i') / inject_Z total)%Q. clear. intros p q L.
  unfold py_round. pose proof (Qfloor_resp_le p q L) as F. pose proof (Qfloor_le p). pose proof (Qlt_floor p). pose proof (Qfloor_le q). pose proof (Qlt_floor q).
  assert (S : Qfloor p = Qfloor q \/ Qfloor p + 1 <= Qfloor q) by lia. destruct S as [S|S].
  - rewrite S in *. set (f := Qfloor q) in *.
    destruct (Qle_bool (q - inject_Z f) (1 # 2)) eqn:Q1.
    + apply Qle_bool_iff in Q1. assert (P1 : Qle_bool (p - inject_Z f) (1 # 2) = true) by (apply Qle_bool_iff; lra). rewrite P1.
      destruct (Qeq_bool (p - inject_Z f) (1 # 2)) eqn:P2.
      * apply Qeq_bool_iff in P2. assert (Q2 : Qeq_bool (q - inject_Z f) (1 # 2) = true) by (apply Qeq_bool_iff; lra). rewrite Q2. lia.
      * destruct (Qeq_bool (q - inject_Z f) (1 # 2)), (Z.even f); lia.
    + destruct (Qle_bool (p - inject_Z f) (1 # 2)), (Qeq_bool (p - inject_Z f) (1 # 2)), (Z.even f); lia.
  - destruct (Qle_bool (p - inject_Z (Qfloor p)) (1 # 2)), (Qeq_bool (p - inject_Z (Qfloor p)) (1 # 2)), (Z.even (Qfloor p)),
      (Qle_bool (q - inject_Z (Qfloor q)) (1 # 2)), (Qeq_bool (q - inject_Z (Qfloor q)) (1 # 2)), (Z.even (Qfloor q)); lia.
Qed.
(* The bar of 100 is full before the end for all the totals above 200 ... *)
Theorem C100_full_refuted total : 200 < total -> filled 100 (total - 1) total = Some 100 /\ total - 1 <> total.
Proof.
  intros Ht. split; [|lia]. destruct (filled_some 100 (total - 1) total ltac:(lia)) as [n Hn]. pose proof (filled_near 100 (total - 1) total n ltac:(lia) Hn) as N. rewrite Hn. f_equal.
  assert (A : 100 <= n) by (destruct (Z_le_gt_dec 100 n); [assumption|assert (n * total <= 99 * total) by (apply Z.mul_le_mono_nonneg_r; lia); lia]).
  assert (B : n <= 100) by (destruct (Z_le_gt_dec n 100); [assumption|assert (101 * total <= n * total) by (apply Z.mul_le_mono_nonneg_r; lia); lia]). lia.
Qed.
(* ... and too long after it; a bar for nothing raises. *)
Theorem C100_outside : (forall bar i total n, 0 < total -> 0 < bar -> total < bar * (i - total) -> filled bar i total = Some n -> (Z.to_nat bar < length (p_bar bar n))%nat) /\
  forall bar i prefix suffix percents, print_progress bar i 0 prefix suffix percents = None.
Proof.
  split; [|reflexivity]. intros bar i total n Ht Hb Hi Hn. pose proof (filled_near _ _ _ _ Ht Hn) as N. unfold p_bar. rewrite app_length, !times_len. nia.
Qed.

(* The line ends when the iteration is the total, and only then. *)
Theorem C100_newline bar i total prefix suffix percents s : print_progress bar i total prefix suffix percents = Some s ->
  exists p, s = p ++ ["%"%char; " "%char] ++ suffix ++ (if Z.eq_dec i total then [nl] else []).
Proof.
  intros H. unfold print_progress in H. destruct (filled bar i total) as [n|]; [|discriminate]. injection H as <-.
  exists ([cr] ++ prefix ++ [" "%char; "|"%char] ++ p_bar bar n ++ ["|"%char; " "%char] ++ percents i). rewrite <- !app_assoc.
  destruct (Z.eqb_spec i total), (Z.eq_dec i total); try contradiction; reflexivity.
Qed.
Print Assumptions C100_newline.

(* The object: after k calls the bars of 0, 1, ..., k have been written, one after the other. *)
Theorem C100_calls total title percents k : 0 < total ->
  calls total title percents k = Some (Z.of_nat k, concat (map (fun i => match print_progress 100 (Z.of_nat i) total title [] percents with Some s => s | None => [] end) (seq 0 (S k)))).
Proof.
  intros Ht. assert (S1 : forall i, exists s, print_progress 100 i total title [] percents = Some s).
  { intros i. unfold print_progress. destruct (filled_some 100 i total ltac:(lia)) as [n ->]. eauto. }
  induction k as [|k IH].
  - cbn [calls]. unfold new_bar, show. destruct (S1 0) as [s E]. cbn [seq map concat Z.of_nat]. rewrite E. now rewrite app_nil_r.
  - cbn [calls]. rewrite IH. unfold pbar, show. cbn [fst snd]. replace (Z.of_nat k + 1) with (Z.of_nat (S k)) by lia. destruct (S1 (Z.of_nat (S k))) as [s E].
    rewrite (seq_S (S k)), map_app, concat_app. cbn [map concat Nat.add]. rewrite E. now rewrite app_nil_r.
Qed.
Theorem C100_calls_zero title percents k : calls 0 title percents k = None.
Proof. induction k as [|k IH]; cbn [calls]; [reflexivity|now rewrite IH]. Qed.

(* The header: three lines as wide as the title and four characters. *)
Theorem C100_header title : exists l, header title = l ++ nl :: ("|"%char :: " "%char :: title ++ [" "%char; "|"%char]) ++ nl :: l /\
  length l = (length title + 4)%nat /\ length ("|"%char :: " "%char :: title ++ [" "%char; "|"%char]) = (length title + 4)%nat /\ ~ In nl l.
Proof.
  exists ("+"%char :: times "-" (Z.of_nat (length title) + 2) ++ ["+"%char]). split; [|split; [|split]].
  - unfold header. cbn [app]. f_equal. rewrite <- !app_assoc. reflexivity.
  - cbn [length]. rewrite app_length, times_len. cbn [length]. lia.
  - cbn [length]. rewrite app_length. cbn [length]. lia.
  - intros [H|H]; [discriminate|]. apply in_app_iff in H. destruct H as [H|[H|[]]]; [|discriminate]. apply repeat_spec in H. discriminate.
Qed.
Print Assumptions C100_bar.
Print Assumptions C100_monotone.
Print Assumptions C100_full_refuted.
Print Assumptions C100_outside.
Print Assumptions C100_calls.
Print Assumptions C100_calls_zero.
Print Assumptions C100_header.

Example C100_example : map (fun i => filled 10 i 7) [0; 1; 2; 3; 4; 5; 6; 7; 8] = map Some [0; 1; 3; 4; 6; 7; 9; 10; 11] /\
  print_progress 4 1 3 ["a"%char] [] (fun _ => ["3"%char; "3"%char]) =
    Some [cr; "a"%char; " "%char; "|"%char; "*"%char; "-"%char; "-"%char; "-"%char; "|"%char; " "%char; "3"%char; "3"%char; "%"%char; " "%char] /\
  length (header ["a"%char; "b"%char]) = 20%nat /\
  option_map (fun s => last s cr) (print_progress 4 3 3 [] [] (fun _ => [])) = Some nl /\ option_map (fun s => last s cr) (print_progress 4 5 3 [] [] (fun _ => [])) = Some " "%char.
Proof. repeat split; vm_compute; reflexivity. Qed.
