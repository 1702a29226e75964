(* The algorithm of Faddeev and Le Verrier computes the characteristic polynomial. *)
From mathcomp Require Import all_ssreflect fingroup perm all_algebra.
From Verif Require Import StabilityModel.
Set Implicit Arguments.
Unset Strict Implicit.
Unset Printing Implicit Defensive.
Import Order.TTheory GRing.Theory Num.Theory.
Local Open Scope ring_scope.

(* derivative of a determinant: the formula of Jacobi for X I - G *)
Section Jacobi.
Variable R : comRingType.
Lemma deriv_prod (I : finType) (F : I -> {poly R}) :
  (\prod_i F i)^`() = \sum_i (F i)^`() * \prod_(j | j != i) F j.
Proof.
have D : forall s : seq I, uniq s ->
  (\prod_(i <- s) F i)^`() = \sum_(i <- s) (F i)^`() * \prod_(j <- s | j != i) F j.
  elim=> [|a s IH] /=; first by rewrite !big_nil derivC.
  move=> /andP[na us]; rewrite !big_cons derivM IH // eqxx /= mulr_sumr; congr (_ + _).
    congr (_ * _); rewrite [in RHS]big_seq_cond [in LHS]big_seq; apply: eq_bigl => j.
    by case: eqP => [->|_]; rewrite ?andbT ?andbF // (negPf na).
  rewrite big_seq [in RHS]big_seq; apply: eq_bigr => i is_; rewrite big_cons.
  case: eqP => [ai|_]; first by rewrite ai is_ in na.
  by rewrite mulrCA.
by have := D (index_enum I) (index_enum_uniq I).
Qed.

Lemma jacobi n (G : 'M[R]_n) : (char_poly G)^`() = \tr (\adj (char_poly_mx G)).
Proof.
set M := char_poly_mx G.
pose Mi i : 'M[{poly R}]_n := \matrix_(k, l) if k == i then (M k l)^`() else M k l.
have MiE : forall i k l, Mi i k l = if k == i then (M k l)^`() else M k l by move=> i k l; rewrite mxE.
have Mii : forall i j, (M i j)^`() = (i == j)%:R.
  move=> i j; rewrite !mxE derivB derivC subr0; case: eqP => _; rewrite ?mulr1n ?mulr0n ?derivX ?derivC //.
have dM : forall i, \det (Mi i) = cofactor M i i.
  move=> i; rewrite (expand_det_row _ i) (bigD1 i) //= big1 ?addr0 => [|j ji].
    rewrite mxE eqxx Mii eqxx mul1r /cofactor; congr (_ * \det _); apply/matrixP => k l.
    by rewrite !mxE eq_sym (negPf (neq_lift _ _)).
  by rewrite mxE eqxx Mii eq_sym (negPf ji) mul0r.
transitivity (\sum_i \det (Mi i)); last by apply: eq_bigr => i _; rewrite dM mxE.
rewrite /char_poly /determinant -/M linear_sum exchange_big /=; apply: eq_bigr => s _.
have -> : ((-1) ^+ s * \prod_i M i (s i))^`() = (-1) ^+ s * (\prod_i M i (s i))^`().
  by case: (odd_perm s); rewrite ?expr1 ?expr0 ?mulN1r ?mul1r ?linearN.
rewrite deriv_prod mulr_sumr; apply: eq_bigr => i _; congr (_ * _).
rewrite [in RHS](bigD1 i) //= MiE eqxx; congr (_ * _); apply: eq_bigr => j ji; by rewrite MiE (negPf ji).
Qed.
End Jacobi.

Section Loop.
Variable C : numClosedFieldType.
Variables (n : nat) (G : 'M[C]_n) (c : nat -> C) (B : nat -> 'M[C]_n).
Hypothesis B_rec : forall k, G *m B k.+1 + (c k.+1)%:M = B k.
Hypothesis c_n : c n = 1.
Hypothesis B_top : (0 < n)%N -> B n.-1 = 1%:M.
Hypothesis tr_GB : forall k, (k < n)%N -> \tr (G *m B k) = - ((n - k)%:R * c k).
(* the state of the loop after the turn k *)
Lemma loop_spec k : (k < n)%N ->
  leverrier G k = (G *m B (n - k.+1), [seq c (n - i)%N | i <- iota 0 k.+2]).
Proof.
elim: k => [|k IH] kn.
  have E : B (n - 1) = 1%:M by rewrite subn1 B_top.
  have n1 : (n - 1 < n)%N by rewrite subn1 prednK.
  have T := tr_GB n1; rewrite E mulmx1 subKn // mul1r in T.
  by rewrite /= E mulmx1 subn0 c_n T opprK.
have kn' : (k < n)%N by apply: ltnW.
rewrite [leverrier _ _]/= IH //.
have nthk : [seq c (n - i)%N | i <- iota 0 k.+2]`_k.+1 = c (n - k.+1)%N.
  by rewrite (nth_map 0%N) ?size_iota // nth_iota.
have Gk : G *m (G *m B (n - k.+1) + (c (n - k.+1)%N)%:M) = G *m B (n - k.+2).
  have e : (n - k.+1)%N = (n - k.+2).+1 by rewrite -subSn // subSS.
  by rewrite e B_rec.
rewrite nthk Gk; congr (_, _).
have -> : iota 0 k.+3 = rcons (iota 0 k.+2) k.+2 by rewrite -[k.+3]addn1 iotaD cats1.
rewrite map_rcons; congr (rcons _ _).
have n2 : (n - k.+2 < n)%N by rewrite ltn_subrL /=; apply: leq_trans kn.
by rewrite tr_GB // opprK subKn // mulrAC mulfV ?pnatr_eq0 // mul1r.
Qed.
End Loop.

Section Leverrier.
Variable C : numClosedFieldType.
Variable n : nat.
Variable G : 'M[C]_n.
Let chi := char_poly G.
Let A := \adj (char_poly_mx G).
(* the coefficients of the adjugate matrix *)
Definition B (k : nat) : 'M[C]_n := \matrix_(i, j) (A i j)`_k.

Lemma BE k i j : B k i j = (A i j)`_k. Proof. by rewrite mxE. Qed.
Lemma cpmE i l : char_poly_mx G i l = (if i == l then 'X else 0) - (G i l)%:P.
Proof. by rewrite !mxE; case: eqP. Qed.
Lemma B_rec k : G *m B k.+1 + (chi`_k.+1)%:M = B k.
Proof.
have E : char_poly_mx G *m A = chi%:M by rewrite mul_mx_adj.
apply/matrixP => i j; rewrite BE mxE.
have := congr1 (fun M : 'M[{poly C}]_n => (M i j)`_k.+1) E; rewrite mxE [chi%:M _ _]mxE coefMn coef_sum => F.
rewrite [(chi`_k.+1)%:M _ _]mxE -F mxE.

have -> : \sum_(l < n) (char_poly_mx G i l * A l j)`_k.+1 = (A i j)`_k - \sum_(l < n) G i l * (A l j)`_k.+1.
  rewrite -sumrN (bigD1 i) //= [in RHS](bigD1 i) //= addrA; congr (_ + _).
    by rewrite cpmE eqxx mulrBl coefB coefXM coefCM.
  apply: eq_bigr => l li; rewrite cpmE eq_sym (negPf li) sub0r mulNr coefN coefCM //.
have -> : \sum_l G i l * B k.+1 l j = \sum_(l < n) G i l * (A l j)`_k.+1 by apply: eq_bigr => l _; rewrite BE.
by rewrite addrC subrK.
Qed.
Lemma chi_big k : (n < k)%N -> chi`_k = 0.
Proof. by move=> nk; rewrite nth_default // size_char_poly. Qed.
Lemma chi_n : chi`_n = 1.
Proof. by have /monicP := char_poly_monic G; rewrite lead_coefE size_char_poly. Qed.
Lemma B_big k : (n <= k)%N -> B k = 0.
Proof.
have [N HN] : exists N, forall k, (N <= k)%N -> B k = 0.
  exists (\max_(ij : 'I_n * 'I_n) size (A ij.1 ij.2)) => m Hm; apply/matrixP => i j; rewrite BE [RHS]mxE nth_default //.
  by apply: leq_trans Hm; exact: (leq_bigmax (F := fun ij : 'I_n * 'I_n => size (A ij.1 ij.2)) (i, j)).
have H : forall d m, (n <= m)%N -> (N <= m + d)%N -> B m = 0.
  elim=> [|d IH] m nm Nm; first by apply: HN; rewrite addn0 in Nm.
  rewrite -B_rec IH ?mulmx0 ?add0r ?chi_big ?raddf0 //; first exact: leqW.
  by rewrite addSnnS.
move=> nk; apply: (H N) => //; exact: leq_addl.
Qed.
Lemma B_top : (0 < n)%N -> B n.-1 = 1%:M.
Proof. by move=> n0; rewrite -B_rec prednK // B_big // mulmx0 add0r chi_n. Qed.
Lemma tr_B k : \tr (B k) = k.+1%:R * chi`_k.+1.
Proof.
have J := congr1 (fun p : {poly C} => p`_k) (jacobi G); rewrite /= coef_deriv /mxtrace [in RHS]coef_sum in J.
by rewrite mulr_natl J /mxtrace; apply: eq_bigr => i _; rewrite BE.
Qed.
Lemma tr_GB k : (k < n)%N -> \tr (G *m B k) = - ((n - k)%:R * chi`_k).
Proof.
case: k => [|k] kn.
  have E : char_poly_mx G *m A = chi%:M by rewrite mul_mx_adj.
  have E0 : - (G *m B 0) = (chi`_0)%:M.
    apply/matrixP => i j; have := congr1 (fun M : 'M[{poly C}]_n => (M i j)`_0) E; rewrite mxE [chi%:M _ _]mxE coefMn coef_sum.
    move=> F; rewrite [RHS]mxE -F mxE [(G *m _) _ _]mxE -sumrN; apply: eq_bigr => l _; rewrite BE cpmE mulrBl coefB coefCM.
    by case: eqP => _; rewrite ?coefXM ?mul0r ?coef0 /= sub0r.
  have T := congr1 mxtrace E0; rewrite raddfN /= mxtrace_scalar in T.
  by rewrite subn0 mulr_natl -T opprK.
have T := congr1 mxtrace (B_rec k); rewrite raddfD /= mxtrace_scalar tr_B in T.
by rewrite (natrB _ (ltnW kn)) mulrBl opprB -T mulr_natl addrK.
Qed.
Lemma leverrier_spec k : (k < n)%N ->
  leverrier G k = (G *m B (n - k.+1), [seq chi`_(n - i) | i <- iota 0 k.+2]).
Proof. exact: (@loop_spec C n G (fun i => chi`_i) B B_rec chi_n B_top tr_GB). Qed.
Theorem charpoly_spec : (0 < n)%N -> charpoly G = chi :> seq C.
Proof.
move=> n0; rewrite /charpoly leverrier_spec ?prednK // /snd.
apply: (@eq_from_nth _ 0); first by rewrite size_rev size_map size_iota size_char_poly.
move=> i; rewrite size_rev size_map size_iota => Hi.
rewrite nth_rev ?size_map ?size_iota // (nth_map 0%N) ?size_iota; last by rewrite subSS ltnS leq_subr.
by rewrite nth_iota ?subSS ?ltnS ?leq_subr // add0n subKn.
Qed.
End Leverrier.
