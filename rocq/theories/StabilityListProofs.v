(* From the polynomials to the lists of coefficients used by the code. *)
From mathcomp Require Import all_ssreflect all_algebra.
From Verif Require Import StabilityModel StabilityProofs StabilityStepProofs.
Set Implicit Arguments.
Unset Strict Implicit.
Unset Printing Implicit Defensive.
Import Order.TTheory GRing.Theory Num.Theory.
Local Open Scope ring_scope.

Section Lists.
Variable C : numClosedFieldType.
Implicit Types (p : seq C) (z a : C).

(* what the three tests are about *)
Definition schur p : Prop := forall z, root (Poly p) z -> `|z| < 1.
Definition von_neumann p : Prop := forall z, root (Poly p) z -> `|z| <= 1.
Definition simple_on_circle p : Prop := forall z, `|z| = 1 -> ~~ (('X - z%:P) ^+ 2 %| Poly p).

Lemma double_dvd (p : {poly C}) z : (('X - z%:P) ^+ 2 %| p) = double p z.
Proof.
apply/idP/idP.
  move=> /dvdpP[q ->]; rewrite expr2; apply/andP; split; rewrite rootE.
    by rewrite !hornerM hornerXsubC subrr !mulr0.
  by rewrite !derivM derivXsubC mul1r mulr1 -mulr2n hornerD !hornerM hornerMn hornerXsubC subrr mul0rn !mulr0 addr0.
move=> /andP[]; rewrite -dvdp_XsubCl => /dvdpP[q ->]; rewrite derivM derivXsubC mulr1 rootE hornerD hornerM hornerXsubC subrr mulr0 add0r.
by rewrite -rootE -dvdp_XsubCl expr2 => ?; rewrite dvdp_mul.
Qed.

Lemma PolyE p : last 0 p != 0 -> Poly p = p :> seq C.
Proof. exact: PolyK. Qed.
Lemma size_PolyE p : last 0 p != 0 -> size (Poly p) = size p.
Proof. by move=> /PolyE ->. Qed.
Lemma lead_PolyE p : last 0 p != 0 -> lead_coef (Poly p) = last 0 p.
Proof. by move=> l; rewrite lead_coefE size_PolyE // coef_Poly nth_last. Qed.

Lemma size_circ p : size (operator_circ p) = (size p).-1.
Proof. by rewrite size_map size_iota. Qed.
Lemma size_deriv p : size (operator_deriv p) = (size p).-1.
Proof. by rewrite size_map size_iota. Qed.
Lemma nth_star p k : (k <= (size p).-1)%N -> (operator_star p)`_k = (p`_((size p).-1 - k))^*.
Proof. by move=> kd; rewrite (nth_map 0%N) ?size_iota ?ltnS // nth_iota. Qed.
Lemma nth_circ p k : (k < (size p).-1)%N ->
  (operator_circ p)`_k = (last 0 p)^* * p`_k.+1 - p`_0 * (p`_((size p).-1 - k.+1))^*.
Proof.
move=> kd; rewrite (nth_map 0%N) ?size_iota // nth_iota // add1n !nth_star // subn0.
by rewrite nth_last.
Qed.
Lemma nth_deriv p k : (k < (size p).-1)%N -> (operator_deriv p)`_k = k.+1%:R * p`_k.+1.
Proof. by move=> kd; rewrite (nth_map 0%N) ?size_iota // nth_iota // add1n. Qed.

Lemma circ_poly p d : size p = d.+2 -> last 0 p != 0 ->
  'X * Poly (operator_circ p) = (lead_coef (Poly p))^* *: Poly p - (Poly p)`_0 *: star d.+1 (Poly p).
Proof.
move=> sp l; apply/polyP => k; rewrite coefXM coefB !coefZ coef_star !coef_Poly lead_PolyE //.
case: k => [|k] /=.
  by rewrite subn0 -[last 0 p]nth_last sp /= mulrC subrr.
case: (leqP k d) => kd; first by rewrite nth_circ ?sp // ltnS kd.
rewrite ltnS leqNgt kd /= nth_default ?size_circ ?sp // (@nth_default _ _ p) ?sp //.
by rewrite !mulr0 subrr.
Qed.

Lemma last_circ p d : size p = d.+2 -> `|p`_0| < `|last 0 p| -> last 0 (operator_circ p) != 0.
Proof.
move=> sp lt; rewrite -nth_last size_circ sp /= nth_circ sp //= subnn.
have -> : p`_d.+1 = last 0 p by rewrite -nth_last sp.
by rewrite mulrC !norm_conjC_mul subr_eq0 eq_sym lt_eqF // ltr_pexpn2r ?nnegrE.
Qed.
Lemma lt_last p : `|p`_0| < `|last 0 p| -> last 0 p != 0.
Proof. by move=> lt; rewrite -normr_gt0 (le_lt_trans _ lt). Qed.
Lemma deriv_poly p : Poly (operator_deriv p) = (Poly p)^`().
Proof.
apply/polyP => k; rewrite coef_deriv !coef_Poly; case: (ltnP k (size p).-1) => kd.
  by rewrite nth_deriv // mulr_natl.
rewrite !nth_default ?mul0rn ?size_deriv //; by case: (size p) kd.
Qed.
Lemma last_deriv p d : size p = d.+2 -> last 0 p != 0 -> last 0 (operator_deriv p) != 0.
Proof.
move=> sp l; rewrite -nth_last size_deriv sp /= nth_deriv ?sp // mulf_neq0 ?pnatr_eq0 //.
by move: l; rewrite -nth_last sp.
Qed.

Section One.
Variables (p : seq C) (d : nat).
Hypothesis sp : size p = d.+2.
Hypothesis l : last 0 p != 0.
Let szP : size (Poly p) = d.+2. Proof. by rewrite size_PolyE. Qed.
Let p0 : Poly p != 0. Proof. by rewrite -size_poly_gt0 szP. Qed.
Let c0 : (Poly p)`_0 = p`_0. Proof. by rewrite coef_Poly. Qed.

Lemma not_le1 z : ~~ (`|z| < 1) -> (1 : C) <= `|z|.
Proof. by rewrite -real_leNgt ?real1 ?normr_real. Qed.
Lemma not_lt1 z : ~~ (`|z| <= 1) -> (1 : C) < `|z|.
Proof. by rewrite -real_ltNge ?real1 ?normr_real. Qed.

Lemma schur_circ : `|p`_0| < `|last 0 p| -> schur p <-> schur (operator_circ p).
Proof.
rewrite -c0 -lead_PolyE // => lt; have E := circ_poly sp l; split=> H z R; apply/negPn/negP => N.
  have R' := circ_fwd szP E lt (fun a r => ltW (H a r)) (not_le1 N) R; by rewrite (H z R') in N.
have R' := circ_bwd szP E lt (fun a r => ltW (H a r)) (not_le1 N) R; by rewrite (H z R') in N.
Qed.
Lemma vN_circ : `|p`_0| < `|last 0 p| -> von_neumann p <-> von_neumann (operator_circ p).
Proof.
rewrite -c0 -lead_PolyE // => lt; have E := circ_poly sp l; split=> H z R; apply/negPn/negP => N.
  have R' := circ_fwd szP E lt H (ltW (not_lt1 N)) R; by rewrite (H z R') in N.
have R' := circ_bwd szP E lt H (ltW (not_lt1 N)) R; by rewrite (H z R') in N.
Qed.
Lemma simple_circ : `|p`_0| < `|last 0 p| -> simple_on_circle p <-> simple_on_circle (operator_circ p).
Proof.
rewrite -c0 -lead_PolyE // => lt; have E := circ_poly sp l.
by split=> H z h; have := H z h; rewrite !double_dvd (circ_double szP E lt h).
Qed.
Lemma schur_lt : schur p -> `|p`_0| < `|last 0 p|.
Proof. by move=> H; rewrite -c0 -lead_PolyE //; apply: coef0_lt => //; rewrite szP. Qed.
Lemma vN_le : von_neumann p -> `|p`_0| <= `|last 0 p|.
Proof. by move=> H; rewrite -c0 -lead_PolyE //; apply: coef0_le. Qed.
Lemma vN_self : von_neumann p -> ~~ (`|p`_0| < `|last 0 p|) -> all (fun c => c == 0) (operator_circ p).
Proof.
move=> H; rewrite -real_leNgt ?normr_real // -c0 -lead_PolyE // => le.
have S := self_inversive p0 H le; rewrite szP /= in S.
have E := circ_poly sp l; rewrite S subrr in E; move/eqP: E; rewrite mulf_eq0 polyX_eq0 /= => /eqP Z.
apply/(all_nthP 0) => i _; by rewrite -coef_Poly Z coef0.
Qed.
Lemma self_of_zero : all (fun c => c == 0) (operator_circ p) ->
  (lead_coef (Poly p))^* *: Poly p = (Poly p)`_0 *: star d.+1 (Poly p).
Proof.
move=> /(all_nthP 0) Z; apply/eqP; rewrite -subr_eq0 -(circ_poly sp l) mulf_eq0 orbC.
apply/orP; left; apply/eqP/polyP => k; rewrite coef_Poly coef0.
case: (ltnP k (size (operator_circ p))) => kd; first by apply/eqP/Z.
by rewrite nth_default.
Qed.
Lemma vN_deriv : all (fun c => c == 0) (operator_circ p) -> von_neumann p <-> von_neumann (operator_deriv p).
Proof.
move=> Z; have S := self_of_zero Z; split=> H z; rewrite ?deriv_poly => R.
  apply/negPn/negP => N; have R' : root (Poly p) z by apply: gauss_lucas R => //; [rewrite szP|exact/ltW/not_lt1].
  by rewrite (H z R') in N.
by apply: (self_vN szP S) => // a; rewrite -deriv_poly; exact: H.
Qed.
Lemma svN_deriv : all (fun c => c == 0) (operator_circ p) ->
  (von_neumann p /\ simple_on_circle p) <-> schur (operator_deriv p).
Proof.
move=> Z; have S := self_of_zero Z; split=> [[H U] z|H]; rewrite ?deriv_poly.
  move=> R; apply/negPn/negP => N; have L := not_le1 N.
  have R' : root (Poly p) z by apply: gauss_lucas R => //; rewrite szP.
  have z1 : `|z| = 1 by apply/eqP; rewrite eq_le L H.
  by have := U z z1; rewrite double_dvd /double R R'.
have V : von_neumann p by apply/(vN_deriv Z) => z R; apply/ltW/H.
split=> // z h; rewrite double_dvd /double; apply/negP => /andP[_]; rewrite -deriv_poly => /H.
by rewrite h ltxx.
Qed.
End One.

(* degree one *)
Lemma deg1 p : size p = 2%N -> last 0 p != 0 -> forall z, root (Poly p) z = (z == - p`_0 / p`_1).
Proof.
case: p => [|a [|b [|c p]]] // _ b0 z; rewrite /= in b0; rewrite rootE horner_Poly [horner_rec _ _]/= mul0r add0r [(_ :: _)`_0]/= [(_ :: _)`_1]/=.
by rewrite -[in RHS](can_eq (mulfK b0)) mulfVK // addr_eq0 mulrC.
Qed.
Lemma deg1_norm p : size p = 2%N -> last 0 p != 0 -> `|- p`_0 / p`_1| = `|p`_0| / `|p`_1|.
Proof. by move=> _ _; rewrite normrM normrN normfV. Qed.
Lemma deg1_schur p : size p = 2%N -> last 0 p != 0 -> schur p <-> `|p`_0| < `|p`_1|.
Proof.
move=> sp l; have l1 : 0 < `|p`_1| by move: l; rewrite -nth_last sp normr_gt0.
split=> H.
  have := H _; rewrite /= => /(_ (- p`_0 / p`_1)); rewrite (deg1 sp l) eqxx => /(_ isT).
  by rewrite (deg1_norm sp l) ltr_pdivr_mulr // mul1r.
move=> z; rewrite (deg1 sp l) => /eqP->; by rewrite (deg1_norm sp l) ltr_pdivr_mulr // mul1r.
Qed.
Lemma deg1_vN p : size p = 2%N -> last 0 p != 0 -> von_neumann p <-> `|p`_0| <= `|p`_1|.
Proof.
move=> sp l; have l1 : 0 < `|p`_1| by move: l; rewrite -nth_last sp normr_gt0.
split=> H.
  have := H _; rewrite /= => /(_ (- p`_0 / p`_1)); rewrite (deg1 sp l) eqxx => /(_ isT).
  by rewrite (deg1_norm sp l) ler_pdivr_mulr // mul1r.
move=> z; rewrite (deg1 sp l) => /eqP->; by rewrite (deg1_norm sp l) ler_pdivr_mulr // mul1r.
Qed.
Lemma deg1_simple p : size p = 2%N -> last 0 p != 0 -> simple_on_circle p.
Proof.
move=> sp l z _; apply/negP => D; have := dvdp_leq _ D; rewrite size_exp_XsubC size_PolyE // sp.
by rewrite -size_poly_gt0 size_PolyE // sp => /(_ isT).
Qed.
End Lists.
