(* One step of the recursions: the polynomial p and the polynomial
   (p*(0) p - p(0) p* ) / X have the same roots outside of the open unit disk. *)
From mathcomp Require Import all_ssreflect all_algebra.
From Verif Require Import StabilityModel StabilityProofs.
Set Implicit Arguments.
Unset Strict Implicit.
Unset Printing Implicit Defensive.
Import Order.TTheory GRing.Theory Num.Theory.
Local Open Scope ring_scope.

Section Step.
Variable C : numClosedFieldType.
Implicit Types (p q : {poly C}) (z a : C).

Lemma star_add d p q : star d (p + q) = star d p + star d q.
Proof. by apply/polyP => k; rewrite coefD !coef_star; case: ifP => _; rewrite ?addr0 // coefD rmorphD. Qed.
Lemma star_scale d a p : star d (a *: p) = a^* *: star d p.
Proof. by apply/polyP => k; rewrite coefZ !coef_star; case: ifP => _; rewrite ?mulr0 // coefZ rmorphM. Qed.
Lemma star_star d p : (size p <= d.+1)%N -> star d (star d p) = p.
Proof.
move=> sp; apply/polyP => k; rewrite !coef_star; case: leqP => kd.
  by rewrite leq_subr subKn // conjCK.
by rewrite nth_default // (leq_trans sp).
Qed.
Lemma size_star d p : (size (star d p) <= d.+1)%N. Proof. exact: size_poly. Qed.

Section Circ.
Variables (p : {poly C}) (q : {poly C}) (d : nat).
Hypothesis sp : size p = d.+2.
Hypothesis E : 'X * q = (lead_coef p)^* *: p - p`_0 *: star d.+1 p.
Let p0 : p != 0. Proof. by rewrite -size_poly_gt0 sp. Qed.

Lemma star_q : star d.+1 ('X * q) = lead_coef p *: star d.+1 p - (p`_0)^* *: p.
Proof. by rewrite E -scaleNr star_add !star_scale conjCK star_star ?sp // rmorphN /= scaleNr. Qed.
Lemma inverse_q : lead_coef p *: ('X * q) + p`_0 *: star d.+1 ('X * q) =
  (lead_coef p * (lead_coef p)^* - p`_0 * (p`_0)^*) *: p.
Proof.
rewrite star_q E; apply/polyP => k; rewrite coefD !coefZ !coefB !coefZ; exact: id_inverse.
Qed.
Lemma Xq_coef : ('X * q)`_d.+1 = lead_coef p * (lead_coef p)^* - p`_0 * (p`_0)^*.
Proof. by rewrite E coefB !coefZ coef_star leqnn subnn [lead_coef p]lead_coefE sp /= mulrC. Qed.

Lemma circ_fwd z : `|p`_0| < `|lead_coef p| -> (forall a, root p a -> `|a| <= 1) -> 1 <= `|z| -> root q z -> root p z.
Proof.
move=> lt hp hz /eqP R; have : ('X * q).[z] = 0 by rewrite hornerM R mulr0.
rewrite E hornerD hornerN !hornerZ => /eqP; rewrite subr_eq0 => /eqP e.
have D := domination p0 hp hz; rewrite sp /= in D.
apply/negPn/negP; rewrite rootE -normr_gt0 => N.
have : `|(lead_coef p)^* * p.[z]| <= `|p`_0| * `|p.[z]| by rewrite e normrM ler_wpmul2l.
by rewrite normrM norm_conjC ler_pmul2r // => /le_gtF; rewrite lt.
Qed.
Lemma circ_bwd z : `|p`_0| < `|lead_coef p| -> (forall a, root q a -> `|a| <= 1) -> 1 <= `|z| -> root p z -> root q z.
Proof.
move=> lt hq hz /eqP R.
have z0 : z != 0 by rewrite -normr_gt0 (lt_le_trans ltr01).
have l0 : ('X * q)`_d.+1 != 0.
  by rewrite Xq_coef !norm_conjC_mul subr_eq0 eq_sym lt_eqF // ltr_pexpn2r ?nnegrE.
have s1 : (d.+1 < size ('X * q)%R)%N by rewrite ltnNge; apply/negP => L; rewrite nth_default ?eqxx in l0.
have s2 : size ('X * q) = d.+2.
  apply/eqP; rewrite eqn_leq s1 andbT E (leq_trans (size_add _ _)) // size_opp geq_max.
  by rewrite (leq_trans (size_scale_leq _ _)) ?sp // (leq_trans (size_scale_leq _ _)) // size_star.
have n0 : 'X * q != 0 by rewrite -size_poly_gt0 s2.
have hX : forall a, root ('X * q) a -> `|a| <= 1.
  move=> a; rewrite rootM => /orP[|]; last exact: hq.
  by rewrite rootE hornerX => /eqP->; rewrite normr0 ler01.
have D := domination n0 hX hz; rewrite s2 /= in D.
have I := congr1 (horner^~ z) inverse_q; rewrite /= hornerD !hornerZ R mulr0 in I.
have : (('X * q).[z] == 0).
  apply/negPn/negP; rewrite -normr_gt0 => N.
  have e : `|lead_coef p| * `|('X * q).[z]| = `|p`_0| * `|(star d.+1 ('X * q)).[z]|.
    by rewrite -!normrM; move/eqP: I; rewrite addr_eq0 => /eqP->; rewrite normrN.
  have : `|lead_coef p| * `|('X * q).[z]| <= `|p`_0| * `|('X * q).[z]| by rewrite e ler_wpmul2l.
  by rewrite ler_pmul2r // => /le_gtF; rewrite lt.
by rewrite hornerM hornerX mulf_eq0 (negPf z0) /= rootE.
Qed.
End Circ.

(* double roots on the unit circle *)
Definition double p z : bool := root p z && root p^`() z.
Lemma on_circle z : `|z| = 1 -> z != 0 /\ (z^*)^-1 = z.
Proof.
move=> h; have z0 : z != 0 by rewrite -normr_gt0 h ltr01.
split=> //; have e : z * z^* = 1 by rewrite norm_conjC_mul h expr1n.
by rewrite -[LHS]mul1r -e mulfK // conjC_eq0.
Qed.
Lemma star_double d p z : (size p <= d.+2)%N -> `|z| = 1 -> double p z -> double (star d.+1 p) z.
Proof.
move=> sp h /andP[/eqP r1 /eqP r2]; have [z0 e] := on_circle h.
have S0 : (star d.+1 p).[z] = 0 by rewrite star_eval // e r1 rmorph0 mulr0.
apply/andP; split; rewrite rootE ?S0 //.
have sd : (size p^`() <= d.+1)%N.
  case: (eqVneq p 0) => [->|p0]; first by rewrite linear0 size_poly0.
  by rewrite -ltnS (leq_trans (lt_size_deriv p0)).
have := star_eval sd z0; rewrite e r2 rmorph0 mulr0 star_deriv // hornerD hornerN hornerZ S0 mulr0 sub0r hornerM hornerX.
by move/eqP; rewrite oppr_eq0 mulf_eq0 (negPf z0).
Qed.
Lemma double_lin a b p q z : double p z -> double q z -> double (a *: p + b *: q) z.
Proof.
move=> /andP[/eqP p1 /eqP p2] /andP[/eqP q1 /eqP q2]; apply/andP; split; rewrite rootE.
  by rewrite hornerD !hornerZ p1 q1 !mulr0 addr0.
by rewrite derivD !derivZ hornerD !hornerZ p2 q2 !mulr0 addr0.
Qed.
Lemma double_scale a p z : a != 0 -> double (a *: p) z = double p z.
Proof. by move=> a0; rewrite /double derivZ !rootZ. Qed.
Lemma double_X q z : z != 0 -> double ('X * q) z = double q z.
Proof.
move=> z0; rewrite /double derivM derivX mul1r !rootE hornerM hornerX mulf_eq0 (negPf z0) /= hornerD hornerM hornerX.
by case: eqP => //= ->; rewrite add0r mulf_eq0 (negPf z0).
Qed.
Section CircDouble.
Variables (p : {poly C}) (q : {poly C}) (d : nat).
Hypothesis sp : size p = d.+2.
Hypothesis E : 'X * q = (lead_coef p)^* *: p - p`_0 *: star d.+1 p.
Lemma circ_double z : `|p`_0| < `|lead_coef p| -> `|z| = 1 -> double p z = double q z.
Proof.
move=> lt h; have [z0 _] := on_circle h.
have n0 : lead_coef p * (lead_coef p)^* - p`_0 * (p`_0)^* != 0.
  by rewrite !norm_conjC_mul subr_eq0 eq_sym lt_eqF // ltr_pexpn2r ?nnegrE.
apply/idP/idP => D.
  rewrite -double_X // E -scaleNr double_lin // star_double ?sp //.
have D' : double ('X * q) z by rewrite double_X.
rewrite -(double_scale _ _ n0) -(inverse_q sp E) double_lin // star_double //.
rewrite E (leq_trans (size_add _ _)) // size_opp geq_max.
by rewrite (leq_trans (size_scale_leq _ _)) ?sp // (leq_trans (size_scale_leq _ _)) // size_star.
Qed.
End CircDouble.

(* the polynomials proportional to their reciprocal *)
Lemma size_deriv0 p d : size p = d.+2 -> size p^`() = d.+1.
Proof.
move=> sp; have p0 : p != 0 by rewrite -size_poly_gt0 sp.
apply/eqP; rewrite eqn_leq -ltnS -sp lt_size_deriv // ltnNge; apply/negP => L.
have : p^`()`_d = 0 by rewrite nth_default.
rewrite coef_deriv => /eqP; rewrite mulrn_eq0 /=; move: (p0); rewrite -lead_coef_eq0 lead_coefE sp /= => /negPf-> //.
Qed.
Section Self.
Variables (p : {poly C}) (d : nat).
Hypothesis sp : size p = d.+2.
Hypothesis E : (lead_coef p)^* *: p = p`_0 *: star d.+1 p.
Lemma self_norm : `|lead_coef p| = `|p`_0|.
Proof.
have := congr1 (fun r : {poly C} => r`_d.+1) E; rewrite /= !coefZ coef_star leqnn subnn.
have -> : p`_d.+1 = lead_coef p by rewrite lead_coefE sp.
rewrite mulrC !norm_conjC_mul => /eqP; by rewrite eqr_expn2 // => /eqP.
Qed.
Lemma self_deriv : (lead_coef p)^* *: (d.+1%:R *: p - 'X * p^`()) = p`_0 *: star d p^`().
Proof.
rewrite star_deriv ?sp // !scalerBr; congr (_ - _).
  by rewrite scalerA mulrC -scalerA E !scalerA mulrC.
by rewrite !scalerAr -!derivZ E.
Qed.
Lemma self_vN : (forall a, root p^`() a -> `|a| <= 1) -> forall z, root p z -> `|z| <= 1.
Proof.
move=> hd z /eqP R.
have : (`|z| <= 1) || (1 < `|z|) by case: (real_leP (normr_real z) (real1 C)).
case/orP => // lt; exfalso.
have sd := size_deriv0 sp.
have n0 : p^`() != 0 by rewrite -size_poly_gt0 sd.
have D := domination n0 hd (ltW lt); rewrite sd /= in D.
have N : 0 < `|p^`().[z]|.
  rewrite normr_gt0; apply/negP => R'; have := hd z R'; by move/le_gtF; rewrite lt.
have l0 : 0 < `|p`_0| by rewrite -self_norm normr_gt0 lead_coef_eq0 -size_poly_gt0 sp.
have := congr1 (fun r : {poly C} => `|r.[z]|) self_deriv.
rewrite /= !hornerZ hornerD hornerN hornerZ R mulr0 sub0r hornerM hornerX mulrN normrN !normrM norm_conjC self_norm.
move/(mulfI (lt0r_neq0 l0)) => e; move: D; rewrite -e -{2}[`|p^`().[z]|]mul1r ler_pmul2r // => /le_gtF.
by rewrite lt.
Qed.
End Self.
End Step.
