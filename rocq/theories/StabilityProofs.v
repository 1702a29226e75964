(* The theory behind the tests: the reciprocal polynomial, the domination of a polynomial
   over its reciprocal outside of the unit disk, and the Gauss-Lucas theorem. *)
From mathcomp Require Import all_ssreflect all_algebra.
From Verif Require Import StabilityModel.
From Coq Require Import Setoid Ring.
Set Implicit Arguments.
Unset Strict Implicit.
Unset Printing Implicit Defensive.
Import Order.TTheory GRing.Theory Num.Theory.
Local Open Scope ring_scope.

(* identities in commutative rings *)
Section Abstract.
Variables (T : Type) (o i : T) (add mul sub : T -> T -> T) (opp : T -> T).
Hypothesis th : ring_theory o i add mul sub opp eq.
Add Ring T_ring : th.
Lemma abs_blaschke z zc a ac : sub (mul (sub z a) (sub zc ac)) (mul (sub i (mul a zc)) (sub i (mul ac z))) =
  mul (sub (mul z zc) i) (sub i (mul a ac)).
Proof. ring. Qed.
Lemma abs_inverse pd pdc p0 p0c p s :
  add (mul pd (sub (mul pdc p) (mul p0 s))) (mul p0 (sub (mul pd s) (mul p0c p))) = mul (sub (mul pd pdc) (mul p0 p0c)) p.
Proof. ring. Qed.
Lemma abs_mobius w wc a ac : add (mul (add w a) (sub wc ac)) (mul (add wc ac) (sub w a)) =
  add (sub (mul w wc) (mul a ac)) (sub (mul w wc) (mul a ac)).
Proof. ring. Qed.
Lemma abs_mon cs c zn a b : mul cs (mul c (mul zn (mul a b))) = mul (mul c a) (mul zn (mul cs b)).
Proof. ring. Qed.
Lemma abs_mon4 z zn a b x y : mul (mul z zn) (mul (mul a b) (mul x y)) = mul (mul z (mul a x)) (mul zn (mul b y)).
Proof. ring. Qed.
End Abstract.
Section Ring.
Variable R : comRingType.
Lemma R_th : ring_theory (0 : R) 1 +%R *%R (fun a b => a - b) -%R eq.
Proof.
split.
- exact: add0r. - exact: addrC. - exact: addrA. - exact: mul1r. - exact: mulrC. - exact: mulrA.
- exact: mulrDl. - by []. - exact: subrr.
Qed.
Lemma id_blaschke (z zc a ac : R) : (z - a) * (zc - ac) - (1 - a * zc) * (1 - ac * z) = (z * zc - 1) * (1 - a * ac).
Proof. exact: (abs_blaschke R_th). Qed.
Lemma id_inverse (pd pdc p0 p0c p s : R) : pd * (pdc * p - p0 * s) + p0 * (pd * s - p0c * p) = (pd * pdc - p0 * p0c) * p.
Proof. exact: (abs_inverse R_th). Qed.
Lemma id_mobius (w wc a ac : R) : (w + a) * (wc - ac) + (wc + ac) * (w - a) = (w * wc - a * ac) + (w * wc - a * ac).
Proof. exact: (abs_mobius R_th). Qed.
Lemma id_mon (cs c zn a b : R) : cs * (c * (zn * (a * b))) = c * a * (zn * (cs * b)).
Proof. exact: (abs_mon R_th). Qed.
Lemma id_mon4 (z zn a b x y : R) : z * zn * (a * b * (x * y)) = z * (a * x) * (zn * (b * y)).
Proof. exact: (abs_mon4 R_th). Qed.
End Ring.

Section Theory.
Variable C : numClosedFieldType.
Implicit Types (p q : {poly C}) (z w a : C) (r : seq C).

(* the reciprocal polynomial of degree d *)
Definition star (d : nat) p : {poly C} := \poly_(k < d.+1) (p`_(d - k))^*.
Lemma coef_star d p k : (star d p)`_k = if (k <= d)%N then (p`_(d - k))^* else 0.
Proof. by rewrite coef_poly ltnS. Qed.

Lemma star_eval d p z : (size p <= d.+1)%N -> z != 0 -> (star d p).[z] = z ^+ d * (p.[(z^*)^-1])^*.
Proof.
move=> sp z0; rewrite horner_poly (horner_coef_wide _ sp) rmorph_sum mulr_sumr.
rewrite (reindex_inj rev_ord_inj) /=; apply: eq_bigr => i _.
have id : (i <= d)%N by rewrite -ltnS.
rewrite subSS subKn // rmorphM rmorphX fmorphV conjCK /= mulrCA; congr (_ * _).
by have := subnK id; move: (nat_of_ord i) => j {id} <-; rewrite exprVn addnK exprD mulfK // expf_neq0.
Qed.

Lemma norm_conjC_mul z : z * z^* = `|z| ^+ 2. Proof. by rewrite normCK. Qed.

Lemma factor_le a z : `|a| <= 1 -> 1 <= `|z| -> `|1 - a * z^*| <= `|z - a|.
Proof.
move=> ha hz; rewrite -(@ler_pexpn2r _ 2) ?nnegrE // !normCK rmorphB rmorphM rmorph1 conjCK -subr_ge0 rmorphB /=.
rewrite id_blaschke -!normCK mulr_ge0 // subr_ge0; first by rewrite exprn_ege1.
by rewrite exprn_ile1.
Qed.

Definition prodX r : {poly C} := \prod_(z <- r) ('X - z%:P).
Lemma prodX_cons a r : prodX (a :: r) = ('X - a%:P) * prodX r. Proof. exact: big_cons. Qed.
Lemma prodX_nil : prodX [::] = 1. Proof. exact: big_nil. Qed.
Lemma size_prodX r : size (prodX r) = (size r).+1. Proof. exact: size_prod_XsubC. Qed.
Lemma root_prodX r z : root (prodX r) z = (z \in r). Proof. exact: root_prod_XsubC. Qed.
Lemma prodX_eval r z : (prodX r).[z] = \prod_(a <- r) (z - a).
Proof. by rewrite /prodX horner_prod; apply: eq_bigr => a _; rewrite hornerXsubC. Qed.
Lemma monic_prodX r : prodX r \is monic. Proof. exact: monic_prod_XsubC. Qed.

Lemma factor p : exists r, p = lead_coef p *: prodX r.
Proof. by have [r E] := closed_field_poly_normal p; exists r. Qed.
Lemma factor_facts p r : p != 0 -> p = lead_coef p *: prodX r ->
  size p = (size r).+1 /\ (forall z, root p z = (z \in r)).
Proof.
move=> p0 E; have l0 : lead_coef p != 0 by rewrite lead_coef_eq0.
split; first by rewrite E size_scale // size_prodX.
by move=> z; rewrite E rootZ // root_prodX.
Qed.

(* outside of the unit disk the polynomial dominates its reciprocal *)
Lemma star_prod_norm r c z : z != 0 ->
  `|(star (size r) (c *: prodX r)).[z]| = `|c| * \prod_(a <- r) `|1 - a * z^*|.
Proof.
move=> z0; rewrite star_eval //; last by rewrite (leq_trans (size_scale_leq _ _)) // size_prodX.
rewrite normrM normrX norm_conjC hornerZ normrM mulrCA; congr (_ * _); rewrite prodX_eval normr_prod.
elim: r => [|a r IH]; first by rewrite !big_nil mulr1.
rewrite !big_cons -IH /= exprS mulrACA; congr (_ * _).
by rewrite -[`|z|]norm_conjC -normrM mulrBr mulfV ?conjC_eq0 // mulrC.
Qed.
Lemma domination p z : p != 0 -> (forall a, root p a -> `|a| <= 1) -> 1 <= `|z| ->
  `|(star (size p).-1 p).[z]| <= `|p.[z]|.
Proof.
move=> p0 hp hz; have [r E] := factor p; have [sp rt] := factor_facts p0 E.
have z0 : z != 0 by rewrite -normr_gt0 (lt_le_trans ltr01).
rewrite sp /= {1 2}E star_prod_norm // hornerZ normrM ler_pmul2l ?normr_gt0 ?lead_coef_eq0 // prodX_eval normr_prod.
have : {in r, forall a, `|a| <= 1} by move=> a ar; apply: hp; rewrite rt.
elim: r {E sp rt} => [|a r IH] H; first by rewrite !big_nil.
rewrite !big_cons ler_pmul ?prodr_ge0 //; first by apply: factor_le => //; apply: H; rewrite inE eqxx.
by apply: IH => b br; apply: H; rewrite inE br orbT.
Qed.

(* the constant coefficient *)
Lemma coef0_norm p r : p != 0 -> p = lead_coef p *: prodX r -> `|p`_0| = `|lead_coef p| * \prod_(a <- r) `|a|.
Proof.
move=> p0 E; rewrite {1}E coefZ normrM -horner_coef0 prodX_eval normr_prod; congr (_ * _).
by apply: eq_bigr => a _; rewrite sub0r normrN.
Qed.
Lemma prod_le1 r : {in r, forall a, `|a| <= 1} -> \prod_(a <- r) `|a| <= 1.
Proof.
elim: r => [|a r IH] H; first by rewrite big_nil.
rewrite big_cons mulr_ile1 ?prodr_ge0 //; first by apply: H; rewrite inE eqxx.
by apply: IH => b br; apply: H; rewrite inE br orbT.
Qed.
Lemma coef0_le p : p != 0 -> (forall a, root p a -> `|a| <= 1) -> `|p`_0| <= `|lead_coef p|.
Proof.
move=> p0 hp; have [r E] := factor p; have [sp rt] := factor_facts p0 E.
rewrite (coef0_norm p0 E) -[leRHS]mulr1 ler_wpmul2l // prod_le1 // => a ar; apply: hp; by rewrite rt.
Qed.
Lemma coef0_lt p : (1 < size p)%N -> (forall a, root p a -> `|a| < 1) -> `|p`_0| < `|lead_coef p|.
Proof.
move=> s1 hp; have p0 : p != 0 by rewrite -size_poly_gt0 (ltn_trans _ s1).
have [r E] := factor p; have [sp rt] := factor_facts p0 E.
rewrite (coef0_norm p0 E) -[ltRHS]mulr1 ltr_pmul2l ?normr_gt0 ?lead_coef_eq0 //.
case: r E sp rt => [|a r] E sp rt; first by rewrite sp in s1.
have ha : `|a| < 1 by apply: hp; rewrite rt inE eqxx.
rewrite big_cons (le_lt_trans _ ha) // -[leRHS]mulr1 ler_wpmul2l // prod_le1 // => b br.
by apply/ltW/hp; rewrite rt inE br orbT.
Qed.

(* if the two extreme coefficients have the same modulus, all the roots are on the circle
   and the polynomial is proportional to its reciprocal *)
Lemma prod_eq1 r : {in r, forall a, `|a| <= 1} -> 1 <= \prod_(a <- r) `|a| -> {in r, forall a, `|a| = 1}.
Proof.
elim: r => [|a r IH] H // ; rewrite big_cons => P.
have ha : `|a| <= 1 by apply: H; rewrite inE eqxx.
have hr : {in r, forall a, `|a| <= 1} by move=> b br; apply: H; rewrite inE br orbT.
have Pr := prod_le1 hr.
have P0 : 0 <= \prod_(b <- r) `|b| by apply: prodr_ge0.
have a1 : `|a| = 1.
  apply/eqP; rewrite eq_le ha /=; apply: le_trans P _; by rewrite -[leRHS]mulr1 ler_wpmul2l.
move=> b; rewrite inE => /orP[/eqP-> //|]; apply: IH => //; by rewrite a1 mul1r in P.
Qed.
Lemma self_inversive p : p != 0 -> (forall a, root p a -> `|a| <= 1) -> `|lead_coef p| <= `|p`_0| ->
  (lead_coef p)^* *: p = p`_0 *: star (size p).-1 p.
Proof.
move=> p0 hp le; have [r E] := factor p; have [sp rt] := factor_facts p0 E.
have l0 : 0 < `|lead_coef p| by rewrite normr_gt0 lead_coef_eq0.
have H : {in r, forall a, `|a| = 1}.
  apply: prod_eq1; first by move=> a ar; apply: hp; rewrite rt.
  by rewrite -(ler_pmul2l l0) mulr1 -(coef0_norm p0 E).
have P : forall z, z != 0 -> ((lead_coef p)^* *: p - p`_0 *: star (size p).-1 p).[z] = 0.
  move=> z z0; apply/eqP; rewrite hornerD hornerN !hornerZ subr_eq0 star_eval ?prednK ?size_poly_gt0 //.
  have K : \prod_(a <- r) (z - a) = z ^+ size r * ((\prod_(a <- r) (0 - a)) * (\prod_(a <- r) ((z^*)^-1 - a))^*).
    elim: r H {E sp rt} => [|a r IH] H; first by rewrite !big_nil expr0 rmorph1 !mulr1.
    rewrite !big_cons IH /=; last by move=> b br; apply: H; rewrite inE br orbT.
    rewrite exprS rmorphM /= id_mon4; congr (_ * _); rewrite rmorphB /= fmorphV conjCK sub0r !mulrBr mulrCA mulfV //.
    by rewrite mulr1 (mulNr a) norm_conjC_mul H ?inE ?eqxx // expr1n mulrN1 opprK addrC.
  rewrite sp /=; move: (lead_coef p) E => c E; rewrite E coefZ !hornerZ -horner_coef0 !prodX_eval rmorphM K /=.
  by rewrite id_mon.
apply/eqP; rewrite -subr_eq0; apply/negPn/negP => N.
have N' : 'X * ((lead_coef p)^* *: p - p`_0 *: star (size p).-1 p) != 0 by rewrite mulf_neq0 // polyX_eq0.
have /closed_nonrootP [z] := N'; rewrite rootE hornerM hornerX; case: (eqVneq z 0) => [->|z0]; first by rewrite mul0r eqxx.
by rewrite P // mulr0 eqxx.
Qed.

(* derivative of the reciprocal polynomial *)
Lemma star_deriv d p : (size p <= d.+2)%N -> star d p^`() = d.+1%:R *: star d.+1 p - 'X * (star d.+1 p)^`().
Proof.
move=> sp; apply/polyP => k; rewrite coefB coefZ coefXM !coef_star !coef_deriv.
case: (ltnP d k) => dk; last first.
  rewrite (leqW dk) -subSn // rmorphMn /=; case: k dk => [|k] dk.
    by rewrite subr0 mulr_natl.
  by rewrite /= ?coef_deriv ?coef_star (leqW dk) mulr_natl -mulrnBr ?(leqW dk).
case: k dk => // k dk; rewrite /= ?coef_deriv ?coef_star.
case: (ltnP d.+1 k.+1) => dk'; first by rewrite mulr0 mul0rn subr0.
have -> : k = d by apply/eqP; rewrite eqn_leq -ltnS dk' andbC -ltnS dk.
by rewrite mulr_natl subrr.
Qed.

(* Gauss-Lucas *)
Lemma re_half w a : `|a| <= 1 -> 1 <= `|w| -> w != a -> 1 / 2%:R <= 'Re (w / (w - a)).
Proof.
move=> ha hw na; have d0 : w - a != 0 by rewrite subr_eq0.
have -> : w / (w - a) = 1 / 2%:R + (w + a) / (w - a) / 2%:R.
  have n2 : (2%:R : C) != 0 by rewrite pnatr_eq0.
  rewrite -mulrDl; apply: (mulIf n2); rewrite mulfVK //; apply: (mulIf d0).
  rewrite mulrDl mulfVK // mul1r mulrAC mulfVK // mulr_natr mulr2n.
  by rewrite addrACA (addrC (- a)) subrr addr0.
rewrite raddfD /= (Creal_ReP _ _) ?rpredM ?rpredV ?realn ?real1 // ler_addl.
rewrite ReE !rmorphM !fmorphV rmorph_nat /= rmorphD rmorphB /= -mulrDl; apply: divr_ge0; last exact: ler0n; apply: divr_ge0; last exact: ler0n.
have dc : w^* - a^* != 0 by rewrite -rmorphB conjC_eq0.
have pos : 0 < (w - a) * (w^* - a^*) by rewrite -rmorphB norm_conjC_mul exprn_gt0 // normr_gt0.
rewrite -(pmulr_lge0 _ pos) [X in 0 <= X]mulrDl.
have -> : (w + a) / (w - a) * ((w - a) * (w^* - a^*)) = (w + a) * (w^* - a^*) by rewrite mulrA mulfVK.
have -> : (w^* + a^*) / (w^* - a^*) * ((w - a) * (w^* - a^*)) = (w^* + a^*) * (w - a) by rewrite mulrA mulrAC mulfVK.
rewrite id_mobius !norm_conjC_mul addr_ge0 // subr_ge0 ler_pexpn2r ?nnegrE //; exact: le_trans ha hw.
Qed.
Lemma log_deriv r w : (prodX r).[w] != 0 -> {in r, forall a, `|a| <= 1} -> 1 <= `|w| ->
  (size r)%:R / 2%:R <= 'Re (w * ((prodX r)^`().[w] / (prodX r).[w])).
Proof.
move=> + + hw; elim: r => [|a r IH] N H.
  by rewrite prodX_nil derivC hornerC mul0r mulr0 mul0r raddf0.
have ha : `|a| <= 1 by apply: H; rewrite inE eqxx.
have hr : {in r, forall a, `|a| <= 1} by move=> b br; apply: H; rewrite inE br orbT.
move: N; rewrite prodX_cons hornerM hornerXsubC mulf_eq0 negb_or subr_eq0 => /andP[na nr].
have IH' := IH nr hr.
have d0 : w - a != 0 by rewrite subr_eq0.
rewrite derivM hornerD !hornerM derivXsubC hornerC mul1r hornerXsubC.
have -> : w * (((prodX r).[w] + (w - a) * (prodX r)^`().[w]) / ((w - a) * (prodX r).[w])) =
          w / (w - a) + w * ((prodX r)^`().[w] / (prodX r).[w]).
  rewrite -mulrDr; congr (_ * _); rewrite invfM mulrDl; congr (_ + _).
    by rewrite mulrCA mulfV // mulr1.
  by rewrite mulrACA mulfV // mul1r.
rewrite raddfD /= -add1n natrD mulrDl ler_add //; exact: re_half.
Qed.
(* a critical point outside of the open unit disk is a root *)
Lemma gauss_lucas p w : (1 < size p)%N -> (forall a, root p a -> `|a| <= 1) -> 1 <= `|w| ->
  root p^`() w -> root p w.
Proof.
move=> s1 hp hw; have p0 : p != 0 by rewrite -size_poly_gt0 (ltn_trans _ s1).
have [r E] := factor p; have [sp rt] := factor_facts p0 E.
move=> R; apply/negPn/negP => N; move: R; rewrite E derivZ rootZ ?lead_coef_eq0 // => R.
have N' : (prodX r).[w] != 0 by move: N; rewrite E rootZ ?lead_coef_eq0 // rootE.
have H : {in r, forall a, `|a| <= 1} by move=> a ar; apply: hp; rewrite rt.
have := log_deriv N' H hw; move: R; rewrite rootE => /eqP->; rewrite mul0r mulr0 raddf0.
by move=> /le_gtF; rewrite divr_gt0 ?ltr0n //; rewrite sp in s1.
Qed.
End Theory.
