(* Properties C42 (the Schur test) and C43 (the von Neumann tests). *)
From mathcomp Require Import all_ssreflect all_algebra.
From Verif Require Import StabilityModel StabilityProofs StabilityStepProofs StabilityListProofs.
Set Implicit Arguments.
Unset Strict Implicit.
Unset Printing Implicit Defensive.
Import Order.TTheory GRing.Theory Num.Theory.
Local Open Scope ring_scope.

Section Exact.
Variable C : numClosedFieldType.
Implicit Types (p : seq C) (z a t : C).

Lemma is_S_spec n : forall m p, size p = n.+2 -> (n <= m)%N -> last 0 p != 0 -> is_S_fuel m p <-> schur p.
Proof.
elim: n => [|n IH] m p sp nm l.
  case: m {nm} => [|m] /=; rewrite sp eqxx; have := deg1_schur sp l; tauto.
case: m nm => // m nm; rewrite /= sp /=; case: ifP => lt.
  rewrite (schur_circ sp l lt); apply: IH => //; [by rewrite size_circ sp|exact: last_circ sp lt].
by split=> // S; move: (schur_lt sp l S); rewrite lt.
Qed.
Lemma is_vN_complete t n : 0 < t -> forall m p, size p = n.+2 -> (n <= m)%N -> last 0 p != 0 ->
  von_neumann p -> is_vN_fuel t m p.
Proof.
move=> t0; elim: n => [|n IH] m p sp nm l V.
  have B : `|p`_0| <= `|p`_1| + t by apply: (le_trans (proj1 (deg1_vN sp l) V)); rewrite ler_addl ltW.
  by case: m {nm} => [|m] /=; rewrite sp eqxx.
case: m nm => // m nm; rewrite /= sp /=; case: ifPn => lt.
  apply: IH => //; [by rewrite size_circ sp|exact: last_circ sp lt|]; by rewrite -(vN_circ sp l lt).
have Z := vN_self sp l V lt; rewrite ifT; last by apply: sub_all Z => c /eqP->; rewrite normr0.
apply: IH => //; [by rewrite size_deriv sp|exact: last_deriv sp l|]; by rewrite -(vN_deriv sp l Z).
Qed.
Lemma is_svN_complete t n : 0 < t -> forall m p, size p = n.+2 -> (n <= m)%N -> last 0 p != 0 ->
  von_neumann p -> simple_on_circle p -> is_svN_fuel t m p.
Proof.
move=> t0; elim: n => [|n IH] m p sp nm l V U.
  have B : `|p`_0| <= `|p`_1| + t by apply: (le_trans (proj1 (deg1_vN sp l) V)); rewrite ler_addl ltW.
  by case: m {nm} => [|m] /=; rewrite sp eqxx.
case: m nm => // m nm; rewrite /= sp /=; case: ifPn => lt.
  by apply: IH => //; [rewrite size_circ sp|exact: last_circ sp lt|apply/(vN_circ sp l lt)|apply/(simple_circ sp l lt)].
have Z := vN_self sp l V lt; rewrite ifT; last by apply: sub_all Z => c /eqP->; rewrite normr0.
have := conj V U; rewrite (svN_deriv sp l Z) => S; apply/(@is_S_spec n) => //; rewrite ?size_deriv ?sp //.
  by rewrite /= leqnSn || rewrite /= -addn2 leq_addr.
exact: last_deriv sp l.
Qed.
(* with a small enough tolerance (which depends on the polynomial) the answers are right *)
Lemma is_vN_sound n : forall m p, size p = n.+2 -> (n <= m)%N -> last 0 p != 0 ->
  exists2 t0 : C, 0 < t0 & forall t, 0 < t -> t < t0 -> is_vN_fuel t m p -> von_neumann p.
Proof.
elim: n => [|n IH] m p sp nm l.
  case: (boolP (`|p`_0| <= `|p`_1|)) => le.
    exists 1; rewrite ?ltr01 // => t _ _ _; exact/(deg1_vN sp l).
  have lt : `|p`_1| < `|p`_0| by rewrite real_ltNge ?normr_real.
  exists (`|p`_0| - `|p`_1|); first by rewrite subr_gt0.
  move=> t t0; rewrite ltr_subr_addl => tt.
  by case: m {nm} => [|m] /=; rewrite sp eqxx => /le_gtF; rewrite tt.
case: m nm => // m nm; rewrite /= sp /=; case: (boolP (`|p`_0| < `|last 0 p|)) => lt.
  have [||t0 p0 H] := IH m (operator_circ p) _ nm; first by rewrite size_circ sp.
    exact: last_circ sp lt.
  by exists t0 => // t h1 h2 A; apply/(vN_circ sp l lt)/(H t).
case: (boolP (all (fun c => c == 0) (operator_circ p))) => Z.
  have [||t0 p0 H] := IH m (operator_deriv p) _ nm; first by rewrite size_deriv sp.
    exact: last_deriv sp l.
  exists t0 => // t h1 h2; case: ifP => // _ A; exact/(vN_deriv sp l Z)/(H t).
move: Z; rewrite -has_predC => /hasP[c cp /= c0]; exists `|c|; first by rewrite normr_gt0.
move=> t h1 h2; case: ifP => // /allP /(_ c cp) /lt_gtF; by rewrite h2.
Qed.
Lemma is_svN_sound n : forall m p, size p = n.+2 -> (n <= m)%N -> last 0 p != 0 ->
  exists2 t0 : C, 0 < t0 & forall t, 0 < t -> t < t0 -> is_svN_fuel t m p -> von_neumann p /\ simple_on_circle p.
Proof.
elim: n => [|n IH] m p sp nm l.
  case: (boolP (`|p`_0| <= `|p`_1|)) => le.
    by exists 1; rewrite ?ltr01 // => t _ _ _; split; [exact/(deg1_vN sp l)|exact: deg1_simple].
  have lt : `|p`_1| < `|p`_0| by rewrite real_ltNge ?normr_real.
  exists (`|p`_0| - `|p`_1|); first by rewrite subr_gt0.
  move=> t t0; rewrite ltr_subr_addl => tt.
  by case: m {nm} => [|m] /=; rewrite sp eqxx => /le_gtF; rewrite tt.
case: m nm => // m nm; rewrite /= sp /=; case: (boolP (`|p`_0| < `|last 0 p|)) => lt.
  have [||t0 p0 H] := IH m (operator_circ p) _ nm; first by rewrite size_circ sp.
    exact: last_circ sp lt.
  by exists t0 => // t h1 h2 A; have [] := H t h1 h2 A; rewrite -(vN_circ sp l lt) -(simple_circ sp l lt).
case: (boolP (all (fun c => c == 0) (operator_circ p))) => Z.
  exists 1; rewrite ?ltr01 // => t _ _; case: ifP => // _ A; apply/(svN_deriv sp l Z).
  apply/(@is_S_spec n); last exact: A; rewrite ?size_deriv ?sp //; [by rewrite /= -addn2 leq_addr|exact: last_deriv sp l].
move: Z; rewrite -has_predC => /hasP[c cp /= c0]; exists `|c|; first by rewrite normr_gt0.
move=> t h1 h2; case: ifP => // /allP /(_ c cp) /lt_gtF; by rewrite h2.
Qed.

(* No compared quantity is in the tolerance window: at each stage of the recursion the
   coefficients tested against zero are all zero or not all small, and the last comparison is
   not decided by the tolerance. *)
Fixpoint vN_clear t (m : nat) p : bool :=
  if size p == 2%N then ~~ (`|p`_1| < `|p`_0| <= `|p`_1| + t) else
  match m with
  | 0 => true
  | m.+1 =>
      if `|p`_0| < `|last 0 p| then vN_clear t m (operator_circ p)
      else if all (fun c => c == 0) (operator_circ p) then vN_clear t m (operator_deriv p)
      else ~~ all (fun c => `|c| < t) (operator_circ p)
  end.
Fixpoint svN_clear t (m : nat) p : bool :=
  if size p == 2%N then ~~ (`|p`_1| < `|p`_0| <= `|p`_1| + t) else
  match m with
  | 0 => true
  | m.+1 =>
      if `|p`_0| < `|last 0 p| then svN_clear t m (operator_circ p)
      else if all (fun c => c == 0) (operator_circ p) then true
      else ~~ all (fun c => `|c| < t) (operator_circ p)
  end.
Lemma deg1_clear t p : ~~ (`|p`_1| < `|p`_0| <= `|p`_1| + t) -> `|p`_0| <= `|p`_1| + t -> `|p`_0| <= `|p`_1|.
Proof. by move=> cl le; rewrite le andbT in cl; rewrite real_leNgt ?normr_real. Qed.
Lemma is_vN_clear t n : forall m p, size p = n.+2 -> (n <= m)%N -> last 0 p != 0 -> vN_clear t m p ->
  is_vN_fuel t m p -> von_neumann p.
Proof.
elim: n => [|n IH] m p sp nm l.
  by case: m {nm} => [|m] /=; rewrite sp eqxx => cl le; apply/(deg1_vN sp l)/(deg1_clear cl).
case: m nm => // m nm; rewrite /= sp /=; case: (boolP (`|p`_0| < `|last 0 p|)) => lt.
  move=> cl A; apply/(vN_circ sp l lt); apply: (IH m) => //; [by rewrite size_circ sp|exact: last_circ sp lt].
case: (boolP (all (fun c => c == 0) (operator_circ p))) => Z.
  move=> cl; case: ifP => // _ A; apply/(vN_deriv sp l Z); apply: (IH m) => //; [by rewrite size_deriv sp|exact: last_deriv sp l].
by move=> /negbTE->.
Qed.
Lemma is_svN_clear t n : forall m p, size p = n.+2 -> (n <= m)%N -> last 0 p != 0 -> svN_clear t m p ->
  is_svN_fuel t m p -> von_neumann p /\ simple_on_circle p.
Proof.
elim: n => [|n IH] m p sp nm l.
  by case: m {nm} => [|m] /=; rewrite sp eqxx => cl le; (split; [apply/(deg1_vN sp l)/(deg1_clear cl)|exact: deg1_simple]).
case: m nm => // m nm; rewrite /= sp /=; case: (boolP (`|p`_0| < `|last 0 p|)) => lt.
  move=> cl A; rewrite (vN_circ sp l lt) (simple_circ sp l lt); apply: (IH m _ _ nm _ cl A); [by rewrite size_circ sp|exact: last_circ sp lt].
case: (boolP (all (fun c => c == 0) (operator_circ p))) => Z.
  move=> _; case: ifP => // _ A; apply/(svN_deriv sp l Z).
  apply/(@is_S_spec n); last exact: A; rewrite ?size_deriv ?sp //; [by rewrite /= -addn2 leq_addr|exact: last_deriv sp l].
by move=> /negbTE->.
Qed.
End Exact.

(* is_S is exact. *)
Theorem C42_exact (C : numClosedFieldType) (p : seq C) : (2 <= size p)%N -> last 0 p != 0 ->
  is_S p <-> (forall z, root (Poly p) z -> `|z| < 1).
Proof.
case E: (size p) => [|[|n]] // _ l; rewrite /is_S; apply: (@is_S_spec _ n) => //; by rewrite E -addn2 leq_addr.
Qed.

(* A false answer of is_vN is right for every tolerance: a polynomial whose roots are in the
   closed unit disk is never rejected. *)
Theorem C43_vN_reject (C : numClosedFieldType) (tpv : C) (p : seq C) : 0 < tpv -> (2 <= size p)%N -> last 0 p != 0 ->
  is_vN tpv p = false -> exists2 z, root (Poly p) z & 1 < `|z|.
Proof.
case E: (size p) => [|[|n]] // t0 _ l; rewrite /is_vN => F.
have NV : ~ von_neumann p by move=> V; move: F; rewrite (is_vN_complete t0 E) // E -addn2 leq_addr.
have p0 : Poly p != 0 by rewrite -size_poly_gt0 size_PolyE // E.
have [r Er] := factor (Poly p); have [_ rt] := factor_facts p0 Er.
case: (boolP (all (fun z => `|z| <= 1) r)) => [/allP A|].
  by case: NV => z; rewrite rt; exact: A.
rewrite -has_predC => /hasP[z zr /= zn]; exists z; first by rewrite rt.
exact: not_lt1.
Qed.
Theorem C43_svN_reject (C : numClosedFieldType) (tpv : C) (p : seq C) : 0 < tpv -> (2 <= size p)%N -> last 0 p != 0 ->
  (forall z, root (Poly p) z -> `|z| <= 1) -> (forall z, `|z| = 1 -> ~~ (('X - z%:P) ^+ 2 %| Poly p)) -> is_svN tpv p.
Proof.
case E: (size p) => [|[|n]] // t0 _ l V U; rewrite /is_svN; apply: (is_svN_complete t0 E) => //; by rewrite E -addn2 leq_addr.
Qed.
(* For each polynomial the tests are exact when the tolerance is small enough. *)
Theorem C43_vN_exact (C : numClosedFieldType) (p : seq C) : (2 <= size p)%N -> last 0 p != 0 ->
  exists2 t0 : C, 0 < t0 & forall t, 0 < t -> t < t0 -> (is_vN t p <-> (forall z, root (Poly p) z -> `|z| <= 1)).
Proof.
case E: (size p) => [|[|n]] // _ l; have nm : (n <= n.+2)%N by rewrite -addn2 leq_addr.
have [t0 p0 H] := is_vN_sound E nm l; exists t0 => // t h1 h2; rewrite /is_vN E; split; first exact: H.
exact: (is_vN_complete h1 E).
Qed.
Theorem C43_svN_exact (C : numClosedFieldType) (p : seq C) : (2 <= size p)%N -> last 0 p != 0 ->
  exists2 t0 : C, 0 < t0 & forall t, 0 < t -> t < t0 ->
    (is_svN t p <-> (forall z, root (Poly p) z -> `|z| <= 1) /\ (forall z, `|z| = 1 -> ~~ (('X - z%:P) ^+ 2 %| Poly p))).
Proof.
case E: (size p) => [|[|n]] // _ l; have nm : (n <= n.+2)%N by rewrite -addn2 leq_addr.
have [t0 p0 H] := is_svN_sound E nm l; exists t0 => // t h1 h2; rewrite /is_svN E; split; first exact: H.
case=> V U; exact: (is_svN_complete h1 E nm l V U).
Qed.
(* For each polynomial and tolerance the tests are exact when no compared quantity is in the
   tolerance window. *)
Theorem C43_vN_clear (C : numClosedFieldType) (t : C) (p : seq C) : 0 < t -> (2 <= size p)%N -> last 0 p != 0 ->
  vN_clear t (size p) p -> is_vN t p <-> (forall z, root (Poly p) z -> `|z| <= 1).
Proof.
case E: (size p) => [|[|n]] // t0 _ l cl; have nm : (n <= n.+2)%N by rewrite -addn2 leq_addr.
rewrite /is_vN E; split; [exact: (is_vN_clear E nm l cl)|exact: (is_vN_complete t0 E)].
Qed.
Theorem C43_svN_clear (C : numClosedFieldType) (t : C) (p : seq C) : 0 < t -> (2 <= size p)%N -> last 0 p != 0 ->
  svN_clear t (size p) p ->
  is_svN t p <-> (forall z, root (Poly p) z -> `|z| <= 1) /\ (forall z, `|z| = 1 -> ~~ (('X - z%:P) ^+ 2 %| Poly p)).
Proof.
case E: (size p) => [|[|n]] // t0 _ l cl; have nm : (n <= n.+2)%N by rewrite -addn2 leq_addr.
rewrite /is_svN E; split; first exact: (is_svN_clear E nm l cl).
case=> V U; exact: (is_svN_complete t0 E nm l V U).
Qed.
(* For a given tolerance a true answer may be wrong, even for monic polynomials of degree 2,
   and the accepted root may be as large as one wants. *)
Theorem C43_accept_refuted (C : numClosedFieldType) (tpv M : C) : 0 < tpv -> 0 <= M ->
  exists p : seq C, [/\ size p = 3%N, last 0 p = 1, is_vN tpv p, is_svN tpv p & exists2 z, root (Poly p) z & M < `|z|].
Proof.
move=> t0 M0; set b : C := 2%:R * (M + 1).
have b0 : 0 < b by apply: mulr_gt0; rewrite ?ltr0n //; apply: ltr_paddl => //; exact: ltr01.
set e := tpv / (b + tpv).
have bt0 : 0 < b + tpv by rewrite addr_gt0.
have e0 : 0 < e by rewrite divr_gt0.
have e1 : e < 1 by rewrite ltr_pdivr_mulr // mul1r ltr_addr.
have c0 : 0 < 1 - e by rewrite subr_gt0.
have cc : (1 - e)^* = 1 - e by apply/CrealP; rewrite gtr0_real.
have bb : b^* = b by apply/CrealP; rewrite gtr0_real.
have lt : `|1 - e| < `|1 : C| by rewrite normr1 gtr0_norm // ltr_subl_addl ltr_addr.
have be : b * e <= tpv.
  by rewrite mulrCA ger_pmulr // ler_pdivr_mulr // mul1r ler_addl ltW.
have B : forall x : C, `|(1 : C)^* * b - (1 - e) * b^*| <= `|x| + tpv.
  move=> x; rewrite conjC1 mul1r bb mulrBl mul1r opprB addrCA subrr addr0 mulrC ger0_norm; last by rewrite mulr_ge0 ?ltW.
  by rewrite (le_trans be) // ler_addr.
exists [:: 1 - e; b; 1]; split=> //.
- by rewrite /is_vN /= lt /= B.
- by rewrite /is_svN /= lt /= B.
have p0 : Poly [:: 1 - e; b; 1] != 0 by rewrite -size_poly_gt0 size_PolyE //= oner_eq0.
have [r E] := factor (Poly [:: 1 - e; b; 1]); have [sp rt] := factor_facts p0 E.
have l : last 0 [:: 1 - e; b; 1] != 0 by rewrite /= oner_eq0.
rewrite size_PolyE // in sp; rewrite lead_PolyE // [last 0 _]/= scale1r in E.
case: r E sp rt => [|x [|y [|w r]]] // E _ rt.
have := congr1 (fun q : {poly C} => q`_1) E; rewrite coef_Poly /= prodX_cons prodX_cons prodX_nil mulr1.
rewrite mulrBl coefB coefXM /= coefCM !coefB !coefX !coefC /= subr0 mulr1 sub0r => S.
have : M < `|x| \/ M < `|y|.
  case: (real_leP (normr_real x) (ger0_real M0)) => hx; last by left.
  case: (real_leP (normr_real y) (ger0_real M0)) => hy; last by right.
  have : `|b| <= M + M by rewrite S (le_trans (ler_norm_add _ _)) // !normrN ler_add.
  rewrite gtr0_norm // /b mulr_natl mulr2n => /le_gtF; by rewrite ltr_add ?ltr_addl ?ltr01.
by case=> h; [exists x|exists y] => //; rewrite rt !inE eqxx ?orbT.
Qed.

Print Assumptions C43_vN_clear. Print Assumptions C43_svN_clear. Print Assumptions C42_exact. Print Assumptions C43_vN_reject. Print Assumptions C43_svN_reject.
Print Assumptions C43_vN_exact. Print Assumptions C43_svN_exact. Print Assumptions C43_accept_refuted.

(* Examples: 1 + 2 z^2 is a Schur polynomial; 1 + z^2 has the simple roots i and -i on the
   circle; 1 + 2 z + z^2 the double root -1, so it is a von Neumann polynomial and not a
   simple one; 2 + z is rejected. *)
Example ex_S (C : numClosedFieldType) : is_S [:: 1; 0; 2%:R : C].
Proof.
rewrite /is_S /= normr1 normr_nat ltr1n /= !(mulr0, mul0r, conjC0, conjC1, conjC_nat, subr0, sub0r, mulr1, oppr0) ?normr0 normr_gt0.
by rewrite -natrM -(natrB _ (isT : (1 <= 2 * 2)%N)) pnatr_eq0.
Qed.
Example ex_schur (C : numClosedFieldType) : forall z : C, root (Poly [:: 1; 0; 2%:R]) z -> `|z| < 1.
Proof. by apply/C42_exact; rewrite ?ex_S //= pnatr_eq0. Qed.
Example ex_svN (C : numClosedFieldType) (t : C) : 0 < t -> t < 1 -> is_svN t [:: 1; 0; 1 : C] /\ is_vN t [:: 1; 0; 1 : C].
Proof.
move=> t0 t1; rewrite /is_svN /is_vN /= ltxx /= !(mulr0, mul0r, conjC0, conjC1, subr0, sub0r, mulr1, mul1r, subrr, oppr0) ?normr0 t0 /=.
split; last by rewrite addr_ge0 ?normr_ge0 ?ltW.
by rewrite /is_S /= mulr0 normr0 normr_gt0 mulr1 pnatr_eq0.
Qed.
Example ex_double (C : numClosedFieldType) (t : C) : 0 < t -> ~~ is_svN t [:: 1; 2%:R; 1 : C] /\ is_vN t [:: 1; 2%:R; 1 : C].
Proof.
move=> t0; rewrite /is_svN /is_vN /= ltxx /= !(conjC1, conjC_nat, mulr1, mul1r, subrr) normr0 t0 /=.
by rewrite /is_S /= mulr1 mul1r ltxx ler_addl ltW.
Qed.
Example ex_out (C : numClosedFieldType) (t : C) : 0 < t -> t < 1 -> is_vN t [:: 2%:R; 1 : C] = false.
Proof.
by move=> t0 t1; rewrite /is_vN /= normr1 normr_nat lt_geF // (_ : 2%:R = 1 + 1) // ltr_add2l.
Qed.
