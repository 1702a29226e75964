(* An example for C56: exponentials in space and time. *)
From mathcomp Require Import all_ssreflect all_algebra.
From Verif Require Import LinAlg EquivModel Equiv2Model Equiv2Proofs Equiv2Props.
Set Implicit Arguments. Unset Strict Implicit. Unset Printing Implicit Defensive.
Import GRing.Theory.
Local Open Scope ring_scope.

(* Polynomials in w = exp x over the polynomials in delta_t. *)
Definition E : Type := {poly {poly rat}}.
Lemma E_th : Ring_theory.ring_theory (0 : E) 1 +%R *%R (fun a b => a - b) -%R eq.
Proof. split; intros; [exact: add0r|exact: addrC|exact: addrA|exact: mul1r|exact: mulrC|exact: mulrA|exact: mulrDl|by []|exact: subrr]. Qed.
Definition KE : LinAlg.ring := LinAlg.mkRing _ _ _ _ _ _ _ E_th.
Definition cst (a : rat) : KE := (a%:P)%:P : E.
Definition te : KE := ('X%:P : E).
Definition dxe (d : nat) (p : KE) : KE := 'X * deriv (p : E) : E.
(* la = 1, velocities 1 and -1, one conserved moment, equilibrium W / 2, s = 3/2 *)
Definition c2 : rat := 2%:R^-1.
Definition m2 (a b c d : rat) : mat KE := fun i j => match i, j with O, O => cst a | O, _ => cst b | _, O => cst c | _, _ => cst d end.
Definition d1q2 : escheme KE := mkES 2 1 (m2 1 1 1 (-1)) (m2 c2 c2 c2 (- c2)) (cst 1) (fun k _ => if k is O then cst 1 else cst (-1))
  (fun W i => (cst c2 * W O)%K).
(* the diffusion sigma (1 - c^2) = (2/3 - 1/2) * (3/4) = 1/8 *)
Definition mu : rat := 8%:R^-1.
Definition dte (p : KE) : KE := ((mu *: 'X - c2%:P)%:P : E) * (dxe 0 p : E) : E.
Definition We : vec KE := fun _ => ('X : E).
Definition inve : vec KE := fun _ => cst (2%:R / 3%:R).
Definition Se : vec KE := fun _ => cst (3%:R / 2%:R).
Definition jace : mat KE := fun _ _ => cst c2.

Lemma dxe_der d : derivation KE (dxe d).
Proof.
  split=> a b; rewrite /dxe /=.
  - by rewrite derivD mulrDr.
  - by rewrite derivM mulrDr mulrA (mulrCA 'X).
Qed.
Lemma dte_der : derivation KE dte.
Proof.
  case: (dxe_der 0) => A B. split=> a b; rewrite /dte.
  - by rewrite A /= mulrDr.
  - by rewrite B /= mulrDr mulrA (mulrCA _ (a : E)).
Qed.
Lemma dxe_cst d (p : {poly rat}) : dxe d (p%:P : E) = (0 : E).
Proof. by rewrite /dxe derivC mulr0. Qed.
Lemma dte_cst (p : {poly rat}) : dte (p%:P : E) = (0 : E).
Proof. by rewrite /dte dxe_cst mulr0. Qed.
Lemma const_cst (p : {poly rat}) : constant KE dxe dte (p%:P : E).
Proof. split; [move=> d; exact: dxe_cst|exact: dte_cst]. Qed.
Lemma cstD a b : (cst a + cst b)%K = cst (a + b).
Proof. by rewrite /cst /= -!polyCD. Qed.
Lemma cstM a b : (cst a * cst b)%K = cst (a * b).
Proof. by rewrite /cst /= -!polyCM. Qed.
Lemma cst1 : (1%K : KE) = cst 1.
Proof. by []. Qed.
Lemma cst0 : (0%K : KE) = cst 0.
Proof. by rewrite /cst !polyC0. Qed.
Lemma cstN a : (- cst a)%K = cst (- a).
Proof. by rewrite /cst /= -!polyCN. Qed.
Lemma sum1 (g : nat -> KE) : LinAlg.sum 1 g = g 0%N.
Proof. by rewrite /LinAlg.sum /sumL /= addr0. Qed.
Lemma sum2 (g : nat -> KE) : LinAlg.sum 2 g = (g 0%N + g 1%N)%K.
Proof. by rewrite /LinAlg.sum /sumL /= addr0. Qed.
Global Opaque cst.
Ltac csts := rewrite ?cst1 ?cst0; rewrite ?(cstN, cstM, cstD); congr cst; apply/eqP; by vm_compute.
Lemma e_frame : frame KE te d1q2 inve Se (cst c2) jace dxe dte We.
Proof.
  split.
  - exact: dxe_der.
  - exact: dte_der.
  - by [].
  - move=> d a. symmetry. apply: (d_const KE _ (dxe_der d)). exact: dxe_cst.
  - exact: const_cst.
  - by move=> [|[|i]] [|[|j]] Hi Hj; split; exact: const_cst.
  - exact: const_cst.
  - by move=> [|k] d; exact: const_cst.
  - by apply/leP.
  - split; move=> [|[|i]] [|[|j]] /ssrnat.ltP Hi /ssrnat.ltP Hj //; rewrite /mmul (_ : es_n d1q2 = 2%N) // sum2 /idm; cbn [Nat.eqb es_M es_invM d1q2 m2]; csts.
  - csts.
  - move=> j _. rewrite /Se /inve. csts.
  - move=> j _. split; [move=> d|]; rewrite (_ : es_nc d1q2 = 1%N) // sum1; [apply: (d_const KE _ (dxe_der d)); exact: dxe_cst|apply: (d_const KE _ dte_der); exact: dte_cst].
Qed.
Lemma mmul2 (A B : mat KE) i j : mmul 2 A B i j = (A i 0%N * B 0%N j + A i 1%N * B 1%N j)%K.
Proof. exact: sum2. Qed.
Lemma e_Lambda d i j : (i < 2)%N -> (j < 2)%N -> Lambda d1q2 d i j = (if Nat.eqb i j then cst 0 else cst 1).
Proof.
  move=> Hi Hj. have -> : Lambda d1q2 d i j = mmul 2 (mmul 2 (es_M d1q2) (vd d1q2 d)) (es_invM d1q2) i j by [].
  rewrite !mmul2 /vd.
  case: i Hi => [|[|i]] // _; case: j Hj => [|[|j]] // _.
  all: cbn [Nat.eqb es_M es_invM es_la es_vel d1q2 m2].
  all: csts.
Qed.
Lemma subE (a b : KE) : rsub a b = radd a (ropp b).
Proof. by []. Qed.
Lemma e_g1 : gamma1 d1q2 jace 0%N 0%N 0%N = cst c2.
Proof.
  rewrite /gamma1 (_ : (es_n d1q2 - es_nc d1q2)%coq_nat = 1%N) // sum1 /bA /bB (_ : es_nc d1q2 = 1%N) // !e_Lambda //.
  cbn [Nat.eqb addn Nat.add]. rewrite /jace. csts.
Qed.
Lemma e_phi1 : phi1 d1q2 jace 0%N 0%N 0%N = cst (-1).
Proof.
  rewrite /phi1 (_ : (es_n d1q2 - es_nc d1q2)%coq_nat = 1%N) // sum1 /bC /bD (_ : es_nc d1q2 = 1%N) // !e_Lambda //.
  cbn [Nat.eqb addn Nat.add]. rewrite /jace !subE. csts.
Qed.
Lemma e_coeff2 : coeff_order2 d1q2 inve (cst c2) jace 0%N 0%N 0%N 0%N = cst (- mu).
Proof.
  rewrite /coeff_order2 (_ : (es_n d1q2 - es_nc d1q2)%coq_nat = 1%N) // sum1 /phi1_ (_ : es_nc d1q2 = 1%N) // sum1 e_g1 e_phi1.
  rewrite /sigma /bB (_ : es_nc d1q2 = 1%N) // e_Lambda //. cbn [Nat.eqb addn Nat.add]. rewrite /inve /jace !subE. csts.
Qed.
Lemma mul0K (a : KE) : rmul (cst 0) a = cst 0.
Proof. rewrite -cst0. exact: (mul0r (a : E)). Qed.
Lemma mul1K (a : KE) : rmul (cst 1) a = a.
Proof. rewrite -cst1. exact: (mul1r (a : E)). Qed.
Lemma add0K (a : KE) : radd (cst 0) a = a.
Proof. rewrite -cst0. exact: (add0r (a : E)). Qed.
Lemma e_coeff1 : coeff_order1 d1q2 We 0%N 0%N = (cst c2 * We 0%N)%K.
Proof.
  rewrite /coeff_order1 (_ : (es_n d1q2 - es_nc d1q2)%coq_nat = 1%N) // (_ : es_nc d1q2 = 1%N) // !sum1 !e_Lambda //.
  cbn [Nat.eqb addn Nat.add es_EQ d1q2]. by rewrite mul0K mul1K add0K.
Qed.
Lemma e_dx : dxe 0%N (We 0%N) = We 0%N.
Proof. by rewrite /dxe /We derivX mulr1. Qed.
Lemma e_dxc (c : {poly rat}) : dxe 0%N ((c%:P : E) * (We 0%N : E)) = ((c%:P : E) * (We 0%N : E) : E).
Proof. by rewrite /dxe /We deriv_mulC derivX mulr1 mulrC. Qed.
Lemma e_dte : dte (We 0%N) = ((mu *: 'X - c2%:P)%:P : E) * (We 0%N : E).
Proof. by rewrite /dte e_dx. Qed.
Lemma e_rhs : rhs KE te (cst c2) d1q2 inve jace 1 dxe We 0%N = dte (We 0%N).
Proof.
  rewrite /rhs !sum1 e_coeff1 /printed_B e_coeff2 e_dx.
  have -> : (- (te * cst (- mu)))%K = ((mu *: 'X)%:P : E).
  { rewrite -cstN. have -> : cst mu = ((mu%:P)%:P : E) by []. have -> : te = ('X%:P : E) by [].
    have -> : forall a b : KE, (- (a * - b))%K = (b : E) * (a : E) by move=> a b; rewrite /= mulrN opprK mulrC.
    by rewrite -polyCM mul_polyC. }
  have -> : (cst c2 * We 0%N)%K = ((c2%:P)%:P : E) * (We 0%N : E) by [].
  have -> : (((mu *: 'X)%:P : KE) * We 0%N)%K = ((mu *: 'X)%:P : E) * (We 0%N : E) by [].
  rewrite !e_dxc e_dte. have -> : forall a b : KE, (- a + b)%K = (b : E) - (a : E) by move=> a b; rewrite /= addrC.
  by rewrite -mulrBl -polyCB.
Qed.
Example C56_example :
  frame KE te d1q2 inve Se (cst c2) jace dxe dte We /\
  (forall x : KE, (te * x)%K = (0 : E) -> x = (0 : E)) /\
  coeff_order1 d1q2 We 0%N 0%N = (cst c2 * We 0%N)%K /\
  coeff_order2 d1q2 inve (cst c2) jace 0%N 0%N 0%N 0%N = cst (- mu) /\
  dte (We 0%N) = rhs KE te (cst c2) d1q2 inve jace 1 dxe We 0%N /\ dte (We 0%N) <> (0 : E).
Proof.
  split; [exact: e_frame|]. split.
  { move=> x /eqP. rewrite /te /= mulf_eq0 polyC_eq0 polyX_eq0 /=. by move=> /eqP. }
  split; [exact: e_coeff1|]. split; [exact: e_coeff2|]. split; [by rewrite e_rhs|].
  rewrite e_dte /We. apply/eqP. rewrite mulf_eq0 polyX_eq0 orbF polyC_eq0.
  apply/eqP => H. have := congr1 (fun p : {poly rat} => p`_0) H. rewrite coefB coefZ coefX coefC coef0 mulr0 sub0r.
  move/eqP. by vm_compute.
Qed.
Print Assumptions C56_example.
