(* Property C56: the second order equivalent equation. *)
From Verif Require Import PyBase LinAlg EquivModel EquivProps Equiv2Model Equiv2Proofs.
From Coq Require Import Ring Setoid Morphisms.

Section Props.
Variable K : ring.
Add Ring Kring_eq2p : (rth K).
Open Scope ring_scope'.
Variables (t half : K) (s : escheme K) (inv_s S_ : vec K) (jac : mat K) (dm : nat) (dx : nat -> K -> K) (dt : K -> K) (W : vec K).
Notation n := (es_n s).
Notation nc := (es_nc s).
Notation nn := (es_n s - es_nc s)%nat.
Notation G := (fun j => es_EQ s W (nc + j)%nat).
Notation "a =[ p ]= b" := (cong K t p a b) (at level 70).
Hypothesis F : frame K t s inv_s S_ half jac dx dt W.
Notation L := (Lop K s dm dx).
Let Fdx := f_dx _ _ _ _ _ _ _ _ _ _ F.
Let Fdt := f_dt _ _ _ _ _ _ _ _ _ _ F.
Let Fnc := f_nc _ _ _ _ _ _ _ _ _ _ F.
Let Ft := f_t _ _ _ _ _ _ _ _ _ _ F.

(* vectors of moments: conserved part, other part *)
Definition join (a b : vec K) : vec K := fun i => if Nat.ltb i nc then a i else b (i - nc)%nat.
Lemma join_c a b i : (i < nc)%nat -> join a b i = a i.
Proof. intros H. unfold join. now rewrite (proj2 (Nat.ltb_lt _ _) H). Qed.
Lemma join_n a b j : join a b (nc + j)%nat = b j.
Proof. unfold join. destruct (Nat.ltb_spec (nc + j) nc); [lia|]. f_equal. lia. Qed.
Lemma all_n (P : nat -> Prop) : (forall i, (i < nc)%nat -> P i) -> (forall j, (j < nn)%nat -> P (nc + j)%nat) -> forall i, (i < n)%nat -> P i.
Proof.
  intros H1 H2 i Hi. destruct (Nat.lt_ge_cases i nc); [now apply H1|]. replace i with (nc + (i - nc))%nat by lia. apply H2. lia.
Qed.
Lemma split_n (g : nat -> K) : sum n g = sum nc g + sum nn (fun j => g (nc + j)%nat).
Proof. rewrite <- sum_split. f_equal. lia. Qed.

Definition Bd (x : vec K) (i : nat) : K := sum dm (fun d => sum nn (fun j => bB s d i j * dx d (x j))).
Lemma Lop_join a b i : L (join a b) i = sum dm (fun d => sum nc (fun j => Lambda s d i j * dx d (a j))) +
  sum dm (fun d => sum nn (fun j => Lambda s d i (nc + j)%nat * dx d (b j))).
Proof.
  unfold Lop. rewrite <- sum_add. apply sum_ext. intros d _. rewrite split_n. f_equal; apply sum_ext; intros j Hj.
  - now rewrite join_c.
  - now rewrite join_n.
Qed.
Lemma Bd_cong p x y i : (forall j, (j < nn)%nat -> x j =[p]= y j) -> Bd x i =[p]= Bd y i.
Proof.
  intros H. apply cong_sum. intros d _. apply cong_sum. intros j Hj. apply cong_mul; [reflexivity|].
  apply d_cong; [apply Fdx|apply Ft|now apply H].
Qed.
Lemma Bd_add x y i : Bd (fun j => x j + y j) i = Bd x i + Bd y i.
Proof.
  unfold Bd. rewrite <- sum_add. apply sum_ext. intros d _. rewrite <- sum_add. apply sum_ext. intros j _.
  rewrite (d_add _ _ (Fdx d)). ring.
Qed.
Lemma Bd_const c x i : constant K dx dt c -> Bd (fun j => c * x j) i = c * Bd x i.
Proof.
  intros [Hc _]. unfold Bd. rewrite <- sum_mul_l. apply sum_ext. intros d _. rewrite <- sum_mul_l. apply sum_ext. intros j _.
  rewrite (d_const _ _ (Fdx d)) by apply Hc. ring.
Qed.
Lemma Bd_ext x y i : (forall j, (j < nn)%nat -> x j = y j) -> Bd x i = Bd y i.
Proof. intros H. apply sum_ext. intros d _. apply sum_ext. intros j Hj. now rewrite H. Qed.

(* the divergence of the first order flux and the other part *)
Definition g1 (i : nat) : K := sum dm (fun d => dx d (coeff_order1 s W d i)).
Definition q (j : nat) : K := L (join W G) (nc + j)%nat.
Lemma constL d i j : (i < n)%nat -> (j < n)%nat -> constant K dx dt (Lambda s d i j).
Proof. apply (const_Lambda K t s inv_s S_ half jac dx dt W F). Qed.
Lemma g1_L i : (i < nc)%nat -> L (join W G) i = g1 i.
Proof.
  intros Hi. unfold g1, Lop. apply sum_ext. intros d _. unfold coeff_order1. rewrite (d_add _ _ (Fdx d)), !(d_sum _ _ (Fdx d)), split_n.
  f_equal; apply sum_ext; intros j Hj.
  - rewrite (d_const _ _ (Fdx d)) by (apply constL; lia). now rewrite join_c.
  - rewrite (d_const _ _ (Fdx d)) by (apply constL; lia). now rewrite join_n.
Qed.
(* values of the forms *)
Definition val (f : form K) : K := sum dm (fun d => sum nc (fun jc => f d jc * dx d (W jc))).
Lemma jac_dx j d : (j < nn)%nat -> dx d (G j) = sum nc (fun i => jac j i * dx d (W i)).
Proof. intros Hj. now apply (f_jac _ _ _ _ _ _ _ _ _ _ F). Qed.
Lemma lin_val i : L (join W G) i = val (fun d jc => Lambda s d i jc + sum nn (fun j => Lambda s d i (nc + j)%nat * jac j jc)).
Proof.
  unfold val, Lop. apply sum_ext. intros d _. rewrite split_n.
  rewrite (sum_ext K nn (fun j => Lambda s d i (nc + j)%nat * dx d (join W G (nc + j)%nat)) (fun j => sum nc (fun jc => Lambda s d i (nc + j)%nat * jac j jc * dx d (W jc)))).
  2:{ intros j Hj. rewrite join_n, jac_dx by exact Hj. rewrite <- sum_mul_l. apply sum_ext. intros. ring. }
  rewrite sum_swap, <- sum_add. apply sum_ext. intros jc Hjc. rewrite join_c by exact Hjc.
  rewrite (sum_ext K nn _ (fun j => dx d (W jc) * (Lambda s d i (nc + j)%nat * jac j jc))) by (intros; ring). rewrite sum_mul_l. ring.
Qed.
Lemma gamma1_val i : (i < nc)%nat -> val (gamma1 s jac i) = g1 i.
Proof. intros Hi. rewrite <- g1_L, lin_val by exact Hi. reflexivity. Qed.
Lemma val_sum m (c : nat -> K) (f : nat -> form K) : val (fun d jc => sum m (fun l => c l * f l d jc)) = sum m (fun l => c l * val (f l)).
Proof.
  unfold val. rewrite (sum_ext K m (fun l => c l * _) (fun l => sum dm (fun d => sum nc (fun jc => c l * f l d jc * dx d (W jc))))).
  2:{ intros l _. rewrite <- sum_mul_l. apply sum_ext. intros d _. rewrite <- sum_mul_l. apply sum_ext. intros. ring. }
  rewrite (sum_swap K m dm). apply sum_ext. intros d _. rewrite (sum_swap K m nc). apply sum_ext. intros jc _.
  rewrite (sum_ext K m (fun l => c l * f l d jc * dx d (W jc)) (fun l => dx d (W jc) * (c l * f l d jc))) by (intros; ring).
  rewrite sum_mul_l. ring.
Qed.
Definition P (j : nat) : K := val (phi1_ s jac j).
Lemma P_eq j : P j = sum nc (fun l => jac j l * g1 l) - q j.
Proof.
  unfold P, phi1_, val.
  rewrite (sum_ext K dm _ (fun d => sum nc (fun jc => phi1 s jac j d jc * dx d (W jc)) +
    sum nc (fun jc => sum nc (fun l => jac j l * gamma1 s jac l d jc) * dx d (W jc)))).
  2:{ intros d _. rewrite <- sum_add. apply sum_ext. intros. ring. }
  rewrite sum_add. change (sum dm (fun d => sum nc (fun jc => sum nc (fun l => jac j l * gamma1 s jac l d jc) * dx d (W jc)))) with
    (val (fun d jc => sum nc (fun l => jac j l * gamma1 s jac l d jc))). rewrite val_sum.
  rewrite (sum_ext K nc (fun l => jac j l * val _) (fun l => jac j l * g1 l)) by (intros l Hl; now rewrite gamma1_val).
  unfold q. rewrite lin_val. unfold val.
  assert (E : forall a b c : K, a = - c -> a + b = b - c) by (intros a b c ->; ring). apply E. rewrite <- sum_opp.
  apply sum_ext. intros d _. rewrite <- sum_opp. apply sum_ext. intros jc _. unfold phi1, bC, bD. ring.
Qed.

(* the right hand side of the printed equation *)
Definition rhs (i : nat) : K := - sum dm (fun d => dx d (coeff_order1 s W d i)) +
  sum dm (fun d => sum dm (fun e => dx d (sum nc (fun jc => printed_B s inv_s half jac t d e i jc * dx e (W jc))))).
Lemma rhs_eq i : (i < nc)%nat -> rhs i = - g1 i - t * Bd (fun j => sigma inv_s half j * P j) i.
Proof.
  intros Hi. unfold rhs. fold (g1 i). assert (E : forall a b c : K, b = - c -> a + b = a - c) by (intros a b c ->; ring). apply E. clear E.
  unfold Bd. rewrite <- sum_mul_l, <- sum_opp. apply sum_ext. intros d _.
  rewrite <- (d_sum _ _ (Fdx d)).
  rewrite (sum_ext K dm _ (fun e => - t * sum nc (fun jc => coeff_order2 s inv_s half jac d e i jc * dx e (W jc)))).
  2:{ intros e _. rewrite <- sum_mul_l. apply sum_ext. intros jc _. unfold printed_B. ring. }
  rewrite sum_mul_l. change (sum dm (fun e => sum nc (fun jc => coeff_order2 s inv_s half jac d e i jc * dx e (W jc)))) with
    (val (fun e jc => sum nn (fun j => bB s d i j * sigma inv_s half j * phi1_ s jac j e jc))).
  rewrite val_sum. rewrite (d_mul _ _ (Fdx d)), (d_opp _ _ (Fdx d)), (proj1 Ft d), (d_sum _ _ (Fdx d)).
  assert (E : forall a b c : K, b = c -> - 0 * a + - t * b = - (t * c)) by (intros a b c ->; ring). apply E.
  apply sum_ext. intros j Hj. replace (bB s d i j * sigma inv_s half j * val (phi1_ s jac j)) with (bB s d i j * (sigma inv_s half j * P j)) by (unfold P; ring).
  apply (d_const _ _ (Fdx d)). apply constL; lia.
Qed.

Section Step.
Variables (f fstar f' N N1 : vec K).
(* the state: the conserved moments are W, the others are close to the equilibrium *)
Hypothesis Hc : forall i, (i < nc)%nat -> mvmul n (es_M s) f i = W i.
Hypothesis Hn : forall j, (j < nn)%nat -> mvmul n (es_M s) f (nc + j)%nat = N j.
Hypothesis HN : forall j, (j < nn)%nat -> N j =[2]= G j + t * N1 j.
(* the relaxation and the transport *)
Hypothesis Rc : forall i, (i < nc)%nat -> mvmul n (es_M s) fstar i = mvmul n (es_M s) f i.
Hypothesis Rn : forall j, (j < nn)%nat -> let m := mvmul n (es_M s) f (nc + j)%nat in
  mvmul n (es_M s) fstar (nc + j)%nat = m + S_ j * (G j - m).
Hypothesis HT : taylor K t s half dm dx fstar f'.

Lemma star : forall i, (i < n)%nat -> mvmul n (es_M s) fstar i =[2]= join W (fun j => G j + t * ((1 - S_ j) * N1 j)) i.
Proof.
  apply all_n; intros i Hi.
  - rewrite Rc, Hc, join_c by exact Hi. reflexivity.
  - rewrite Rn, join_n by exact Hi. cbv zeta. rewrite Hn by exact Hi. rewrite (HN i Hi).
    replace (G i + t * N1 i + S_ i * (G i - (G i + t * N1 i))) with (G i + t * ((1 - S_ i) * N1 i)) by ring. reflexivity.
Qed.
Lemma star1 : forall i, (i < n)%nat -> mvmul n (es_M s) fstar i =[1]= join W G i.
Proof.
  apply all_n; intros i Hi.
  - assert (Hin : (i < n)%nat) by lia. rewrite (cong_weak _ _ _ _ _ (star i Hin)), !join_c by exact Hi. reflexivity.
  - assert (Hin : (nc + i < n)%nat) by lia. rewrite (cong_weak _ _ _ _ _ (star _ Hin)), !join_n. exists ((1 - S_ i) * N1 i). cbn [pw]. ring.
Qed.
Lemma after_c i : (i < nc)%nat -> mvmul n (es_M s) f' i =[3]=
  W i - t * (g1 i + t * Bd (fun j => (1 - S_ j) * N1 j) i) + half * (t * (t * L (join g1 q) i)).
Proof.
  intros Hi. assert (Hin : (i < n)%nat) by lia.
  pose proof (taylor_moments K t s inv_s S_ half jac dm dx dt W F fstar f' i HT Hin) as E. cbv zeta in E. rewrite E. clear E.
  set (m := mvmul n (es_M s) fstar). assert (Em : m i = W i) by (unfold m; rewrite Rc, Hc by exact Hi; reflexivity). rewrite Em.
  assert (E1 : L m i =[2]= g1 i + t * Bd (fun j => (1 - S_ j) * N1 j) i).
  { rewrite (Lop_cong K t s inv_s S_ half jac dm dx dt W F 2 m _ i star), Lop_join, <- (g1_L i Hi), Lop_join.
    assert (E : sum dm (fun d => sum nn (fun j => Lambda s d i (nc + j)%nat * dx d (G j + t * ((1 - S_ j) * N1 j)))) =
      sum dm (fun d => sum nn (fun j => Lambda s d i (nc + j)%nat * dx d (G j))) + t * Bd (fun j => (1 - S_ j) * N1 j) i).
    { unfold Bd. rewrite <- sum_mul_l, <- sum_add. apply sum_ext. intros d _. rewrite <- sum_mul_l, <- sum_add. apply sum_ext. intros j _.
      rewrite (d_add _ _ (Fdx d)), (d_const _ _ (Fdx d) t) by apply Ft. unfold bB. ring. }
    rewrite E. set (x := sum dm _). set (y := sum dm _). replace (x + (y + t * Bd (fun j => (1 - S_ j) * N1 j) i)) with (x + y + t * Bd (fun j => (1 - S_ j) * N1 j) i) by ring. reflexivity. }
  assert (E2 : L (L m) i =[1]= L (join g1 q) i).
  { apply (Lop_cong K t s inv_s S_ half jac dm dx dt W F). apply all_n; intros j Hj.
    - rewrite (Lop_cong K t s inv_s S_ half jac dm dx dt W F 1 m _ j star1), g1_L, join_c by exact Hj. reflexivity.
    - rewrite (Lop_cong K t s inv_s S_ half jac dm dx dt W F 1 m _ _ star1), join_n. reflexivity. }
  rewrite (cong_t _ _ _ _ _ E1), (cong_t _ _ _ _ _ (cong_t _ _ _ _ _ E2)). reflexivity.
Qed.
Lemma after_n j : (j < nn)%nat -> mvmul n (es_M s) f' (nc + j)%nat =[2]= G j + t * ((1 - S_ j) * N1 j) - t * q j.
Proof.
  intros Hj. assert (Hin : (nc + j < n)%nat) by lia.
  pose proof (cong_weak _ _ _ _ _ (taylor_moments K t s inv_s S_ half jac dm dx dt W F fstar f' _ HT Hin)) as E. cbv zeta in E. rewrite E. clear E.
  set (m := mvmul n (es_M s) fstar). rewrite (star _ Hin : cong K t 2 (m (nc + j)%nat) _), join_n.
  rewrite (cong_t _ _ _ _ _ (Lop_cong K t s inv_s S_ half jac dm dx dt W F 1 m _ _ star1)). fold (q j).
  exists (half * L (L m) (nc + j)%nat). cbn [pw]. ring.
Qed.
(* time derivatives *)
Lemma dtt i : (forall l, (l < nc)%nat -> dt (W l) =[1]= - g1 l) -> (i < nc)%nat ->
  dt (dt (W i)) =[1]= L (join g1 (fun j => sum nc (fun l => jac j l * g1 l))) i.
Proof.
  intros H Hi. rewrite (d_cong _ _ _ _ _ _ Fdt (proj2 Ft) (H i Hi)). rewrite (d_opp _ _ Fdt), <- g1_L by exact Hi.
  rewrite (Lop_dt K t s inv_s S_ half jac dm dx dt W F) by lia.
  rewrite <- (Lop_opp K t s inv_s S_ half jac dm dx dt W F). apply (Lop_cong K t s inv_s S_ half jac dm dx dt W F).
  apply all_n; intros j Hj.
  - rewrite !join_c by exact Hj. rewrite (H j Hj). replace (- - g1 j) with (g1 j) by ring. reflexivity.
  - rewrite !join_n. rewrite (proj2 (f_jac _ _ _ _ _ _ _ _ _ _ F j Hj)), <- sum_opp. apply cong_sum. intros l Hl.
    rewrite (H l Hl). replace (- (jac j l * - g1 l)) with (jac j l * g1 l) by ring. reflexivity.
Qed.
Lemma rhs_1 i : (i < nc)%nat -> rhs i =[1]= - g1 i.
Proof. intros Hi. rewrite rhs_eq by exact Hi. exists (- Bd (fun j => sigma inv_s half j * P j) i). cbn [pw]. ring. Qed.
Lemma after_rhs i : (i < nc)%nat -> (forall j, (j < nn)%nat -> N1 j =[1]= inv_s j * P j) ->
  mvmul n (es_M s) f' i =[3]= W i + t * rhs i + half * (t * (t * L (join g1 (fun j => sum nc (fun l => jac j l * g1 l))) i)).
Proof.
  intros Hi HP. rewrite (after_c i Hi), rhs_eq by exact Hi.
  assert (E : Bd (fun j => (1 - S_ j) * N1 j) i =[1]= Bd (fun j => sigma inv_s half j * P j) i + - half * Bd P i).
  { rewrite <- (Bd_const (- half)).
    - rewrite <- Bd_add. apply Bd_cong. intros j Hj. rewrite (HP j Hj). pose proof (f_S _ _ _ _ _ _ _ _ _ _ F j Hj) as Es.
      pose proof (f_half _ _ _ _ _ _ _ _ _ _ F) as Eh. unfold sigma.
      replace ((1 - S_ j) * (inv_s j * P j)) with ((inv_s j - S_ j * inv_s j) * P j) by ring. rewrite Es, <- Eh.
      replace ((inv_s j - (half + half)) * P j) with ((inv_s j - half) * P j + - half * P j) by ring. reflexivity.
    - pose proof (f_half _ _ _ _ _ _ _ _ _ _ F) as Eh. split; [intros d; rewrite (d_opp _ _ (Fdx d)), (d_half _ _ (Fdx d) _ Eh)|rewrite (d_opp _ _ Fdt), (d_half _ _ Fdt _ Eh)]; ring. }
  assert (E2 : L (join g1 q) i = L (join g1 (fun j => sum nc (fun l => jac j l * g1 l))) i + - Bd P i).
  { rewrite !Lop_join. unfold Bd. rewrite <- sum_opp.
    assert (A : forall a b c d : K, b = c + d -> a + b = a + c + d) by (intros a b c d ->; ring). apply A. rewrite <- sum_add. apply sum_ext. intros d _.
    rewrite <- sum_opp, <- sum_add. apply sum_ext. intros j Hj. rewrite (P_eq j), (d_sub _ _ (Fdx d)). unfold bB. ring. }
  rewrite E2. set (X := L _ i). set (B1 := Bd (fun j => (1 - S_ j) * N1 j) i) in *. set (B2 := Bd P i) in *. set (B3 := Bd (fun j => sigma inv_s half j * P j) i) in *.
  rewrite (cong_t _ _ _ _ _ (cong_add K t 2 _ _ (reflexivity (g1 i)) _ _ (cong_t _ _ _ _ _ E))).
  pose proof (f_half _ _ _ _ _ _ _ _ _ _ F) as Eh.
  replace (W i - t * (g1 i + t * (B3 + - half * B2)) + half * (t * (t * (X + - B2)))) with
    (W i + t * (- g1 i - t * B3) + half * (t * (t * X))) by ring. reflexivity.
Qed.

(* The solutions of the scheme which are smooth in time and space are, up to the
   third order, the solutions of the printed equation, and the other moments follow
   the conserved ones. *)
Theorem C56_second_order : (forall x, t * x = 0 -> x = 0) ->
  ((forall i, (i < nc)%nat -> mvmul n (es_M s) f' i =[3]= W i + t * dt (W i) + half * (t * (t * dt (dt (W i))))) /\
   (forall j, (j < nn)%nat -> mvmul n (es_M s) f' (nc + j)%nat =[2]= N j + t * dt (N j))) <->
  ((forall i, (i < nc)%nat -> dt (W i) =[2]= rhs i) /\
   (forall j, (j < nn)%nat -> N1 j =[1]= inv_s j * P j)).
Proof.
  intros Reg.
  assert (NN : (forall l, (l < nc)%nat -> dt (W l) =[1]= - g1 l) -> forall j, (j < nn)%nat ->
    N j + t * dt (N j) =[2]= G j + t * N1 j + t * - sum nc (fun l => jac j l * g1 l)).
  { intros H j Hj. assert (D1 : dt (N j) =[1]= - sum nc (fun l => jac j l * g1 l)).
    { rewrite (d_cong _ _ _ _ _ _ Fdt (proj2 Ft) (cong_weak _ _ _ _ _ (HN j Hj))), (d_add _ _ Fdt), (d_const _ _ Fdt t _ (proj2 Ft)).
      rewrite (proj2 (f_jac _ _ _ _ _ _ _ _ _ _ F j Hj)).
      rewrite (cong_sum K t 1 nc _ (fun l => jac j l * - g1 l)) by (intros l Hl; rewrite (H l Hl); reflexivity).
      rewrite <- sum_opp. rewrite (sum_ext K nc (fun l => jac j l * - g1 l) (fun l => - (jac j l * g1 l))) by (intros; ring).
      exists (dt (N1 j)). cbn [pw]. ring. }
    rewrite (cong_t _ _ _ _ _ D1), (HN j Hj). reflexivity. }
  split.
  - intros [H1 H2].
    assert (T1 : forall l, (l < nc)%nat -> dt (W l) =[1]= - g1 l).
    { intros l Hl. apply cong_cancel; [exact Reg|]. pose proof (cong_weak _ _ _ _ _ (H1 l Hl)) as A.
      rewrite (cong_weak _ _ _ _ _ (after_c l Hl)) in A. destruct A as [c A].
      set (X := L _ l) in A. set (Y := Bd _ l) in A. set (Z := dt (dt (W l))) in A.
      exists (- c - Y + half * X - half * Z). cbn [pw] in *.
      replace (t * dt (W l)) with ((W l + t * dt (W l) + half * (t * (t * Z)) + t * (t * 1) * c) - W l - half * (t * (t * Z)) - t * (t * 1) * c) by ring.
      rewrite <- A. ring. }
    assert (HP : forall j, (j < nn)%nat -> N1 j =[1]= inv_s j * P j).
    { intros j Hj. pose proof (H2 j Hj) as A. rewrite (after_n j Hj), (NN T1 j Hj) in A.
      assert (B : S_ j * N1 j =[1]= P j).
      { apply cong_cancel; [exact Reg|]. rewrite P_eq. destruct A as [c A]. exists (- c).
        replace (t * (S_ j * N1 j)) with (G j + t * N1 j - t * q j - (G j + t * ((1 - S_ j) * N1 j) - t * q j)) by ring. rewrite A. cbn [pw]. ring. }
      pose proof (f_S _ _ _ _ _ _ _ _ _ _ F j Hj) as Es.
      replace (N1 j) with (inv_s j * (S_ j * N1 j)); [now rewrite B|]. replace (inv_s j * (S_ j * N1 j)) with (S_ j * inv_s j * N1 j) by ring. rewrite Es. ring. }
    split; [|exact HP]. intros i Hi. apply cong_cancel; [exact Reg|].
    pose proof (H1 i Hi) as A. rewrite (after_rhs i Hi HP) in A.
    rewrite (cong_t _ _ _ _ _ (cong_t _ _ _ _ _ (dtt i T1 Hi))) in A. set (X := L _ i) in A. destruct A as [c A]. exists (- c).
    replace (t * dt (W i)) with (W i + t * dt (W i) + half * (t * (t * X)) + pw K t 3 * c - W i - half * (t * (t * X)) - pw K t 3 * c) by ring.
    rewrite <- A. ring.
  - intros [H1 HP].
    assert (T1 : forall l, (l < nc)%nat -> dt (W l) =[1]= - g1 l).
    { intros l Hl. rewrite (cong_weak _ _ _ _ _ (H1 l Hl)). now apply rhs_1. }
    split.
    + intros i Hi. rewrite (after_rhs i Hi HP), (cong_t _ _ _ _ _ (H1 i Hi)), (cong_t _ _ _ _ _ (cong_t _ _ _ _ _ (dtt i T1 Hi))). reflexivity.
    + intros j Hj. rewrite (after_n j Hj), (NN T1 j Hj).
      assert (E : S_ j * N1 j =[1]= P j).
      { rewrite (HP j Hj). pose proof (f_S _ _ _ _ _ _ _ _ _ _ F j Hj) as Es. replace (S_ j * (inv_s j * P j)) with (S_ j * inv_s j * P j) by ring.
        rewrite Es. replace (1 * P j) with (P j) by ring. reflexivity. }
      replace (G j + t * ((1 - S_ j) * N1 j) - t * q j) with (G j + t * N1 j - t * (S_ j * N1 j) - t * q j) by ring.
      rewrite (cong_t _ _ _ _ _ E), P_eq. set (X := sum nc _).
      replace (G j + t * N1 j - t * (X - q j) - t * q j) with (G j + t * N1 j + t * - X) by ring. reflexivity.
Qed.
End Step.
End Props.
Print Assumptions C56_second_order.
