(* Property theorem C59: replacement of the parameters.

   occurs x t: the symbol x is in the expression t.  eval un bin cst rho t: the value of t
   for any meaning of the operators.  not_circular l: the replacements can be ordered so
   that each one uses only symbols replaced before it (or not replaced at all). *)
From Coq Require Import Permutation.
From Verif Require Import PyBase ParamModel.

Fixpoint occurs (x : nat) (t : expr) : Prop :=
  match t with
  | EVar y => x = y
  | ECst _ => False
  | EUn _ a => occurs x a
  | EBin _ a b => occurs x a \/ occurs x b
  end.
Fixpoint eval {V : Type} (cst : nat -> V) (un : nat -> V -> V) (bin : nat -> V -> V -> V) (rho : nat -> V) (t : expr) : V :=
  match t with
  | EVar y => rho y
  | ECst c => cst c
  | EUn f a => un f (eval cst un bin rho a)
  | EBin f a b => bin f (eval cst un bin rho a) (eval cst un bin rho b)
  end.
Notation keys l := (map fst l).
Definition uses_before (l : list (nat * expr)) : Prop :=
  forall a x e b, l = a ++ (x, e) :: b -> forall y, occurs y e -> In y (keys l) -> In y (keys a).
Definition not_circular (l : list (nat * expr)) : Prop := exists l', Permutation l l' /\ uses_before l'.

(* ---- lemmas ---- *)
Lemma expr_eqb_eq : forall s t, expr_eqb s t = true <-> s = t.
Proof.
  induction s as [x|c|f a IH|f a IHa b IHb]; intros [y|d|g a'|g a' b']; cbn; try (split; discriminate).
  - rewrite Nat.eqb_eq. split; congruence.
  - rewrite Nat.eqb_eq. split; congruence.
  - rewrite andb_true_iff, Nat.eqb_eq, IH. split; [intros [-> ->]; reflexivity|intros H; injection H as -> ->; auto].
  - rewrite !andb_true_iff, Nat.eqb_eq, IHa, IHb. split; [intros [[-> ->] ->]; reflexivity|intros H; injection H as -> -> ->; auto].
Qed.
Lemma occurs_dec x t : {occurs x t} + {~ occurs x t}.
Proof.
  induction t as [y|c|f a IH|f a IHa b IHb]; cbn; [apply Nat.eq_dec|right; auto|exact IH|].
  destruct IHa; [left; auto|]. destruct IHb; [left; auto|]. right. tauto.
Qed.
Lemma occurs_subst x e z t : occurs z (subst x e t) <-> (occurs z t /\ z <> x) \/ (occurs x t /\ occurs z e).
Proof.
  induction t as [y|c|f a IH|f a IHa b IHb]; cbn; [| tauto | exact IH | rewrite IHa, IHb; tauto].
  destruct (Nat.eqb_spec y x) as [->|Ne]; [|cbn].
  - split; [intros H; right; auto|]. intros [[-> H]|[_ H]]; [congruence|exact H].
  - split; [intros ->; left; auto|]. intros [[H _]|[H _]]; [exact H|congruence].
Qed.
Section Eval.
Context {V : Type} (cst : nat -> V) (un : nat -> V -> V) (bin : nat -> V -> V -> V).
Notation ev := (eval cst un bin).
Lemma eval_subst rho x e t : rho x = ev rho e -> ev rho (subst x e t) = ev rho t.
Proof.
  intros H. induction t as [y|c|f a IH|f a IHa b IHb]; cbn; [|reflexivity|now rewrite IH|now rewrite IHa, IHb].
  destruct (Nat.eqb_spec y x) as [->|]; [symmetry; exact H|reflexivity].
Qed.
Definition solves (l : list (nat * expr)) (rho : nat -> V) : Prop := forall x e, In (x, e) l -> rho x = ev rho e.
Lemma eval_subs l rho : solves l rho -> forall t, ev rho (subs l t) = ev rho t.
Proof.
  unfold subs, solves. induction l as [|[x e] l IH]; intros H t; [reflexivity|]. cbn. rewrite IH.
  - apply eval_subst. apply H. left. reflexivity.
  - intros y e' Hy. apply H. right. exact Hy.
Qed.
Lemma eval_rec l rho n : solves l rho -> forall t, ev rho (rec_loop n l t) = ev rho t.
Proof.
  intros H. induction n as [|n IH]; intros t; [reflexivity|]. cbn. destruct (expr_eqb (subs l t) t).
  - apply eval_subs. exact H.
  - rewrite IH. apply eval_subs. exact H.
Qed.
Lemma eval_ext rho rho' t : (forall x, occurs x t -> rho x = rho' x) -> ev rho t = ev rho' t.
Proof.
  induction t as [y|c|f a IH|f a IHa b IHb]; cbn; intros H; [apply H; reflexivity|reflexivity| |].
  - now rewrite IH.
  - rewrite IHa, IHb by (intros; apply H; auto). reflexivity.
Qed.
Lemma solution_exists l rho0 : NoDup (keys l) -> uses_before l ->
  exists rho, (forall x, ~ In x (keys l) -> rho x = rho0 x) /\ solves l rho.
Proof.
  induction l as [|[x e] l IH] using rev_ind; intros N H.
  - exists rho0. split; [reflexivity|intros y e []].
  - rewrite map_app in N. cbn in N. pose proof (NoDup_remove_1 _ _ _ N) as N1. pose proof (NoDup_remove_2 _ _ _ N) as N2.
    rewrite app_nil_r in N1, N2. destruct IH as (rho & R1 & R2); [exact N1| |].
    { intros a y e' b E z Hz Hk. subst l. apply (H a y e' (b ++ [(x, e)])) with (y := z); [rewrite <- app_assoc; reflexivity|exact Hz|].
      rewrite map_app, in_app_iff. auto. }
    pose (rho' := fun y => if Nat.eqb y x then ev rho e else rho y).
    assert (O : forall y e', In (y, e') (l ++ [(x, e)]) -> ~ occurs x e').
    { intros y e' Hy Ho. destruct (in_split _ _ Hy) as (a & b & E).
      assert (Hx : In x (keys a)).
      { apply (H a y e' b E x Ho). rewrite map_app, in_app_iff. right. left. reflexivity. }
      apply N2. destruct b as [|q b] using rev_ind.
      - apply app_inj_tail in E. destruct E as [-> _]. exact Hx.
      - clear IHb. rewrite app_comm_cons, app_assoc in E. apply app_inj_tail in E. destruct E as [-> _].
        rewrite map_app, in_app_iff. left. exact Hx. }
    exists rho'. split.
    + intros y Hy. rewrite map_app, in_app_iff in Hy. cbn in Hy. unfold rho'. destruct (Nat.eqb_spec y x) as [->|]; [exfalso; auto|].
      apply R1. tauto.
    + intros y e' Hy. assert (Ee : ev rho' e' = ev rho e').
      { apply eval_ext. intros z Hz. unfold rho'. destruct (Nat.eqb_spec z x) as [->|]; [|reflexivity]. exfalso. exact (O y e' Hy Hz). }
      rewrite Ee. apply in_app_iff in Hy. unfold rho'. destruct (Nat.eqb_spec y x) as [->|Ne].
      * destruct Hy as [Hy|[Hy|[]]]; [exfalso; apply N2; apply (in_map fst) in Hy; exact Hy|]. injection Hy as <-. reflexivity.
      * destruct Hy as [Hy|[Hy|[]]]; [apply R2; exact Hy|congruence].
Qed.
End Eval.

(* passes needed *)
Section Passes.
Variable l : list (nat * expr).
Variable rank : nat -> nat.
Hypothesis Hr : forall x e, In (x, e) l -> forall y, occurs y e -> In y (keys l) -> (rank y < rank x)%nat.
Definition below (D : nat) (t : expr) : Prop := forall y, occurs y t -> In y (keys l) -> (rank y < D)%nat.
Lemma pass_below D t : below (S D) t -> below D (subs l t).
Proof.
  intros H.
  assert (G : forall p q t', l = p ++ q ->
    (forall y, occurs y t' -> In y (keys l) -> (rank y < D)%nat \/ (rank y = D /\ ~ In y (keys p))) ->
    below D (subs q t')).
  { intros p q. revert p. induction q as [|[x e] q IH]; intros p t' E I.
    - rewrite app_nil_r in E. subst p. intros y Hy Hk. destruct (I y Hy Hk) as [|[_ N]]; [assumption|contradiction].
    - apply (IH (p ++ [(x, e)])); [rewrite <- app_assoc; exact E|]. cbn [fst snd].
      assert (Hin : In (x, e) l) by (rewrite E; apply in_app_iff; right; left; reflexivity).
      assert (Hx : In x (keys l)) by exact (in_map fst _ _ Hin).
      intros y Hy Hk. apply occurs_subst in Hy. rewrite map_app, in_app_iff. cbn. destruct Hy as [[Hy Ne]|[Ho Hy]].
      + destruct (I y Hy Hk) as [|[R N]]; [left; assumption|]. right. split; [exact R|]. intros [X|[X|[]]]; [contradiction|congruence].
      + left. pose proof (Hr x e Hin y Hy Hk). destruct (I x Ho Hx) as [|[R _]]; lia. }
  apply (G [] l t eq_refl). intros y Hy Hk. specialize (H y Hy Hk). cbn. destruct (Nat.eq_dec (rank y) D); [right; auto|left; lia].
Qed.
Lemma fixed_below t : subs l t = t -> forall D, below D t -> below 0 t.
Proof. intros E. induction D as [|D IH]; intros H; [exact H|]. apply IH. rewrite <- E. apply pass_below. exact H. Qed.
Lemma rec_below n : forall t, below n t -> below 0 (rec_loop n l t).
Proof.
  induction n as [|n IH]; intros t H; [exact H|]. cbn. destruct (expr_eqb (subs l t) t) eqn:E.
  - apply expr_eqb_eq in E. rewrite E. apply (fixed_below t E (S n)). exact H.
  - apply IH. apply pass_below. exact H.
Qed.
End Passes.
Fixpoint pos (l : list nat) (x : nat) : nat := match l with [] => 0%nat | y :: t => if Nat.eqb x y then 0%nat else S (pos t x) end.
Lemma pos_lt l x : In x l -> (pos l x < length l)%nat.
Proof. induction l as [|y l IH]; cbn; [intros []|]. destruct (Nat.eqb_spec x y); intros [H|H]; try lia; try congruence. specialize (IH H). lia. Qed.
Lemma pos_app a b x : In x a -> pos (a ++ b) x = pos a x.
Proof. induction a as [|y a IH]; cbn; [intros []|]. destruct (Nat.eqb_spec x y); [reflexivity|]. intros [H|H]; [congruence|]. rewrite IH by exact H. reflexivity. Qed.
Lemma pos_end a x b : ~ In x a -> pos (a ++ x :: b) x = length a.
Proof. induction a as [|y a IH]; cbn; [rewrite Nat.eqb_refl; reflexivity|]. intros H. destruct (Nat.eqb_spec x y) as [->|]; [exfalso; auto|]. rewrite IH by tauto. reflexivity. Qed.

(* ---- the property ---- *)
Theorem C59_all_replaced : forall t l t', NoDup (keys l) -> not_circular l -> recursive_sub t l = Some t' ->
  (* no parameter is left *)
  (forall x, In x (keys l) -> ~ occurs x t') /\
  (* and the value is that of the expression with the values of the parameters, for any
     values of the other symbols, and any numbers and operations *)
  (forall V (cst : nat -> V) un bin rho0,
     exists rho, (forall x, ~ In x (keys l) -> rho x = rho0 x) /\
       (forall x e, In (x, e) l -> rho x = eval cst un bin rho e) /\
       eval cst un bin rho0 t' = eval cst un bin rho t).
Proof.
  intros t l t' N (l' & P & U) H. assert (E : t' = rec_loop (length l) l t) by (destruct l; [discriminate|injection H as <-; reflexivity]).
  assert (N' : NoDup (keys l')) by exact (Permutation_NoDup (Permutation_map fst P) N).
  assert (KP : forall x, In x (keys l) <-> In x (keys l')).
  { intros x. split; apply Permutation_in; [|apply Permutation_sym]; apply Permutation_map; exact P. }
  assert (A : forall x, In x (keys l) -> ~ occurs x t').
  { intros x Hx Ho. assert (B : below l (pos (keys l')) 0 t'); [|specialize (B x Ho Hx); lia].
    rewrite E. apply rec_below.
    - intros y e Hy z Hz Hk. apply (Permutation_in _ P) in Hy. destruct (in_split _ _ Hy) as (a & b & E').
      pose proof (U a y e b E' z Hz (proj1 (KP z) Hk)) as Hza. rewrite E', map_app. cbn [map fst].
      rewrite pos_app by exact Hza. rewrite pos_end; [apply pos_lt; exact Hza|].
      rewrite E', map_app in N'. cbn in N'. apply NoDup_remove_2 in N'. intros X. apply N'. apply in_app_iff. auto.
    - intros y _ Hk. apply KP in Hk. apply pos_lt in Hk. rewrite map_length in Hk. rewrite (Permutation_length P). exact Hk. }
  split; [exact A|]. intros V cst un bin rho0.
  destruct (solution_exists cst un bin l' rho0 N' U) as (rho & R1 & R2). exists rho.
  assert (S : solves cst un bin l rho) by (intros x e Hx; apply R2; exact (Permutation_in _ P Hx)).
  split; [intros x Hx; apply R1; rewrite <- KP; exact Hx|]. split; [exact S|].
  transitivity (eval cst un bin rho t'); [|rewrite E; apply eval_rec; exact S].
  apply eval_ext. intros x Hx. symmetry. apply R1. rewrite <- KP. intros Hk. exact (A x Hk Hx).
Qed.
Print Assumptions C59_all_replaced.

(* A single subs replaces everything exactly when no value uses its own symbol or one
   which comes before it in the dictionary. *)
Theorem C59_single_pass_iff : forall l, NoDup (keys l) ->
  (forall t x, In x (keys l) -> ~ occurs x (subs l t)) <->
  (forall a x e b, l = a ++ (x, e) :: b -> forall y, occurs y e -> ~ In y (keys a) /\ y <> x).
Proof.
  intros l N. split.
  - intros H a x e b E y Hy. subst l. rewrite map_app in N. cbn in N.
    assert (Nx : ~ In x (keys a)) by (apply NoDup_remove_2 in N; intros X; apply N; apply in_app_iff; auto).
    assert (S1 : subs a (EVar x) = EVar x).
    { clear - Nx. induction a as [|[z e] a IH]; [reflexivity|]. unfold subs in *. cbn in *.
      destruct (Nat.eqb_spec x z) as [->|]; [exfalso; auto|]. apply IH. tauto. }
    assert (S2 : forall q t, ~ In y (keys q) -> occurs y t -> occurs y (subs q t)).
    { clear. induction q as [|[z e] q IH]; intros t Hq Ht; [exact Ht|]. unfold subs in *. cbn in *. apply IH; [tauto|].
      apply occurs_subst. left. split; [exact Ht|]. intros ->. tauto. }
    assert (S3 : ~ In y (keys b) -> In y (keys (a ++ (x, e) :: b)) -> False).
    { intros Hb Hin. apply (H (EVar x) y Hin). unfold subs. rewrite fold_left_app. change (fold_left _ a _) with (subs a (EVar x)).
      rewrite S1. cbn [fold_left fst snd subst]. rewrite Nat.eqb_refl. apply (S2 b e Hb Hy). }
    rewrite map_app in S3. cbn in S3.
    assert (D : In y (keys a ++ [x]) -> ~ In y (keys b)).
    { intros Hin Hb. rewrite <- (app_nil_r (keys a)) in N. clear - N Hin Hb. rewrite app_nil_r in N.
      change (keys a ++ x :: keys b) with (keys a ++ [x] ++ keys b) in N. rewrite app_assoc in N.
      revert Hin N. generalize (keys a ++ [x]). intros c Hc N. induction c as [|z c IH]; [destruct Hc|].
      cbn in N. inversion N; subst. destruct Hc as [->|Hc]; [|auto]. apply H1. apply in_app_iff. auto. }
    split.
    + intros Ha. apply S3; [apply D|]; apply in_app_iff; auto.
    + intros ->. apply S3; [apply D|]; apply in_app_iff; cbn; auto.
  - intros H t.
    assert (G : forall p q t', l = p ++ q -> (forall x, In x (keys p) -> ~ occurs x t') ->
      forall x, In x (keys l) -> ~ occurs x (subs q t')).
    { intros p q. revert p. induction q as [|[x e] q IH]; intros p t' E I.
      - rewrite app_nil_r in E. subst p. exact I.
      - apply (IH (p ++ [(x, e)])); [rewrite <- app_assoc; exact E|]. intros z Hz Ho. cbn [fst snd] in Ho.
        apply occurs_subst in Ho. rewrite map_app, in_app_iff in Hz. cbn in Hz. destruct Ho as [[Ho Ne]|[_ Ho]].
        + destruct Hz as [Hz|[Hz|[]]]; [exact (I z Hz Ho)|congruence].
        + destruct (H p x e q E z Ho) as [H1 H2]. destruct Hz as [Hz|[Hz|[]]]; [auto|congruence]. }
    exact (G [] l t eq_refl (fun x (F : In x []) => match F with end)).
Qed.
Print Assumptions C59_single_pass_iff.

(* symbols 0: LA, 1: c, 2: X, 3: rho; {c: 7, LA: 2*c}, X -> xx, rho -> m[0] *)
Definition par_ex : list (nat * expr) := [(1%nat, ECst 7); (0%nat, EBin 0 (ECst 2) (EVar 1))].
Example C59_example :
  NoDup (keys ([(2%nat, EVar 12)] ++ par_ex ++ [(3%nat, EVar 13)])) /\
  not_circular ([(2%nat, EVar 12)] ++ par_ex ++ [(3%nat, EVar 13)]) /\
  equilibrium_entry (EBin 0 (EVar 0) (EVar 3)) [(2%nat, EVar 12)] par_ex [(3%nat, EVar 13)] =
    Some (EBin 0 (EBin 0 (ECst 2) (ECst 7)) (EVar 13)).
Proof.
  split; [repeat constructor; cbn; intuition discriminate|]. split; [|reflexivity].
  eexists. split; [apply Permutation_refl|]. intros a x e b E y Hy Hk.
  destruct a as [|p [|p' [|p2 [|p3 [|]]]]]; cbn in E; injection E as; subst; try discriminate; cbn in *; try (intuition congruence); try (destruct b; discriminate).
Qed.

(* the same parameters in a matrix: c stays in M *)
Theorem C59_matrix_refuted : exists param t x, NoDup (keys param) /\ not_circular param /\
  In x (keys param) /\ occurs x (matrix_entry t param) /\
  (exists t', equilibrium_entry t [] param [] = Some t' /\ ~ occurs x t').
Proof.
  exists par_ex, (EVar 0), 1%nat. split; [repeat constructor; cbn; intuition discriminate|].
  split; [|split; [cbn; auto|split; [cbn; auto|eexists; split; [reflexivity|cbn; intuition discriminate]]]].
  eexists. split; [apply Permutation_refl|]. intros a x e b E y Hy Hk.
  destruct a as [|p [|p' [|]]]; cbn in E; injection E as; subst; try discriminate; cbn in *; try (intuition congruence); try (destruct b; discriminate).
Qed.
Print Assumptions C59_matrix_refuted.
(* circular parameters: the number of replacements done depends on the number of the other
   parameters, here LA = f(LA) with one unrelated parameter or not *)
Theorem C59_circular_refuted : exists x e q, ~ occurs x (snd q) /\
  recursive_sub (EVar x) [(x, e)] <> recursive_sub (EVar x) [(x, e); q].
Proof. exists 0%nat, (EUn 0 (EVar 0)), (5%nat, ECst 1). split; [intros []|]. vm_compute. discriminate. Qed.
Print Assumptions C59_circular_refuted.
Theorem C59_no_replacement_refuted : exists t, recursive_sub t [] = None.
Proof. exists (EVar 0). reflexivity. Qed.
Print Assumptions C59_no_replacement_refuted.
