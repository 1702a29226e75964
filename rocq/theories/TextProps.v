(* C70: the value of the text of an expression. *)
From Coq Require Import String Reals Lra Ring.
From Verif Require Import PyBase LinAlg TextModel TextProofs.
Import ListNotations.
Open Scope Z_scope.

(* ---- the text is an expression of Python with the value of the expression of SymPy ---- *)
Theorem C70_value : forall (C : calc) (E : env C), library C E -> forall minus half_eq be e t,
  normal e -> no_range e -> print minus half_eq be e = Some t -> reads C E t (value C E e).
Proof. intros C E L minus half_eq be e t. now apply print_reads. Qed.
(* this is its only value *)
Theorem C70_unique : forall (C : calc) (E : env C), library C E -> forall minus half_eq be e t v,
  normal e -> no_range e -> print minus half_eq be e = Some t -> reads C E t v -> v = value C E e.
Proof.
  intros C E L minus half_eq be e t v H1 H2 H3 H4. pose proof (C70_value C E L minus half_eq be e t H1 H2 H3) as H5.
  apply (proj1 (one_reading C E) _ _ _ H4 _ _ H5).
Qed.
(* the two back ends compute the same value, whatever the signs SymPy extracts *)
Theorem C70_backends : forall (C : calc) (E : env C), library C E -> forall m1 h1 b1 m2 h2 b2 e t1 t2 v1 v2, normal e -> no_range e ->
  print m1 h1 b1 e = Some t1 -> print m2 h2 b2 e = Some t2 -> reads C E t1 v1 -> reads C E t2 v2 -> v1 = v2.
Proof.
  intros C E L m1 h1 b1 m2 h2 b2 e t1 t2 v1 v2 H1 H2 P1 P2 R1 R2.
  rewrite (C70_unique C E L m1 h1 b1 e t1 v1), (C70_unique C E L m2 h2 b2 e t2 v2); auto.
Qed.

(* ---- when there is a text ---- *)
Lemma all_some : forall A (l : list (option A)), (forall a, In a l -> a <> None) -> all l <> None.
Proof.
  induction l as [|[a|] l IH]; cbn; intros H; [discriminate| |exfalso; apply (H None); auto].
  destruct (all l); [discriminate|]. exfalso. apply IH; auto.
Qed.
Lemma all_none : forall A (l : list (option A)), In None l -> all l = None.
Proof. induction l as [|[a|] l IH]; cbn; intros H; [contradiction| |reflexivity]. destruct H as [H|H]; [discriminate|]. now rewrite IH. Qed.
(* the exponents are numbers *)
Fixpoint literal (e : sexp) : Prop := match e with
  | Num _ _ | Sym _ => True
  | Elem _ l | SAdd l | SMul _ _ l | SFn _ l => (fix go (l : list sexp) := match l with [] => True | i :: l => literal i /\ go l end) l
  | Range l u => literal l /\ literal u
  | SPow b x => literal b /\ (exists p q, x = Num p q)
  end.
Lemma literal_in : forall l, (fix go (l : list sexp) := match l with [] => True | i :: l => literal i /\ go l end) l <-> forall e, In e l -> literal e.
Proof.
  induction l as [|i l IH]; split; intros H; auto; [intros e []| |].
  - intros e [<-|He]; [apply H|]. now apply IH.
  - split; [apply H; now left|]. apply IH. intros e He. apply H. now right.
Qed.
Section Total.
Variables (minus : sexp -> bool) (half_eq : bool) (be : backend).
Notation print := (print minus half_eq be).
Definition can (e : sexp) : Prop := be = Numpy \/ literal e.
Lemma pow_can : forall b tb x tx, can (SPow b x) -> pow_text minus half_eq be b tb x tx <> None.
Proof.
  intros b tb x tx [->|[_ (p & q & ->)]]; unfold pow_text; [destruct x; try discriminate|destruct be];
    repeat match goal with |- context [if ?c then _ else _] => destruct c end; discriminate.
Qed.
Lemma can_list : forall l, (be = Numpy \/ forall e, In e l -> literal e) -> forall e, In e l -> can e.
Proof. intros l [H|H] e He; [now left|]. right. auto. Qed.
Lemma map_none : forall A B (f : A -> option B) l, (forall a, In a l -> f a <> None) -> all (map f l) <> None.
Proof. intros A B f l H. apply all_some. intros a Ha. apply in_map_iff in Ha. destruct Ha as (x & <- & Hx). auto. Qed.
Lemma option_map_none : forall A B (f : A -> B) o, o <> None -> option_map f o <> None.
Proof. intros A B f [a|] H; [discriminate|contradiction]. Qed.
Lemma total : forall e, can e -> print e <> None /\ match e with SPow b _ => print b <> None | _ => True end.
Proof.
  apply (sexp_ind' (fun e => can e -> print e <> None /\ match e with SPow b _ => print b <> None | _ => True end)).
  - split; [discriminate|exact I].
  - split; [discriminate|exact I].
  - intros a ix F H. split; [|exact I]. cbn [TextModel.print]. apply option_map_none, map_none. rewrite Forall_forall in F. intros i Hi. apply F; auto.
    apply (can_list ix); auto. destruct H as [H|H]; [now left|]. right. now apply literal_in.
  - intros l u Hl Hu H. split; [|exact I]. cbn [TextModel.print].
    assert (Cl : can l) by (destruct H as [H|[H _]]; [now left|now right]). assert (Cu : can u) by (destruct H as [H|[_ H]]; [now left|now right]).
    destruct (Hl Cl) as [Pl _]. destruct (Hu Cu) as [Pu _]. destruct (print l), (print u); try contradiction; discriminate.
  - intros l F H. split; [|exact I]. cbn [TextModel.print]. apply option_map_none, map_none. rewrite Forall_forall in F. intros i Hi. apply option_map_none. apply F; auto.
    apply (can_list l); auto. destruct H as [H|H]; [now left|]. right. now apply literal_in.
  - intros p q l F H. split; [|exact I]. rewrite Forall_forall in F.
    assert (Cl : forall e, In e l -> can e) by (apply can_list; destruct H as [H|H]; [now left|]; right; now apply literal_in). clear H.
    cbn [TextModel.print].
    match goal with |- context [all (flat_map ?f l)] => assert (A : all (flat_map f l) <> None) end.
    { apply all_some. intros a Ha. apply in_flat_map in Ha. destruct Ha as (x & Hx & Ha). destruct (is_den x); [contradiction|]. destruct Ha as [<-|[]].
      apply option_map_none. apply F; auto. }
    match type of A with ?x <> None => destruct x as [nums|]; [|contradiction] end.
    match goal with |- context [all (flat_map ?f l)] => assert (B : all (flat_map f l) <> None) end.
    { apply all_some. intros a Ha. apply in_flat_map in Ha. destruct Ha as (x & Hx & Ha). destruct x as [| | | | | |b x|]; try contradiction. destruct x as [p' q'| | | | | | |]; try contradiction.
      destruct (p' <? 0); [|contradiction]. destruct (F _ Hx (Cl _ Hx)) as [_ Pb]. destruct (print b) as [tb|]; [|contradiction]. destruct Ha as [<-|[]].
      unfold den_text. destruct ((p' =? -1) && (q' =? 1)%positive); [discriminate|]. apply option_map_none, pow_can.
      destruct (Cl _ Hx) as [|[? _]]; [now left|]. right. split; auto. exists (- p'), q'. reflexivity. }
    match type of B with ?x <> None => destruct x as [dens|]; [|contradiction] end. discriminate.
  - intros b x Hb Hx H. assert (Cb : can b) by (destruct H as [H|[H _]]; [now left|now right]).
    assert (Cx : can x) by (destruct H as [H|[_ (p & q & ->)]]; [now left|now right]).
    destruct (Hb Cb) as [Pb _]. destruct (Hx Cx) as [Px _]. split; auto. cbn [TextModel.print].
    destruct (print b), (print x); try contradiction. now apply pow_can.
  - intros f l F H. split; [|exact I]. cbn [TextModel.print]. apply option_map_none, map_none. rewrite Forall_forall in F. intros i Hi. apply F; auto.
    apply (can_list l); auto. destruct H as [H|H]; [now left|]. right. now apply literal_in.
Qed.
End Total.
Theorem C70_numpy_total : forall minus half_eq e, print minus half_eq Numpy e <> None.
Proof. intros minus half_eq e. apply (total minus half_eq Numpy e). now left. Qed.
Lemma map_some : forall A B (f : A -> option B) l, all (map f l) <> None -> forall a, In a l -> f a <> None.
Proof. intros A B f l H a Ha Hf. apply H. apply all_none. rewrite <- Hf. now apply in_map. Qed.
Lemma option_map_some : forall A B (f : A -> B) o, option_map f o <> None -> o <> None.
Proof. intros A B f [a|] H; [discriminate|contradiction]. Qed.
Theorem C70_cython : forall minus half_eq e, print minus half_eq Cython e <> None <-> literal e.
Proof.
  intros minus half_eq e. split; [|intros H; apply (total minus half_eq Cython e); now right]. revert e. set (pr := print minus half_eq Cython).
  apply (sexp_ind' (fun e => pr e <> None -> literal e)).
  - intros. exact I.
  - intros. exact I.
  - intros a ix F H. unfold pr in H. cbn [print] in H. fold pr in H. apply option_map_some in H. pose proof (map_some _ _ _ _ H) as G. rewrite Forall_forall in F. apply literal_in. auto.
  - intros l u Hl Hu H. unfold pr in H. cbn [print] in H. fold pr in H. split; [apply Hl|apply Hu]; intros X; rewrite X in H; [contradiction|]. destruct (pr l); contradiction.
  - intros l F H. unfold pr in H. cbn [print] in H. fold pr in H. apply option_map_some in H. pose proof (map_some _ _ _ _ H) as G. rewrite Forall_forall in F. apply literal_in.
    intros e He. apply F; auto. apply (option_map_some _ _ _ _ (G e He)).
  - intros p q l F H. rewrite Forall_forall in F. apply literal_in. intros e He. unfold pr in H. cbn [print] in H.
    match type of H with match ?a with Some _ => _ | None => _ end <> None => destruct a as [nums|] eqn:En; [|contradiction] end.
    match type of H with match ?a with Some _ => _ | None => _ end <> None => destruct a as [dens|] eqn:Ed; [|contradiction] end. clear H.
    apply F; auto. fold pr in En, Ed. intros N. destruct (is_den e) eqn:Ee.
    + destruct e as [| | | | | |b x|]; try discriminate. destruct x as [p' q'| | | | | | |]; try discriminate. cbn in Ee.
      rewrite all_none in Ed; [discriminate|]. apply in_flat_map. eexists. split; [exact He|]. cbn beta iota. rewrite Ee.
      unfold pr in N. cbn [print] in N. fold pr in N. destruct (pr b) as [tb|] eqn:Eb; [|now left]. exfalso. revert N. unfold pow_text. repeat match goal with |- context [if ?c then _ else _] => destruct c end; discriminate.
    + rewrite all_none in En; [discriminate|]. apply in_flat_map. exists e. split; auto. rewrite Ee, N. now left.
  - intros b x Hb Hx H. unfold pr in H. cbn [print] in H. fold pr in H. destruct (pr b) as [tb|] eqn:Eb; [|contradiction]. split; [apply Hb; discriminate|].
    destruct (pr x) as [tx|]; [|contradiction]. destruct x as [p q| | | | | | |]; [now exists p, q|..]; exfalso; apply H; unfold pow_text; cbn [is_num]; rewrite andb_false_r; reflexivity.
  - intros f l F H. unfold pr in H. cbn [print] in H. fold pr in H. apply option_map_some in H. pose proof (map_some _ _ _ _ H) as G. rewrite Forall_forall in F. apply literal_in. auto.
Qed.
(* x**n *)
Theorem C70_symbolic_exponent_refuted : exists e, normal e /\ no_range e /\ forall minus half_eq, print minus half_eq Cython e = None.
Proof. exists (SPow (Sym "x") (Sym "n")). split; [|split; [exact I|intros minus []; reflexivity]]. cbn. repeat split; auto; discriminate. Qed.

(* ---- a Piecewise with Cython ---- *)
Section Quest.
Variables (C : calc) (E : env C).
Definition before (ts r : text) : Prop := exists u, ts = u ++ r /\ ~ In TQuest u.
Lemma before_refl : forall r, before r r.
Proof. intros. exists []. auto. Qed.
Lemma before_trans : forall a b c, before a b -> before b c -> before a c.
Proof. intros a b c (u & -> & H1) (v & -> & H2). exists (u ++ v). rewrite app_assoc. split; auto. intros H. apply in_app_or in H. tauto. Qed.
Lemma before_cons : forall x a b, x <> TQuest -> before a b -> before (x :: a) b.
Proof. intros x a b N (u & -> & H). exists (x :: u). split; auto. intros [X|X]; auto. Qed.
Lemma before_tail : forall x a b, x <> TQuest -> before a (x :: b) -> before a b.
Proof. intros x a b N (u & -> & H). exists (u ++ [x]). rewrite <- app_assoc. split; auto. intros X. apply in_app_or in X. destruct X as [X|[X|[]]]; auto. Qed.
Ltac go := eauto using before_trans, before_refl; repeat first [apply before_cons; [discriminate|]|eapply before_tail; [|eassumption]; discriminate|assumption|apply before_refl|eapply before_trans; [first [eassumption|eapply before_tail; [|eassumption]; discriminate]|]].
Lemma no_quest : (forall ts v r, sum C E ts v r -> before ts r) /\ (forall a ts v r, sums C E a ts v r -> before ts r)
  /\ (forall ts v r, prod C E ts v r -> before ts r) /\ (forall a ts v r, prods C E a ts v r -> before ts r)
  /\ (forall ts v r, unary C E ts v r -> before ts r) /\ (forall ts v r, atom C E ts v r -> before ts r)
  /\ (forall ts v r, args C E ts v r -> before ts r) /\ (forall ts v r, items C E ts v r -> before ts r) /\ (forall ts v r, item C E ts v r -> before ts r).
Proof. apply reading_ind; intros; go. Qed.
End Quest.
(* a Piecewise which is not the whole right side, or stays in a condition: the text is not Python *)
Theorem C70_piecewise : forall (C : calc) (E : env C) l last before after v, l <> [] -> ~ reads C E (before ++ cython_piecewise l last ++ after) v.
Proof.
  intros C E l last b a v N H. destruct (proj1 (no_quest C E) _ _ _ H) as (u & Hu & Q). rewrite app_nil_r in Hu. apply Q. rewrite <- Hu.
  apply in_or_app. right. apply in_or_app. left. destruct l as [|[c e] l]; [contradiction|]. cbn. right. right. apply in_or_app. right. now left.
Qed.

(* ---- real numbers ---- *)
Definition Rring : ring := mkRing R 0%R 1%R Rplus Rmult Rminus Ropp RTheory.
Definition is_int (b : R) : {b = IZR (Int_part b)} + {b <> IZR (Int_part b)} := Req_EM_T b (IZR (Int_part b)).
Definition Rpow (a b : R) : R := if is_int b then powerRZ a (Int_part b) else Rpower a b.
Lemma int_part_IZR : forall z, Int_part (IZR z) = z.
Proof. intros. unfold Int_part. rewrite <- (tech_up (IZR z) (z + 1)); [lia|rewrite plus_IZR; lra|rewrite plus_IZR; lra]. Qed.
Lemma Rpow_IZR : forall a z, Rpow a (IZR z) = powerRZ a z.
Proof. intros. unfold Rpow. destruct (is_int (IZR z)) as [_|H]; [now rewrite int_part_IZR|]. exfalso. apply H. now rewrite int_part_IZR. Qed.
Lemma Rpow_opp : forall a b, Rpow a (- b) = (/ Rpow a b)%R.
Proof.
  intros a b. destruct (is_int b) as [H|H].
  - rewrite H, <- opp_IZR, !Rpow_IZR. apply powerRZ_neg'.
  - unfold Rpow. destruct (is_int b); [contradiction|]. destruct (is_int (- b)) as [X|X]; [|apply Rpower_Ropp].
    exfalso. apply H. assert (Y : b = IZR (- Int_part (- b))) by (rewrite opp_IZR, <- X; lra). rewrite Y at 2. rewrite int_part_IZR. exact Y.
Qed.
Definition Rcalc : calc.
Proof.
  refine (mkCalc Rring Rinv IZR Rpow Rinv_1 Rinv_mult eq_refl opp_IZR _ _ _); cbn.
  - intros a. change 1%R with (IZR 1). rewrite Rpow_IZR. exact (pow_1 a).
  - intros a n Hn. change (Z.pos (Pos.of_succ_nat n)) with (Z.of_nat (S n)). rewrite !Rpow_IZR. rewrite <- !pow_powerRZ. exact (Rmult_comm a (a ^ n)).
  - intros a p q. apply Rpow_opp.
Defined.
Definition R_env (x y : R) (f : nat -> R) : env Rcalc := mkEnv Rcalc (fun s => if (s =? "x")%string then x else if (s =? "y")%string then y else 0%R)
  (fun _ ix => match ix with [inl i] => f (Z.to_nat (Int_part i)) | _ => 0%R end)
  (fun s l => match l with [a; b] => if (s =? "pow")%string then Rpow a b else 0%R
                         | [a] => if ((s =? "sqrt") || (s =? "numpy.sqrt"))%string then Rpow a (ratio Rcalc 1 2) else 0%R
                         | _ => 0%R end).
Lemma R_library : forall x y f, library Rcalc (R_env x y f).
Proof. intros x y f a b. repeat split. Qed.
(* -x*y**2/(3*(x + y)) - sqrt(y)/2 + f[2] *)
Definition x_e : sexp := SAdd [SMul (-1) 3 [Sym "x"; SPow (Sym "y") (Num 2 1); SPow (SAdd [Sym "x"; Sym "y"]) (Num (-1) 1)];
                               SMul (-1) 2 [SPow (Sym "y") (Num 1 2)]; Elem "f" [Num 2 1]].
Lemma x_normal : normal x_e.
Proof. cbn. repeat split; auto; discriminate. Qed.
Definition x_minus (e : sexp) : bool := match e with SMul p _ _ => p <? 0 | _ => false end.
Definition x_numpy : text := [TMinus; TInt 1; TSlash; TInt 3; TStar; TId "x"; TStar; TLP; TId "y"; TStar; TId "y"; TRP; TSlash; TLP; TId "x"; TPlus; TId "y"; TRP;
  TMinus; TInt 1; TSlash; TInt 2; TStar; TId "numpy.sqrt"; TLP; TId "y"; TRP; TPlus; TId "f"; TLB; TInt 2; TRB]%string.
Example C70_example_text : print x_minus false Numpy x_e = Some x_numpy.
Proof. vm_compute. reflexivity. Qed.
Example C70_example : forall x y f, reads Rcalc (R_env x y f) x_numpy (value Rcalc (R_env x y f) x_e).
Proof. intros. apply (C70_value Rcalc (R_env x y f) (R_library x y f) x_minus false Numpy x_e x_numpy); [exact x_normal|exact I|apply C70_example_text]. Qed.
Example C70_example_value : forall x y f, (value Rcalc (R_env x y f) x_e = - (1 / 3) * x * y ^ 2 / (x + y) - / 2 * Rpow y (1 / 2) + f 2%nat)%R.
Proof.
  intros. unfold x_e. cbn [value map fold_right R_env e_var e_arr String.eqb Ascii.eqb Bool.eqb].
  unfold ratio, Rdiv. cbn [cK c_inv c_int c_pow Rcalc Rring radd rmul r0 r1 rar rcar]. change (/ 1)%R with (Rinv 1). rewrite Rinv_1, !Rmult_1_r.
  change 2%R with (IZR 2). rewrite (Rpow_IZR _ 2), (Rpow_IZR _ (-1)), int_part_IZR. cbn [powerRZ]. change (Z.to_nat 2) with 2%nat. change (Pos.to_nat 2) with 2%nat. change (Pos.to_nat 1) with 1%nat. rewrite !pow_1. rewrite Rplus_0_r. ring_simplify. lra.
Qed.

Print Assumptions C70_value.
Print Assumptions C70_unique.
Print Assumptions C70_backends.
Print Assumptions C70_numpy_total.
Print Assumptions C70_cython.
Print Assumptions C70_symbolic_exponent_refuted.
Print Assumptions C70_piecewise.
