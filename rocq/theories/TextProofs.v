(* Specification of the value of a text in Python, and lemmas on TextModel.v. *)
From Coq Require Import String.
From Verif Require Import PyBase LinAlg TextModel.
Open Scope Z_scope.
Open Scope ring_scope'.

(* ================= specification ================= *)
(* The numbers: a ring with an inverse, the integers, and the function pow of the library;
   the functions and the variables of the program. *)
Record calc := mkCalc {
  cK :> ring;
  c_inv : cK -> cK;
  c_int : Z -> cK;
  c_pow : cK -> cK -> cK;
  inv_one : c_inv 1 = 1;
  inv_mul : forall a b, c_inv (a * b) = c_inv a * c_inv b;
  int_one : c_int 1 = 1;
  int_opp : forall z, c_int (- z) = - c_int z;
  (* integer powers, and opposite powers *)
  pow_one : forall a, c_pow a 1 = a;
  pow_nat : forall a n, (1 <= n)%nat -> c_pow a (c_int (Z.of_nat (S n))) = c_pow a (c_int (Z.of_nat n)) * a;
  pow_opp : forall a p q, c_pow a (- (c_int p * c_inv (c_int (Zpos q)))) = c_inv (c_pow a (c_int p * c_inv (c_int (Zpos q))))
}.
Definition ratio (C : calc) (p : Z) (q : positive) : C := c_int C p * c_inv C (c_int C (Zpos q)).
Record env (C : calc) := mkEnv {
  e_var : string -> C;
  e_arr : string -> list (C + C * C) -> C;
  e_fun : string -> list C -> C
}.
(* the functions which the printers call for a power *)
Definition library (C : calc) (E : env C) : Prop := forall a b,
  e_fun C E "pow" [a; b] = c_pow C a b /\ e_fun C E "sqrt" [a] = c_pow C a (ratio C 1 2) /\ e_fun C E "numpy.sqrt" [a] = c_pow C a (ratio C 1 2).

(* the value of an expression *)
Section Value.
Variables (C : calc) (E : env C).
Fixpoint value (e : sexp) : C := match e with
  | Num p q => ratio C p q
  | Sym x => e_var C E x
  | Elem a ix => e_arr C E a (map (fun i => match i with Range l u => inr (value l, value u) | _ => inl (value i) end) ix)
  | Range l u => 0   (* not an expression *)
  | SAdd l => fold_right radd 0 (map value l)
  | SMul p q l => ratio C p q * fold_right rmul 1 (map value l)
  | SPow b x => c_pow C (value b) (value x)
  | SFn f l => e_fun C E f (map value l)
  end.

(* The grammar of Python: sums of products of signed powers.  sum ts v rest: the longest
   expression at the front of ts has the value v and is followed by rest. *)
Definition next (l : list tok) (ts : text) : bool := match ts with
  | t :: _ => match t with
      | TPlus => existsb (fun x => match x with TPlus => true | _ => false end) l
      | TMinus => existsb (fun x => match x with TMinus => true | _ => false end) l
      | TStar => existsb (fun x => match x with TStar => true | _ => false end) l
      | TSlash => existsb (fun x => match x with TSlash => true | _ => false end) l
      | TPow => existsb (fun x => match x with TPow => true | _ => false end) l
      | TLP => existsb (fun x => match x with TLP => true | _ => false end) l
      | TLB => existsb (fun x => match x with TLB => true | _ => false end) l
      | _ => false
      end
  | [] => false
  end.
Inductive sum : text -> C -> text -> Prop :=
| s_start ts a r v r' : prod ts a r -> sums a r v r' -> sum ts v r'
with sums : C -> text -> C -> text -> Prop :=
| s_end a ts : next [TPlus; TMinus] ts = false -> sums a ts a ts
| s_plus a ts b r v r' : prod ts b r -> sums (a + b) r v r' -> sums a (TPlus :: ts) v r'
| s_minus a ts b r v r' : prod ts b r -> sums (a - b) r v r' -> sums a (TMinus :: ts) v r'
with prod : text -> C -> text -> Prop :=
| p_start ts a r v r' : unary ts a r -> prods a r v r' -> prod ts v r'
with prods : C -> text -> C -> text -> Prop :=
| p_end a ts : next [TStar; TSlash] ts = false -> prods a ts a ts
| p_star a ts b r v r' : unary ts b r -> prods (a * b) r v r' -> prods a (TStar :: ts) v r'
| p_slash a ts b r v r' : unary ts b r -> prods (a * c_inv C b) r v r' -> prods a (TSlash :: ts) v r'
with unary : text -> C -> text -> Prop :=
| u_neg ts a r : unary ts a r -> unary (TMinus :: ts) (- a) r
| u_atom ts a r : atom ts a r -> next [TPow] r = false -> unary ts a r
| u_pow ts a r b r' : atom ts a (TPow :: r) -> unary r b r' -> unary ts (c_pow C a b) r'
with atom : text -> C -> text -> Prop :=
| a_int n r : atom (TInt n :: r) (c_int C n) r
| a_flo p q r : atom (TFlo p q :: r) (ratio C p q) r
| a_var x r : next [TLP; TLB] r = false -> atom (TId x :: r) (e_var C E x) r
| a_call f ts vs r : args ts vs r -> atom (TId f :: TLP :: ts) (e_fun C E f vs) r
| a_elem a ts vs r : items ts vs r -> atom (TId a :: TLB :: ts) (e_arr C E a vs) r
| a_paren ts v r : sum ts v (TRP :: r) -> atom (TLP :: ts) v r
with args : text -> list C -> text -> Prop :=
| g_last ts v r : sum ts v (TRP :: r) -> args ts [v] r
| g_more ts v r vs r' : sum ts v (TComma :: r) -> args r vs r' -> args ts (v :: vs) r'
with items : text -> list (C + C * C) -> text -> Prop :=
| i_last ts v r : item ts v (TRB :: r) -> items ts [v] r
| i_more ts v r vs r' : item ts v (TComma :: r) -> items r vs r' -> items ts (v :: vs) r'
with item : text -> (C + C * C) -> text -> Prop :=
| i_at ts v r : sum ts v r -> (forall r', r <> TColon :: r') -> item ts (inl v) r
| i_range ts v r w r' : sum ts v (TColon :: r) -> sum r w r' -> item ts (inr (v, w)) r'.
(* the whole text is an expression *)
Definition reads (ts : text) (v : C) : Prop := sum ts v [].
End Value.

(* What SymPy guarantees: no number or power to the power -1, no power 0, no empty sum or call;
   a range is an index. *)
Definition no_power (b : sexp) : Prop := match b with Num _ _ | SPow _ _ => False | _ => True end.
Definition no_range (e : sexp) : Prop := match e with Range _ _ => False | _ => True end.
Fixpoint normal (e : sexp) : Prop := match e with
  | Num _ _ | Sym _ => True
  | Elem _ ix => ix <> [] /\ (fix go (l : list sexp) := match l with [] => True | i :: l => normal i /\ go l end) ix
  | Range l u => (normal l /\ no_range l) /\ (normal u /\ no_range u)
  | SAdd l => l <> [] /\ (fix go (l : list sexp) := match l with [] => True | i :: l => (normal i /\ no_range i) /\ go l end) l
  | SMul _ _ l => (fix go (l : list sexp) := match l with [] => True | i :: l => (normal i /\ no_range i) /\ go l end) l
  | SPow b x => (normal b /\ no_range b) /\ (normal x /\ no_range x) /\ (x = Num (-1) 1 -> no_power b) /\ (forall q, x <> Num 0 q)
  | SFn _ l => l <> [] /\ (fix go (l : list sexp) := match l with [] => True | i :: l => (normal i /\ no_range i) /\ go l end) l
  end.

(* ================= one reading ================= *)
Section Unique.
Variables (C : calc) (E : env C).
Scheme sum_mut := Minimality for sum Sort Prop
 with sums_mut := Minimality for sums Sort Prop
 with prod_mut := Minimality for prod Sort Prop
 with prods_mut := Minimality for prods Sort Prop
 with unary_mut := Minimality for unary Sort Prop
 with atom_mut := Minimality for atom Sort Prop
 with args_mut := Minimality for args Sort Prop
 with items_mut := Minimality for items Sort Prop
 with item_mut := Minimality for item Sort Prop.
Combined Scheme reading_ind from sum_mut, sums_mut, prod_mut, prods_mut, unary_mut, atom_mut, args_mut, items_mut, item_mut.
Lemma atom_head : forall ts v r, atom C E ts v r -> forall ts', ts <> TMinus :: ts'.
Proof. destruct 1; discriminate. Qed.
Ltac ded IH := match goal with H : _ |- _ => let E := fresh "E" in pose proof (IH _ _ H) as E; clear H; destruct E as [? E]; first [discriminate E|injection E as ?; subst|subst] end.
Theorem one_reading : (forall ts v r, sum C E ts v r -> forall v' r', sum C E ts v' r' -> v = v' /\ r = r')
  /\ (forall a ts v r, sums C E a ts v r -> forall v' r', sums C E a ts v' r' -> v = v' /\ r = r')
  /\ (forall ts v r, prod C E ts v r -> forall v' r', prod C E ts v' r' -> v = v' /\ r = r')
  /\ (forall a ts v r, prods C E a ts v r -> forall v' r', prods C E a ts v' r' -> v = v' /\ r = r')
  /\ (forall ts v r, unary C E ts v r -> forall v' r', unary C E ts v' r' -> v = v' /\ r = r')
  /\ (forall ts v r, atom C E ts v r -> forall v' r', atom C E ts v' r' -> v = v' /\ r = r')
  /\ (forall ts v r, args C E ts v r -> forall v' r', args C E ts v' r' -> v = v' /\ r = r')
  /\ (forall ts v r, items C E ts v r -> forall v' r', items C E ts v' r' -> v = v' /\ r = r')
  /\ (forall ts v r, item C E ts v r -> forall v' r', item C E ts v' r' -> v = v' /\ r = r').
Proof.
  apply reading_ind.
  - intros ts a r v r' _ IH1 _ IH2 v2 r2 H. inversion H; subst. ded IH1. auto.
  - intros a ts N v2 r2 H. inversion H; subst; auto; discriminate.
  - intros a ts b r v r' _ IH1 _ IH2 v2 r2 H. inversion H; subst; [discriminate|]. ded IH1. auto.
  - intros a ts b r v r' _ IH1 _ IH2 v2 r2 H. inversion H; subst; [discriminate|]. ded IH1. auto.
  - intros ts a r v r' _ IH1 _ IH2 v2 r2 H. inversion H; subst. ded IH1. auto.
  - intros a ts N v2 r2 H. inversion H; subst; auto; discriminate.
  - intros a ts b r v r' _ IH1 _ IH2 v2 r2 H. inversion H; subst; [discriminate|]. ded IH1. auto.
  - intros a ts b r v r' _ IH1 _ IH2 v2 r2 H. inversion H; subst; [discriminate|]. ded IH1. auto.
  - intros ts a r _ IH v2 r2 H. inversion H; subst; try (exfalso; eapply atom_head; [eassumption|reflexivity]). ded IH. auto.
  - intros ts a r Ha IH N v2 r2 H. inversion H; subst; [exfalso; eapply atom_head; [exact Ha|reflexivity]|auto|]. clear H Ha. ded IH. discriminate.
  - intros ts a r b r' Ha IH1 _ IH2 v2 r2 H. inversion H; subst; clear H; [exfalso; eapply atom_head; [exact Ha|reflexivity]| |]; clear Ha; ded IH1; [discriminate|].
    ded IH2. auto.
  - intros n r v2 r2 H. inversion H; subst; auto.
  - intros p q r v2 r2 H. inversion H; subst; auto.
  - intros x r N v2 r2 H. inversion H; subst; auto; discriminate.
  - intros f ts vs r _ IH v2 r2 H. inversion H; subst; [discriminate|]. clear H. ded IH. auto.
  - intros f ts vs r _ IH v2 r2 H. inversion H; subst; [discriminate|]. clear H. ded IH. auto.
  - intros ts v r _ IH v2 r2 H. inversion H; subst. clear H. ded IH. auto.
  - intros ts v r _ IH v2 r2 H. inversion H; subst; clear H; ded IH; auto.
  - intros ts v r vs r' _ IH1 _ IH2 v2 r2 H. inversion H; subst; clear H; ded IH1. ded IH2. auto.
  - intros ts v r _ IH v2 r2 H. inversion H; subst; clear H; ded IH; auto.
  - intros ts v r vs r' _ IH1 _ IH2 v2 r2 H. inversion H; subst; clear H; ded IH1. ded IH2. auto.
  - intros ts v r _ IH N v2 r2 H. inversion H; subst; clear H; ded IH; auto. exfalso. eapply N; eauto.
  - intros ts v r w r' _ IH1 _ IH2 v2 r2 H. inversion H; subst; clear H; ded IH1; [exfalso; match goal with H : forall r', _ <> _ |- _ => eapply H; reflexivity end|].
    ded IH2. auto.
Qed.
End Unique.

(* ================= texts inside of texts ================= *)
Section Read.
Variables (C : calc) (E : env C).
Hypothesis L : library C E.
Add Ring Cring : (rth C).
Notation sum := (sum C E). Notation sums := (sums C E). Notation prod := (prod C E). Notation prods := (prods C E).
Notation unary := (unary C E). Notation atom := (atom C E). Notation args := (args C E). Notation items := (items C E). Notation item := (item C E).
Notation value := (value C E). Notation ratio := (ratio C). Notation inv := (c_inv C). Notation pow := (c_pow C). Notation int := (c_int C).

Definition safe (r : text) : Prop := next [TPow; TLP; TLB] r = false.
Definition ender (r : text) : Prop := next [TPow; TLP; TLB; TStar; TSlash] r = false.
Lemma ender_safe : forall r, ender r -> safe r.
Proof. unfold ender, safe. destruct r as [|[]]; cbn; auto. Qed.
Lemma ender_prod : forall r, ender r -> next [TStar; TSlash] r = false.
Proof. unfold ender. destruct r as [|[]]; cbn; auto. Qed.
Lemma safe_pow : forall r, safe r -> next [TPow] r = false.
Proof. unfold safe. destruct r as [|[]]; cbn; auto. Qed.
Lemma safe_call : forall r, safe r -> next [TLP; TLB] r = false.
Proof. unfold safe. destruct r as [|[]]; cbn; auto. Qed.

Definition atomP (t : text) (v : C) := forall r, next [TLP; TLB] r = false -> atom (t ++ r) v r.
Definition unaryW (t : text) (v : C) := forall r, safe r -> unary (t ++ r) v r.
Definition unaryP (t : text) (v : C) := t <> [] /\ unaryW t v /\ (forall u, t = TMinus :: u -> unaryW u (- v)).
Definition contP (t : text) (m : C) := (forall r, safe r -> safe (t ++ r)) /\ forall a r c r', safe r -> prods (a * m) r c r' -> prods a (t ++ r) c r'.
Definition prodP (t : text) (v : C) := exists u k w m, t = u ++ k /\ unaryP u w /\ contP k m /\ v = w * m.
Definition prodW (t : text) (v : C) := exists u k w m, t = u ++ k /\ unaryW u w /\ contP k m /\ v = w * m.
Definition sumP (t : text) (v : C) := forall r c r', ender r -> sums v r c r' -> sum (t ++ r) c r'.

Lemma atom_not : forall t v, atomP t v -> t <> [] /\ forall u, t <> TMinus :: u.
Proof.
  intros t v H. specialize (H [] eq_refl). rewrite app_nil_r in H. split; [|eapply atom_head; eauto]. intros ->. inversion H.
Qed.
Lemma atom_unary : forall t v, atomP t v -> unaryP t v.
Proof.
  intros t v H. destruct (atom_not t v H) as [H1 H2]. split; [exact H1|split].
  - intros r Hr. apply u_atom; [apply H; now apply safe_call|now apply safe_pow].
  - intros u ->. exfalso. now apply (H2 u).
Qed.
Lemma cont_nil : contP [] 1.
Proof. split; auto. intros a r c r' _ H. cbn. replace (a * 1) with a in H by ring. exact H. Qed.
Lemma unary_prod : forall t v, unaryP t v -> prodP t v.
Proof. intros t v H. exists t, [], v, 1. rewrite app_nil_r. split; [auto|split; [auto|split; [exact cont_nil|ring]]]. Qed.
Lemma prod_weak : forall t v, prodP t v -> prodW t v.
Proof. intros t v (u & k & w & m & H1 & H2 & H3 & H4). exists u, k, w, m. repeat split; auto; [apply H2|apply H3|apply H3]. Qed.
Lemma prod_prod : forall t v r, prodW t v -> ender r -> prod (t ++ r) v r.
Proof.
  intros t v r (u & k & w & m & -> & H2 & [H3 H4] & ->) Hr. rewrite <- app_assoc. apply (p_start C E _ w (k ++ r)).
  - apply H2, H3, ender_safe, Hr.
  - apply H4; [now apply ender_safe|]. apply p_end. now apply ender_prod.
Qed.
Lemma prod_sum : forall t v, prodP t v -> sumP t v.
Proof. intros t v H r c r' Hr Hs. apply (s_start C E _ v r); auto. apply prod_prod; auto. now apply prod_weak. Qed.
Lemma prod_strip : forall t v, prodP (TMinus :: t) v -> prodW t (- v).
Proof.
  intros t v (u & k & w & m & H1 & (Hn & _ & Hu) & H3 & ->). destruct u as [|x u]; [contradiction|]. cbn in H1. injection H1 as <- ->.
  exists u, k, (- w), m. split; [reflexivity|]. split; [now apply Hu|]. split; [exact H3|ring].
Qed.
Lemma unary_neg : forall t v, unaryP t v -> unaryP (TMinus :: t) (- v).
Proof.
  intros t v (H1 & H2 & H3). split; [discriminate|split].
  - intros r Hr. cbn. apply u_neg. now apply H2.
  - intros u [= <-]. replace (- - v) with v by ring. exact H2.
Qed.
Lemma prod_neg : forall t v, prodP t v -> prodP (TMinus :: t) (- v).
Proof.
  intros t v (u & k & w & m & -> & H2 & H3 & ->). exists (TMinus :: u), k, (- w), m. split; [reflexivity|]. split; [now apply unary_neg|]. split; [auto|ring].
Qed.
Lemma cont_cont : forall s t m n, contP s m -> contP t n -> contP (s ++ t) (m * n).
Proof.
  intros s t m n [H1 H2] [H3 H4]. split; intros.
  - rewrite <- app_assoc. auto.
  - rewrite <- app_assoc. apply H2; auto. apply H4; auto. replace (a * m * n) with (a * (m * n)) by ring. exact H0.
Qed.
Lemma cont_star : forall t v, unaryP t v -> contP (TStar :: t) v.
Proof. intros t v (_ & H & _). split; [reflexivity|]. intros a r c r' Hr Hp. cbn. eapply p_star; [now apply H|exact Hp]. Qed.
Lemma cont_slash : forall t v, unaryP t v -> contP (TSlash :: t) (inv v).
Proof. intros t v (_ & H & _). split; [reflexivity|]. intros a r c r' Hr Hp. cbn. eapply p_slash; [now apply H|exact Hp]. Qed.
Lemma prod_cont : forall t v k m, prodP t v -> contP k m -> prodP (t ++ k) (v * m).
Proof.
  intros t v k m (u & k0 & w & m0 & -> & H2 & H3 & ->) Hk. exists u, (k0 ++ k), w, (m0 * m). split; [now rewrite app_assoc|]. split; [auto|]. split; [now apply cont_cont|ring].
Qed.
Lemma prod_star : forall s v t w, prodP s v -> prodP t w -> prodP (s ++ TStar :: t) (v * w).
Proof.
  intros s v t w Hs (u & k & x & m & -> & H2 & H3 & ->). change (s ++ TStar :: u ++ k) with (s ++ (TStar :: u) ++ k). apply prod_cont; auto.
  apply cont_cont; auto. now apply cont_star.
Qed.
Lemma prod_slash : forall s v t w, prodP s v -> unaryP t w -> prodP (s ++ TSlash :: t) (v * inv w).
Proof. intros. apply prod_cont; auto. now apply cont_slash. Qed.
Lemma prod_join : forall ts vs, Forall2 prodP ts vs -> ts <> [] -> prodP (join [TStar] ts) (fold_right rmul 1 vs).
Proof.
  induction 1 as [|t v ts vs H1 H2 IH]; intros N; [contradiction|]. cbn [fold_right]. destruct H2 as [|t2 v2 ts vs H2 H3].
  - cbn [join fold_right]. replace (v * 1) with v by ring. exact H1.
  - change (join [TStar] (t :: t2 :: ts)) with (t ++ TStar :: join [TStar] (t2 :: ts)). apply prod_star; auto. apply IH. discriminate.
Qed.
Lemma sum_atom : forall t v, sumP t v -> atomP (between t) v.
Proof. intros t v H r Hr. unfold between. cbn. rewrite <- app_assoc. apply a_paren. apply H; [reflexivity|]. apply s_end. reflexivity. Qed.

(* calls and elements *)
Lemma args_join : forall ts vs, Forall2 sumP ts vs -> ts <> [] -> forall r, args (join [TComma] ts ++ TRP :: r) vs r.
Proof.
  induction 1 as [|t v ts vs H1 H2 IH]; intros N r; [contradiction|]. destruct H2 as [|t2 v2 ts vs H2 H3].
  - cbn [join]. apply g_last. apply H1; [reflexivity|]. now apply s_end.
  - change (join [TComma] (t :: t2 :: ts)) with (t ++ TComma :: join [TComma] (t2 :: ts)). rewrite <- app_assoc. cbn [app].
    eapply g_more; [|apply IH; discriminate]. apply H1; [reflexivity|]. now apply s_end.
Qed.
Lemma call_atom : forall f ts vs, Forall2 sumP ts vs -> ts <> [] -> atomP (call f ts) (e_fun C E f vs).
Proof. intros f ts vs H N r Hr. unfold call. cbn [app]. rewrite <- app_assoc. apply a_call. now apply args_join. Qed.
Definition itemP (t : text) (v : C + C * C) := forall r, next [] r = false -> ender r -> next [TPlus; TMinus] r = false -> (forall r', r <> TColon :: r') -> item (t ++ r) v r.
Lemma items_join : forall ts vs, Forall2 itemP ts vs -> ts <> [] -> forall r, items (join [TComma] ts ++ TRB :: r) vs r.
Proof.
  induction 1 as [|t v ts vs H1 H2 IH]; intros N r; [contradiction|]. destruct H2 as [|t2 v2 ts vs H2 H3].
  - cbn [join]. apply i_last. apply H1; try reflexivity. discriminate.
  - change (join [TComma] (t :: t2 :: ts)) with (t ++ TComma :: join [TComma] (t2 :: ts)). rewrite <- app_assoc. cbn [app].
    eapply i_more; [|apply IH; discriminate]. apply H1; try reflexivity. discriminate.
Qed.
Lemma sum_item : forall t v, sumP t v -> itemP t (inl v).
Proof. intros t v H r _ H1 H2 H3. apply i_at; auto. apply H; auto. now apply s_end. Qed.
Lemma sum_range : forall t v u w, sumP t v -> sumP u w -> itemP (t ++ TColon :: u) (inr (v, w)).
Proof.
  intros t v u w H1 H2 r _ Hr Hs _. rewrite <- app_assoc. cbn [app]. eapply i_range; [apply H1; [reflexivity|now apply s_end]|]. apply H2; auto. now apply s_end.
Qed.

(* ---- numbers ---- *)
Lemma ratio_int : forall p, ratio p 1 = int p.
Proof. intros. unfold TextProofs.ratio. rewrite int_one, inv_one. ring. Qed.
Lemma ratio_opp : forall p q, ratio (- p) q = - ratio p q.
Proof. intros. unfold TextProofs.ratio. rewrite int_opp. ring. Qed.
Lemma ratio_abs : forall p q, ratio p q = if p <? 0 then - ratio (Z.abs p) q else ratio (Z.abs p) q.
Proof. intros. destruct (Z.ltb_spec p 0); [rewrite <- ratio_opp|]; f_equal; lia. Qed.
Lemma pow_neg : forall a p q, pow a (ratio p q) = inv (pow a (ratio (- p) q)).
Proof.
  intros. pose proof (pow_opp C a (- p) q) as H. change (pow a (- ratio (- p) q) = inv (pow a (ratio (- p) q))) in H. rewrite <- H, ratio_opp. f_equal. ring.
Qed.
Lemma pow_minus_one : forall a, pow a (ratio (-1) 1) = inv a.
Proof. intros. rewrite pow_neg. cbn [Z.opp]. rewrite ratio_int, int_one, pow_one. reflexivity. Qed.
Lemma pos_text : forall be p q, 0 <= p -> num_text be p q = if Pos.eqb q 1 then [TInt p] else match be with Cython => [TFlo p q] | Numpy => [TInt p; TSlash; TInt (Zpos q)] end.
Proof. intros. unfold num_text. rewrite Z.abs_eq by lia. destruct (Z.ltb_spec p 0); [lia|reflexivity]. Qed.
Lemma int_atom : forall n, atomP [TInt n] (int n).
Proof. intros n r _. apply a_int. Qed.
Lemma flo_atom : forall p q, atomP [TFlo p q] (ratio p q).
Proof. intros p q r _. apply a_flo. Qed.
Lemma pos_prod : forall be p q, 0 <= p -> prodP (num_text be p q) (ratio p q).
Proof.
  intros. rewrite pos_text by auto. destruct (Pos.eqb_spec q 1) as [->|].
  - rewrite ratio_int. apply unary_prod, atom_unary, int_atom.
  - destruct be; [apply unary_prod, atom_unary, flo_atom|]. apply (prod_slash [TInt p] (int p) [TInt (Zpos q)]); [apply unary_prod|]; apply atom_unary, int_atom.
Qed.
Lemma num_prod : forall be p q, prodP (num_text be p q) (ratio p q).
Proof.
  intros. destruct (Z.ltb_spec p 0) as [H|H]; [|now apply pos_prod]. unfold num_text. rewrite ratio_abs. destruct (Z.ltb_spec p 0); [|lia]. cbn [app].
  apply prod_neg. pose proof (pos_prod be (Z.abs p) q ltac:(lia)) as P. unfold num_text in P. rewrite (Z.abs_eq (Z.abs p)) in P by lia.
  destruct (Z.ltb_spec (Z.abs p) 0); [lia|]. exact P.
Qed.

(* ---- the printers ---- *)
Variables (minus : sexp -> bool) (half_eq : bool) (be : backend).
Notation print := (print minus half_eq be). Notation prec := (prec minus). Notation paren := (paren minus).
Notation pow_text := (pow_text minus half_eq be). Notation den_text := (den_text minus half_eq be).
(* the powers which are printed as a quotient *)
Definition special (e : sexp) : bool := match e with SPow _ x => is_num (-1) 1 x || is_num (-1) 2 x | _ => false end.
Definition fine (e : sexp) (t : text) : Prop := sumP t (value e) /\ (is_add e = false -> prodP t (value e)) /\
  (50 < prec e -> special e = false -> unaryP t (value e)) /\ (60 < prec e -> atomP t (value e)).
Lemma atom_fine : forall e t, atomP t (value e) -> fine e t.
Proof. intros e t H. pose proof (atom_unary _ _ H). pose proof (unary_prod _ _ H0). split; [now apply prod_sum|]. auto. Qed.
Lemma paren_sum : forall l e t, fine e t -> sumP (paren l e t) (value e).
Proof. intros l e t (H & _). unfold TextModel.paren. destruct (prec e <=? l); auto. apply prod_sum, unary_prod, atom_unary, sum_atom, H. Qed.
Lemma paren_prod : forall l e t, 40 <= l -> fine e t -> prodP (paren l e t) (value e).
Proof.
  intros l e t Hl (H & H1 & _). unfold TextModel.paren. destruct (Z.leb_spec (prec e) l); [apply unary_prod, atom_unary, sum_atom, H|].
  apply H1. destruct e; auto. cbn in H0. lia.
Qed.
Lemma prec_cases : forall e, prec e = 40 \/ prec e = 50 \/ prec e = 60 \/ prec e = 70 \/ prec e = 1000.
Proof. intros. destruct e; cbn; repeat match goal with |- context [if ?b then _ else _] => destruct b end; clear; lia. Qed.
Lemma paren_atom : forall e t, fine e t -> atomP (paren 60 e t) (value e).
Proof.
  intros e t (H & H1 & H2 & H3). unfold TextModel.paren. destruct (Z.leb_spec (prec e) 60); [apply sum_atom, H|]. now apply H3.
Qed.
Lemma power_prod : forall t v n s, prodP t v -> prodP (t ++ flat_map (fun _ => TStar :: t) (seq s n)) (pow v (int (Z.of_nat (S n)))).
Proof.
  intros t v n s H. revert s. induction n; intros s.
  - cbn [seq flat_map]. rewrite app_nil_r. change (Z.of_nat 1) with 1%Z. rewrite int_one, pow_one. exact H.
  - rewrite seq_S, flat_map_app. cbn [flat_map]. rewrite app_nil_r, app_assoc. rewrite pow_nat by lia. apply prod_star; auto.
Qed.
Lemma power_atom : forall n t v, (1 <= n)%nat -> atomP t v -> atomP (power n t) (pow v (int (Z.of_nat n))).
Proof.
  intros n t v Hn H. unfold power. apply sum_atom, prod_sum. destruct n; [lia|]. cbn [Nat.sub]. rewrite Nat.sub_0_r. apply power_prod. now apply unary_prod, atom_unary.
Qed.
Lemma starstar : forall t v u w, atomP t v -> atomP u w -> unaryP (t ++ TPow :: u) (pow v w).
Proof.
  intros t v u w Ht Hu. destruct (atom_not _ _ Ht) as [N1 N2]. split; [destruct t; discriminate|split].
  - intros r Hr. rewrite <- app_assoc. cbn [app]. eapply u_pow; [apply Ht; reflexivity|]. destruct (atom_unary _ _ Hu) as (_ & H & _). now apply H.
  - intros x X. destruct t as [|k t]; [contradiction|]. cbn in X. injection X as -> _. exfalso. now apply (N2 t).
Qed.
Lemma between_neg : forall p q, atomP (between [TMinus; TFlo p q]) (- ratio p q).
Proof. intros. apply sum_atom, prod_sum, (prod_neg [TFlo p q]), unary_prod, atom_unary, flo_atom. Qed.
Lemma lib_sqrt : forall f t v, (f = "sqrt" \/ f = "numpy.sqrt")%string -> sumP t v -> atomP (call f [t]) (pow v (ratio 1 2)).
Proof.
  intros f t v Hf H. assert (X : e_fun C E f [v] = pow v (ratio 1 2)) by (destruct (L v v) as (_ & L1 & L2); destruct Hf; subst; auto).
  rewrite <- X. apply call_atom; [repeat constructor; exact H|discriminate].
Qed.
Lemma lib_pow : forall t v u w, sumP t v -> sumP u w -> atomP (call "pow" [t; u]) (pow v w).
Proof.
  intros t v u w H1 H2. destruct (L v w) as (<- & _). apply call_atom; [repeat constructor; auto|discriminate].
Qed.
Lemma is_num_spec : forall p q x, is_num p q x = true -> x = Num p q.
Proof. intros p q x H. destruct x; try discriminate. cbn in H. apply andb_true_iff in H. destruct H as [H1 H2]. apply Z.eqb_eq in H1. apply Pos.eqb_eq in H2. now subst. Qed.

(* a power: the quotients are products, the others are powers *)
Lemma pow_fine : forall b tb x tx t, fine b tb -> fine x tx -> (forall q, x <> Num 0 q) -> pow_text b tb x tx = Some t ->
  prodP t (pow (value b) (value x)) /\ (special (SPow b x) = false -> unaryP t (pow (value b) (value x))).
Proof.
  intros b tb x tx t Hb Hx H0 H.
  assert (A : forall t, atomP t (pow (value b) (value x)) -> prodP t (pow (value b) (value x)) /\ (special (SPow b x) = false -> unaryP t (pow (value b) (value x)))).
  { intros t' Ha. split; [|intros _]; [apply unary_prod|]; now apply atom_unary. }
  assert (U : forall t, unaryP t (pow (value b) (value x)) -> prodP t (pow (value b) (value x)) /\ (special (SPow b x) = false -> unaryP t (pow (value b) (value x)))).
  { intros t' Ha. split; auto. now apply unary_prod. }
  pose proof (paren_atom b tb Hb) as Pb. pose proof (proj1 Hb) as Sb. pose proof (proj1 Hx) as Sx.
  assert (N : forall p, 0 < p -> x = Num p 1 -> atomP (power (Z.to_nat p) (paren 60 b tb)) (pow (value b) (value x))).
  { intros p Hp ->. cbn [TextProofs.value]. rewrite ratio_int. rewrite <- (Z2Nat.id p) at 2 by lia. apply power_atom; auto. lia. }
  unfold TextModel.pow_text in H. destruct be.
  - destruct (is_num (-1) 1 x) eqn:E1.
    + apply is_num_spec in E1. subst x. injection H as <-. split; [|discriminate]. cbn [TextProofs.value]. rewrite pow_minus_one.
      assert (X : inv (value b) = ratio 1 1 * inv (value b)) by (rewrite ratio_int, int_one; ring). rewrite X.
      apply (prod_slash [TFlo 1 1]); [apply unary_prod, atom_unary, flo_atom|now apply atom_unary].
    + destruct (half_eq && is_num 1 2 x) eqn:E2.
      * apply andb_true_iff in E2. destruct E2 as [_ E2]. apply is_num_spec in E2. subst x. injection H as <-. apply A. apply lib_sqrt; auto.
      * destruct x; try discriminate. destruct ((0 <? p) && (q =? 1)%positive) eqn:E3; injection H as <-.
        -- apply andb_true_iff in E3. destruct E3 as [E3 E4]. apply Z.ltb_lt in E3. apply Pos.eqb_eq in E4. subst q. apply A. now apply N.
        -- apply A. now apply lib_pow.
  - assert (G : forall t, Some (paren 60 b tb ++ TPow :: paren 60 x tx) = Some t -> prodP t (pow (value b) (value x)) /\ (special (SPow b x) = false -> unaryP t (pow (value b) (value x)))).
    { intros t' [= <-]. apply U. apply starstar; auto. now apply paren_atom. }
    destruct x; try (now apply G).
    destruct (Pos.eqb_spec q 1) as [->|Hq].
    + destruct (Z.ltb_spec p 0) as [Hp|Hp]; injection H as <-.
      * apply U. apply starstar; auto. cbn [TextProofs.value]. rewrite ratio_abs. destruct (Z.ltb_spec p 0); [|lia]. apply between_neg.
      * apply A. apply N; auto. destruct (Z.eq_dec p 0) as [->|]; [exfalso; now apply (H0 1%positive)|lia].
    + destruct (is_num 1 2 (Num p q)) eqn:E2; [apply is_num_spec in E2; injection E2 as -> ->; injection H as <-; apply A; apply lib_sqrt; auto|].
      destruct (is_num (-1) 2 (Num p q)) eqn:E3; [|now apply G]. apply is_num_spec in E3. injection E3 as -> ->. injection H as <-. split; [|discriminate].
      cbn [TextProofs.value]. rewrite pow_neg. cbn [Z.opp].
      assert (X : inv (pow (value b) (ratio 1 2)) = int 1 * inv (pow (value b) (ratio 1 2))) by (rewrite int_one; ring). rewrite X.
      apply (prod_slash [TInt 1]); [apply unary_prod, atom_unary, int_atom|]. apply atom_unary. apply lib_sqrt; auto.
Qed.

(* ---- sums ---- *)
Lemma signed_spec : forall e t, fine e t ->
  prodW (snd (signed (is_add e) t)) (if fst (signed (is_add e) t) then - value e else value e) /\
  prodP ((if fst (signed (is_add e) t) then [TMinus] else []) ++ snd (signed (is_add e) t)) (value e).
Proof.
  intros e t (H1 & H2 & _). assert (B : prodP (between t) (value e)) by now apply unary_prod, atom_unary, sum_atom.
  destruct (is_add e).
  - assert (X : signed true t = (false, between t)) by (destruct t as [|[]]; reflexivity). rewrite X. cbn [fst snd app]. split; auto. now apply prod_weak.
  - specialize (H2 eq_refl). assert (X : signed false t = (false, t) \/ exists r, t = TMinus :: r /\ signed false t = (true, r)).
    { destruct t as [|[] t]; auto. right. exists t. auto. }
    destruct X as [->|(r & -> & ->)]; cbn [fst snd app]; split; auto; [now apply prod_weak|now apply prod_strip].
Qed.
Definition term (p : bool * text) (v : C) : Prop := prodW (snd p) (if fst p then - v else v).
Notation rest_text := (flat_map (fun p : bool * text => (if fst p then TMinus else TPlus) :: snd p)).
Lemma rest_ender : forall l r, ender r -> ender (rest_text l ++ r).
Proof. intros [|[[] t] l] r H; auto; reflexivity. Qed.
Lemma rest_sums : forall l vs, Forall2 term l vs -> forall a r c r', ender r -> sums (a + fold_right radd 0 vs) r c r' -> sums a (rest_text l ++ r) c r'.
Proof.
  induction 1 as [|[s t] v l vs H1 H2 IH]; intros a r c r' Hr Hs.
  - cbn in *. replace (a + 0) with a in Hs by ring. exact Hs.
  - unfold term in H1. cbn [flat_map fst snd fold_right] in *. destruct s; cbn [app]; rewrite <- app_assoc.
    + eapply s_minus; [apply prod_prod; [exact H1|now apply rest_ender]|]. apply IH; auto. replace (a - - v + fold_right radd 0 vs) with (a + (v + fold_right radd 0 vs)) by ring. exact Hs.
    + eapply s_plus; [apply prod_prod; [exact H1|now apply rest_ender]|]. apply IH; auto. replace (a + v + fold_right radd 0 vs) with (a + (v + fold_right radd 0 vs)) by ring. exact Hs.
Qed.
Lemma add_sum : forall l es, Forall2 (fun p e => fst p = is_add e /\ fine e (snd p)) l es -> es <> [] -> sumP (add_text l) (fold_right radd 0 (map value es)).
Proof.
  intros l es H N. destruct H as [|[b t] e l es [Hb H1] H2]; [contradiction|]. cbn in Hb, H1. subst b. unfold add_text. cbn [map fst snd].
  pose proof (signed_spec e t H1) as [_ S]. destruct (signed (is_add e) t) as [s u]. cbn [fst snd] in S.
  assert (F : Forall2 term (map (fun p => signed (fst p) (snd p)) l) (map value es)).
  { clear -H2. induction H2 as [|[b t] e l es [Hb H1] H2 IH]; constructor; auto. cbn in Hb. subst b. apply (signed_spec e t H1). }
  intros r c r' Hr Hs. rewrite app_assoc, <- (app_assoc _ _ r). cbn [fold_right] in Hs.
  eapply s_start; [apply prod_prod; [apply prod_weak, S|now apply rest_ender]|]. eapply rest_sums; eauto.
Qed.

(* ---- products ---- *)
Notation product := (fold_right rmul 1).
Lemma product_app : forall a b : list C, product (a ++ b) = product a * product b.
Proof. induction a; intros; cbn [app fold_right]; [ring|]. rewrite IHa. ring. Qed.
Lemma all_app : forall A (a b : list (option A)) l, all (a ++ b) = Some l -> exists x y, all a = Some x /\ all b = Some y /\ l = x ++ y.
Proof.
  induction a as [|[u|] a IH]; intros b l H; cbn in H; [exists [], l; auto| |discriminate].
  destruct (all (a ++ b)) as [l'|] eqn:Q; [|discriminate]. injection H as <-. destruct (IH b l' Q) as (x & y & H1 & H2 & ->). exists (u :: x), y. cbn. rewrite H1. auto.
Qed.
Lemma num_fine : forall p q, fine (Num p q) (num_text be p q).
Proof.
  intros. pose proof (num_prod be p q) as P. split; [now apply prod_sum|]. split; [auto|].
  assert (A : 50 < prec (Num p q) -> atomP (num_text be p q) (value (Num p q))).
  { cbn [TextModel.prec TextProofs.value]. destruct (Z.ltb_spec p 0); [intros X; lia|]. destruct (Pos.eqb_spec q 1) as [->|]; intros X; [|lia]. rewrite pos_text by auto. rewrite ratio_int. apply int_atom. }
  split; [intros H _; now apply atom_unary, A|]. intros H. apply A. clear -H. lia.
Qed.
Lemma nums_spec : forall la l nums, 40 <= la -> Forall (fun f => forall t, print f = Some t -> fine f t) l ->
  all (flat_map (fun f => if is_den f then [] else [option_map (paren la f) (print f)]) l) = Some nums ->
  Forall2 prodP nums (map value (filter (fun f => negb (is_den f)) l)).
Proof.
  intros la l nums Hl F. revert nums. induction F as [|f l Hf F IH]; intros nums H; cbn [flat_map] in H.
  - injection H as <-. constructor.
  - apply all_app in H. destruct H as (x & y & H1 & H2 & ->). cbn [filter]. destruct (is_den f); cbn [negb].
    + injection H1 as <-. now apply IH.
    + cbn [all] in H1. destruct (print f) as [t|] eqn:Ep; [|discriminate]. cbn [option_map] in H1. injection H1 as <-. cbn [app map]. constructor; auto. apply paren_prod; auto.
Qed.
(* a factor in the denominator *)
Lemma den_spec : forall level b tb p q t, (level = 40 \/ level = 50) -> fine b tb -> p < 0 -> (Num p q = Num (-1) 1 -> no_power b) ->
  den_text level b tb p q = Some t -> exists d, unaryP t d /\ pow (value b) (ratio p q) = inv d.
Proof.
  intros level b tb p q t Hl Hb Hp Hn H. unfold TextModel.den_text in H. destruct ((p =? -1) && (q =? 1)%positive) eqn:E1.
  - apply andb_true_iff in E1. destruct E1 as [E1 E2]. apply Z.eqb_eq in E1. apply Pos.eqb_eq in E2. subst p q. specialize (Hn eq_refl). injection H as <-.
    exists (value b). split; [|apply pow_minus_one]. apply atom_unary. destruct (is_mul b) eqn:Em.
    + apply sum_atom. now apply paren_sum.
    + destruct Hb as (H1 & _ & _ & H4). unfold TextModel.paren. destruct (Z.leb_spec (prec b) level); [now apply sum_atom|]. apply H4.
      destruct b; try discriminate; try contradiction; cbn in *; lia.
  - destruct (pow_text b tb (Num (- p) q) (num_text be (- p) q)) as [u|] eqn:E2; [|discriminate]. injection H as <-.
    pose proof (pow_fine b tb (Num (- p) q) _ u Hb (num_fine (- p) q) ltac:(intros q' [= X _]; clear -X Hp; lia) E2) as [_ U].
    exists (pow (value b) (ratio (- p) q)). split; [|apply pow_neg].
    unfold TextModel.paren. change (prec (SPow b (Num (- p) q))) with 60. destruct (Z.leb_spec 60 level); [destruct Hl; lia|]. apply U.
    cbn. destruct p; try lia. reflexivity.
Qed.
Definition base_fine (f : sexp) : Prop := match f with
  | SPow b x => (forall tb, print b = Some tb -> fine b tb) /\ (x = Num (-1) 1 -> no_power b)
  | _ => True
  end.
Lemma dens_spec : forall level l dens, (level = 40 \/ level = 50) -> Forall base_fine l ->
  all (flat_map (fun f => match f with
                          | SPow b (Num p q) => if p <? 0 then match print b with Some tb => [den_text level b tb p q] | None => [None] end else []
                          | _ => []
                          end) l) = Some dens ->
  exists ds, Forall2 unaryP dens ds /\ product (map value l) = product (map value (filter (fun f => negb (is_den f)) l)) * inv (product ds).
Proof.
  intros level l dens Hl F. revert dens. induction F as [|f l Hf F IH]; intros dens H; cbn [flat_map] in H.
  - injection H as <-. exists []. split; [constructor|]. cbn. rewrite inv_one. ring.
  - apply all_app in H. destruct H as (x & y & H1 & H2 & ->). destruct (IH y H2) as (ds & I1 & I2). cbn [map fold_right filter].
    assert (K : is_den f = false -> x = [] -> exists ds, Forall2 unaryP (x ++ y) ds /\
      value f * product (map value l) = product (map value (if negb (is_den f) then f :: filter (fun f => negb (is_den f)) l else filter (fun f => negb (is_den f)) l)) * inv (product ds)).
    { intros -> ->. exists ds. split; auto. cbn [negb map fold_right]. rewrite I2. ring. }
    destruct f as [| | | | | |b e|]; try (apply K; [reflexivity|injection H1 as <-; reflexivity]).
    destruct e as [p q| | | | | | |]; try (apply K; [reflexivity|injection H1 as <-; reflexivity]).
    cbn [is_den] in *. destruct (Z.ltb_spec p 0) as [Hp|Hp]; [|apply K; [reflexivity|injection H1 as <-; reflexivity]]. cbn [negb].
    destruct Hf as [Hb Hn]. destruct (print b) as [tb|] eqn:Eb; [|discriminate]. cbn [all] in H1. destruct (den_text level b tb p q) as [t|] eqn:Et; [|discriminate]. injection H1 as <-.
    destruct (den_spec level b tb p q t Hl (Hb tb eq_refl) Hp Hn Et) as (d & U & V).
    exists (d :: ds). split; [now constructor|]. cbn [fold_right TextProofs.value]. rewrite V, I2, inv_mul. ring.
Qed.
Lemma mul_prod : forall neg nums ns dens ds, Forall2 prodP nums ns -> nums <> [] -> Forall2 unaryP dens ds ->
  prodP (mul_text neg nums dens) (if neg then - (product ns * inv (product ds)) else product ns * inv (product ds)).
Proof.
  intros neg nums ns dens ds Hn N Hd. unfold mul_text. pose proof (prod_join nums ns Hn N) as P. set (t := join [TStar] nums) in *. clearbody t.
  assert (Q : prodP (t ++ match dens with [] => [] | [u] => TSlash :: u | _ => TSlash :: between (join [TStar] dens) end) (product ns * inv (product ds))).
  { assert (J : dens <> [] -> prodP (join [TStar] dens) (product ds)).
    { intros D. apply prod_join; auto. clear -Hd. induction Hd; constructor; auto. now apply unary_prod. }
    destruct Hd as [|u d dens ds Hu Hd].
    - cbn. rewrite inv_one, app_nil_r. replace (product ns * 1) with (product ns) by ring. exact P.
    - specialize (J ltac:(discriminate)). destruct Hd as [|u2 d2 dens ds Hu2 Hd].
      + cbn [fold_right] in *. replace (d * 1) with d by ring. now apply prod_slash.
      + apply prod_slash; auto. now apply atom_unary, sum_atom, prod_sum. }
  destruct neg; cbn [app]; [now apply prod_neg|exact Q].
Qed.
Lemma mul_fine : forall p q l t, Forall (fun f => forall t, print f = Some t -> fine f t) l -> Forall base_fine l -> print (SMul p q l) = Some t -> fine (SMul p q l) t.
Proof.
  intros p q l t F1 F2 H. set (e := SMul p q l) in *.
  assert (Hl : prec e = 40 \/ prec e = 50) by (unfold e; cbn [TextModel.prec]; destruct (minus (SMul p q l)); auto).
  assert (G : prodP t (value e)).
  { cbn [TextModel.print e] in H. fold e in H.
    set (kept := filter (fun f => negb (is_den f)) l) in *.
    set (la := num_level (prec e) (p <? 0) (length match coefficient p q ++ kept with [] => [Num 1 1] | a => a end)) in *.
    assert (La : 40 <= la) by (unfold la, num_level; destruct ((p <? 0) && _); lia). clearbody la.
    destruct (all (flat_map (fun f => if is_den f then [] else [option_map (paren la f) (print f)]) l)) as [nums|] eqn:En; [|discriminate].
    match type of H with match ?a with _ => _ end = _ => destruct a as [dens|] eqn:Ed end; [|discriminate]. injection H as <-.
    pose proof (nums_spec la l nums La F1 En) as Hn. fold kept in Hn. destruct (dens_spec (prec e) l dens Hl F2 Ed) as (ds & Hd & V). fold kept in V.
    set (first := match coefficient p q with [] => match kept with [] => [[TInt 1]] | _ => [] end | c :: _ => [paren la c (num_text be (Z.abs p) q)] end).
    assert (Hf : exists fs, Forall2 prodP first fs /\ product fs = ratio (Z.abs p) q).
    { unfold first, coefficient. destruct ((Z.abs p =? 1) && (q =? 1)%positive) eqn:E1.
      - apply andb_true_iff in E1. destruct E1 as [E1 E2]. apply Z.eqb_eq in E1. apply Pos.eqb_eq in E2. rewrite E1, E2, ratio_int, int_one. destruct kept.
        + exists [int 1]. split; [repeat constructor; apply unary_prod, atom_unary, int_atom|]. cbn. rewrite int_one. ring.
        + exists []. split; [constructor|reflexivity].
      - exists [ratio (Z.abs p) q]. split; [|cbn; ring]. repeat constructor. apply (paren_prod la (Num (Z.abs p) q)); auto. apply num_fine. }
    destruct Hf as (fs & Hf & Vf).
    assert (N : first ++ nums <> []).
    { unfold first. destruct (coefficient p q); [|discriminate]. destruct kept as [|k kept']; [discriminate|]. inversion Hn; subst. discriminate. }
    pose proof (mul_prod (p <? 0) (first ++ nums) (fs ++ map value kept) dens ds ltac:(now apply Forall2_app) N Hd) as P.
    assert (X : value e = if p <? 0 then - (product (fs ++ map value kept) * inv (product ds)) else product (fs ++ map value kept) * inv (product ds)).
    { unfold e. cbn [TextProofs.value]. rewrite V, product_app, Vf, ratio_abs. destruct (p <? 0); ring. }
    rewrite X. exact P. }
  split; [now apply prod_sum|]. split; [auto|]. split; [intros X; destruct Hl; lia|intros X; destruct Hl; lia].
Qed.

(* ---- every expression ---- *)
Section Induction.
Variable P : sexp -> Prop.
Hypotheses (h1 : forall p q, P (Num p q)) (h2 : forall x, P (Sym x)) (h3 : forall a ix, Forall P ix -> P (Elem a ix))
  (h4 : forall l u, P l -> P u -> P (Range l u)) (h5 : forall l, Forall P l -> P (SAdd l)) (h6 : forall p q l, Forall P l -> P (SMul p q l))
  (h7 : forall b x, P b -> P x -> P (SPow b x)) (h8 : forall f l, Forall P l -> P (SFn f l)).
Fixpoint sexp_ind' (e : sexp) : P e :=
  let go := fix go (l : list sexp) : Forall P l := match l with [] => Forall_nil P | i :: l => Forall_cons i (sexp_ind' i) (go l) end in
  match e with
  | Num p q => h1 p q | Sym x => h2 x | Elem a ix => h3 a ix (go ix) | Range l u => h4 l u (sexp_ind' l) (sexp_ind' u)
  | SAdd l => h5 l (go l) | SMul p q l => h6 p q l (go l) | SPow b x => h7 b x (sexp_ind' b) (sexp_ind' x) | SFn f l => h8 f l (go l)
  end.
End Induction.
Lemma normal_all : forall l, (fix go (l : list sexp) := match l with [] => True | i :: l => (normal i /\ no_range i) /\ go l end) l -> Forall (fun i => normal i /\ no_range i) l.
Proof. induction l; intros H; constructor; apply H || apply IHl, H. Qed.
Lemma normal_items : forall l, (fix go (l : list sexp) := match l with [] => True | i :: l => normal i /\ go l end) l -> Forall normal l.
Proof. induction l; intros H; constructor; apply H || apply IHl, H. Qed.
Definition item_value (i : sexp) : C + C * C := match i with Range l u => inr (value l, value u) | _ => inl (value i) end.
Definition printed (e : sexp) : Prop := normal e -> ((forall t, print e = Some t -> (no_range e -> fine e t) /\ itemP t (item_value e)) /\ (no_range e -> base_fine e)).
Lemma all_map : forall A B (f : A -> option B) (R : B -> A -> Prop) l ts, Forall (fun a => forall b, f a = Some b -> R b a) l -> all (map f l) = Some ts -> Forall2 R ts l.
Proof.
  intros A B f R l ts F. revert ts. induction F as [|a l Ha F IH]; intros ts H; cbn [map all] in H; [injection H as <-; constructor|].
  destruct (f a) as [b|]; [|discriminate]. destruct (all (map f l)) as [ts'|]; [|discriminate]. injection H as <-. constructor; auto.
Qed.
Lemma fine_printed : forall e, (normal e -> forall t, print e = Some t -> fine e t) -> no_range e -> (normal e -> base_fine e) -> printed e.
Proof.
  intros e H Hr Hb Hn. split; [|auto]. intros t Ht. pose proof (H Hn t Ht) as F. split; auto.
  assert (X : item_value e = inl (value e)) by (destruct e; auto; contradiction). rewrite X. apply sum_item, F.
Qed.
Lemma printed_fine : forall e, printed e -> normal e /\ no_range e -> forall t, print e = Some t -> fine e t.
Proof. intros e H [H1 H2] t Ht. now apply (H H1). Qed.
Lemma printed_fines : forall l, Forall printed l -> Forall (fun i => normal i /\ no_range i) l -> Forall (fun e => forall t, print e = Some t -> fine e t) l.
Proof. intros l H1 H2. rewrite Forall_forall in *. intros e He. apply printed_fine; auto. Qed.
Lemma fine_sums : forall ts l, Forall2 (fun t e => fine e t) ts l -> Forall2 sumP ts (map value l).
Proof. induction 1; cbn; constructor; auto. apply H. Qed.
Lemma all_nonempty : forall A B (R : B -> A -> Prop) ts l, Forall2 R ts l -> l <> [] -> ts <> [].
Proof. intros A B R ts l H N. destruct H; [contradiction|discriminate]. Qed.
Lemma every : forall e, printed e.
Proof.
  apply sexp_ind'.
  - intros p q. apply fine_printed; cbn; auto. intros _ t [= <-]. apply num_fine.
  - intros x. apply fine_printed; cbn; auto. intros _ t [= <-]. apply atom_fine. intros r Hr. now apply a_var.
  - intros a ix F. apply fine_printed; cbn [base_fine no_range]; auto. intros [N1 N2] t H. cbn [TextModel.print] in H. apply normal_items in N2.
    destruct (all (map print ix)) as [ts|] eqn:Et; [|discriminate]. injection H as <-. apply atom_fine.
    assert (G : Forall2 (fun t i => itemP t (item_value i)) ts ix).
    { apply (all_map _ _ print _ ix ts); auto. rewrite Forall_forall in *. intros i Hi u Hu. now apply (F i Hi (N2 i Hi)). }
    pose proof (all_nonempty _ _ _ _ _ G N1) as N3.
    assert (G' : Forall2 itemP ts (map item_value ix)) by (clear -G; induction G; cbn; constructor; auto).
    intros r Hr. cbn [app]. rewrite <- app_assoc. change (value (Elem a ix)) with (e_arr C E a (map item_value ix)). apply a_elem. now apply items_join.
  - intros l u Hl Hu [N1 N2]. cbn [no_range]. split; [|intros []]. intros t H. split; [intros []|]. cbn [TextModel.print] in H.
    destruct (print l) as [tl|] eqn:El; [|discriminate]. destruct (print u) as [tu|] eqn:Eu; [|discriminate]. injection H as <-.
    apply sum_range; [apply (printed_fine l Hl N1 tl El)|apply (printed_fine u Hu N2 tu Eu)].
  - intros l F. apply fine_printed; cbn [base_fine no_range]; auto. intros [N1 N2] t H. apply normal_all in N2. cbn [TextModel.print] in H.
    destruct (all (map (fun t => option_map (pair (is_add t)) (print t)) l)) as [ts|] eqn:Et; [|discriminate]. injection H as <-.
    assert (G : Forall2 (fun p e => fst p = is_add e /\ fine e (snd p)) ts l).
    { apply (all_map _ _ _ (fun p e => fst p = is_add e /\ fine e (snd p)) l ts) in Et; [exact Et|]. pose proof (printed_fines l F N2) as G. rewrite Forall_forall in *. intros e He [b t] Hb. cbn in Hb.
      destruct (print e) as [t'|] eqn:Ep; [|discriminate]. injection Hb as <- <-. cbn. split; auto. }
    split; [now apply add_sum|]. split; [discriminate|]. change (prec (SAdd l)) with 40. split; intros X; clear -X; lia.
  - intros p q l F. apply fine_printed; cbn [base_fine no_range]; auto. intros N t H. cbn [normal] in N. apply normal_all in N. apply mul_fine; auto; [now apply printed_fines|].
    rewrite Forall_forall in *. intros e He. destruct (N e He). now apply (F e He).
  - intros b x Hb Hx. apply fine_printed; cbn [no_range]; auto.
    + intros (N1 & N2 & N3 & N4) t H. cbn [TextModel.print] in H. destruct (print b) as [tb|] eqn:Eb; [|discriminate]. destruct (print x) as [tx|] eqn:Ex; [|discriminate].
      destruct (pow_fine b tb x tx t (printed_fine b Hb N1 tb Eb) (printed_fine x Hx N2 tx Ex) N4 H) as [P U].
      split; [now apply prod_sum|]. split; [auto|]. change (prec (SPow b x)) with 60. split; [auto|]. intros X; clear -X; lia.
    + intros (N1 & N2 & N3 & N4). split; auto. now apply printed_fine.
  - intros f l F. apply fine_printed; cbn [base_fine no_range]; auto. intros [N1 N2] t H. apply normal_all in N2. cbn [TextModel.print] in H.
    destruct (all (map print l)) as [ts|] eqn:Et; [|discriminate]. injection H as <-. apply atom_fine. cbn [TextProofs.value].
    pose proof (all_map _ _ print (fun t e => fine e t) l ts (printed_fines l F N2) Et) as G. apply call_atom; [now apply fine_sums|]. eapply all_nonempty; eauto.
Qed.
Theorem print_reads : forall e t, normal e -> no_range e -> print e = Some t -> reads C E t (value e).
Proof.
  intros e t H1 H2 H3. unfold reads. rewrite <- (app_nil_r t). apply (printed_fine e (every e) (conj H1 H2) t H3); [reflexivity|]. now apply s_end.
Qed.
End Read.
