(* C47: the rewriting of the user's expressions. *)
From Verif Require Import PyBase StorageModel StorageProofs TransformModel.
From Coq Require Import String Permutation.
Open Scope string_scope.
Open Scope list_scope.

(* The structure of an expression, independent of the code: ordinary tokens,
   conserved moments without index, and conserved moments with a bracketed list
   of indices. *)
Inductive item :=
| Other (t : token)
| Bare (c : string)
| Indexed (c : string) (args : list (list token)).
Definition comma : token := (OP, ",").
Fixpoint print_args (args : list (list token)) : list token :=
  match args with
  | [] => []
  | [a] => a
  | a :: r => a ++ comma :: print_args r
  end.
Definition print_item (i : item) : list token :=
  match i with
  | Other t => [t]
  | Bare c => [(NAME, c)]
  | Indexed c args => (NAME, c) :: (OP, "[") :: print_args args ++ [(OP, "]")]
  end.
Definition print (is : list item) : list token := flat_map print_item is.

(* Names that are keys of consm, with the text of the moment number. *)
Definition numbered (e : env) (c k : string) : Prop := lookup (e_consm e) c = Some k.
Definition plain (t : token) : Prop := snd t <> "," /\ snd t <> "]".
Definition not_open (ts : list token) : Prop := forall t r, ts = t :: r -> t <> (OP, "[").
(* Well formed: rest is printed after the items. *)
Fixpoint wf (e : env) (is : list item) (rest : list token) : Prop :=
  match is with
  | [] => True
  | i :: is' =>
    match i with
    | Other t => forall k, fst t = NAME -> ~ numbered e (snd t) k
    | Bare c => (exists k, numbered e c k) /\ not_open (print is' ++ rest)
    | Indexed c args => (exists k, numbered e c k) /\ args <> [] /\ Forall (Forall plain) args
    end /\ wf e is' rest
  end.

(* Storage order: the entry of the logical position i stands at place p[i]. *)
Definition ordered {A} (p : list nat) (l out : list A) : Prop :=
  List.length out = List.length l /\
  forall i j, nth_error p i = Some j -> nth_error out j = nth_error l i.
Definition entry (idx : list (list token)) : list token :=
  (NAME, "m") :: (OP, "[") :: flat_map (fun s => s ++ [comma]) idx ++ [(OP, "]")].
(* What an item must become. *)
Inductive becomes (e : env) : item -> list token -> Prop :=
| b_other t : becomes e (Other t) [t]
| b_bare c k out : numbered e c k ->
    ordered (e_sorder e) ([(NUMBER, k)] :: map (fun i => [index_token i]) (e_default e)) out ->
    becomes e (Bare c) (entry out)
| b_indexed c k args out : numbered e c k ->
    ordered (e_sorder e) ([(NUMBER, k)] :: args) out ->
    becomes e (Indexed c args) (entry out).
Definition arity (e : env) (i : item) : Prop :=
  match i with
  | Indexed _ args => List.length (e_sorder e) = S (List.length args)
  | _ => True
  end.
Definition good_env (e : env) : Prop :=
  is_order (e_sorder e) (S (List.length (e_default e))).

Lemma set_order_ordered {A} (l : list A) p : l <> [] -> is_order p (List.length l) ->
  exists out, set_order l p = Some out /\ ordered p l out.
Proof.
  intros Hl H. destruct l as [|x l]; [congruence|].
  assert (p <> []) by (intros ->; apply is_order_length in H; cbn in H; discriminate).
  exists (scatter x p (x :: l)). split; [now apply set_order_scatter|]. exact (scatter_spec x p _ H).
Qed.
Lemma set_order_map {A B} (f : A -> B) l p :
  set_order (map f l) p = option_map (map f) (set_order l p).
Proof.
  unfold set_order. destruct p as [|p0 p]; [reflexivity|]. generalize (argsort (map Z.of_nat (p0 :: p))).
  induction l0 as [|j q IH]; cbn; [reflexivity|]. rewrite nth_error_map, IH.
  destruct (nth_error l j); cbn; [destruct (gather l q)|]; reflexivity.
Qed.

Lemma take_index_app (a : list token) : Forall plain a -> forall cur r,
  take_index cur (a ++ r) = take_index (rev a ++ cur) r.
Proof.
  induction 1 as [|t a [H1 H2] Ha IH]; intros cur r; cbn; [reflexivity|].
  apply String.eqb_neq in H1. apply String.eqb_neq in H2. rewrite H1, H2, IH, <- app_assoc. reflexivity.
Qed.
Lemma take_index_args args : args <> [] -> Forall (Forall plain) args -> forall r,
  take_index [] (print_args args ++ (OP, "]") :: r) = Some (args, (OP, "]"), r).
Proof.
  induction args as [|a args IH]; [congruence|]. intros _ HF r. inversion HF as [|? ? Ha Hr]; subst.
  destruct args as [|b args].
  - cbn [print_args]. rewrite take_index_app by exact Ha. cbn. now rewrite app_nil_r, rev_involutive.
  - change (print_args (a :: b :: args)) with (a ++ comma :: print_args (b :: args)).
    rewrite <- app_assoc, take_index_app by exact Ha. cbn [app].
    cbn [take_index comma snd String.eqb Ascii.eqb]. cbn -[take_index print_args].
    rewrite IH by (congruence || exact Hr). now rewrite app_nil_r, rev_involutive.
Qed.

Lemma conserved_name e c k : numbered e c k -> conserved e (NAME, c) = Some k.
Proof. exact (fun H => H). Qed.
Lemma conserved_other e t : (forall k, fst t = NAME -> ~ numbered e (snd t) k) -> conserved e t = None.
Proof.
  intros H. unfold conserved. destruct (fst t); auto.
  destruct (lookup (e_consm e) (snd t)) eqn:E; [|reflexivity]. now destruct (H s eq_refl).
Qed.
Lemma is_open_false ts t r : not_open ts -> ts = t :: r -> is_open t = false.
Proof.
  intros H E. specialize (H t r E). destruct t as [[] s]; cbn; auto.
  apply String.eqb_neq. congruence.
Qed.

Lemma flat_map_tokens o :
  flat_map (fun s => s ++ [comma]) (map (fun i => [index_token i]) o) =
  flat_map (fun i => [index_token i; (OP, ",")]) o.
Proof. induction o as [|x o IH]; cbn; [reflexivity|]. now rewrite IH. Qed.

Lemma transform_spec e last : good_env e -> forall is fuel,
  wf e is [last] -> Forall (arity e) is -> (List.length (print is ++ [last]) <= fuel)%nat ->
  exists outs, Forall2 (becomes e) is outs /\
    transform_from fuel e (print is ++ [last]) = Some (List.concat outs ++ [last]).
Proof.
  intros Hgood. induction is as [|i is IH]; intros fuel Hwf Har Hfuel.
  - exists []. split; [constructor|]. destruct fuel; reflexivity.
  - inversion Har as [|? ? Hi Hr]; subst.
    cbn [print flat_map] in Hfuel |- *. fold (print is) in Hfuel |- *.
    rewrite <- app_assoc in Hfuel |- *. rewrite app_length in Hfuel.
    assert (Hne : exists n r, print is ++ [last] = n :: r)
      by (destruct (print is ++ [last]) eqn:E; [now apply app_eq_nil in E|eauto]).
    destruct Hne as (n & r & Hn).
    destruct i as [t|c|c args]; cbn [print_item] in *; cbn [wf] in Hwf; destruct Hwf as [Hw Hwf].
    + destruct fuel as [|fuel]; [cbn in Hfuel; lia|].
      destruct (IH fuel Hwf Hr) as (outs & H2 & E); [cbn in Hfuel; lia|].
      exists ([t] :: outs). split; [constructor; [constructor|exact H2]|].
      cbn [app transform_from]. rewrite Hn. rewrite conserved_other by exact Hw.
      rewrite <- Hn, E. reflexivity.
    + destruct Hw as [(k & Hk) Hno].
      destruct fuel as [|fuel]; [cbn in Hfuel; lia|].
      destruct (IH fuel Hwf Hr) as (outs & H2 & E); [cbn in Hfuel; lia|].
      destruct (set_order_ordered ([(NUMBER, k)] :: map (fun i => [index_token i]) (e_default e)) (e_sorder e))
        as (out & Eo & Ho); [congruence|cbn; rewrite map_length; exact Hgood|].
      exists (entry out :: outs). split; [constructor; [econstructor; eassumption|exact H2]|].
      cbn [app transform_from]. rewrite Hn. rewrite (conserved_name e c k Hk).
      rewrite (is_open_false _ n r Hno Hn). rewrite <- Hn, E.
      change ([(NUMBER, k)] :: map (fun i => [index_token i]) (e_default e))
        with (map (fun i => [index_token i]) (INum k :: e_default e)) in Eo.
      rewrite set_order_map in Eo. destruct (set_order (INum k :: e_default e) (e_sorder e)) as [o|]; [|discriminate].
      cbn in Eo. injection Eo as <-. unfold entry. cbn [List.concat app].
      rewrite <- !app_assoc. rewrite flat_map_tokens. reflexivity.
    + destruct Hw as [(k & Hk) [Hne HF]]. cbn [arity] in Hi.
      destruct fuel as [|fuel]; [cbn in Hfuel; lia|].
      destruct (IH fuel Hwf Hr) as (outs & H2 & E); [cbn in Hfuel; lia|].
      destruct (set_order_ordered ([(NUMBER, k)] :: args) (e_sorder e)) as (out & Eo & Ho).
      { congruence. }
      { unfold good_env in Hgood. pose proof (is_order_length _ _ Hgood) as Hl. rewrite Hi in Hl. rewrite <- Hl in Hgood. exact Hgood. }
      exists (entry out :: outs). split; [constructor; [econstructor; eassumption|exact H2]|].
      rewrite <- !app_comm_cons, <- app_assoc. cbn [app transform_from].
      rewrite (conserved_name e c k Hk).
      rewrite take_index_args by assumption.
      unfold reorder. unfold token in *. rewrite Eo, E. unfold entry. cbn [List.concat app is_open fst snd].
      change (String.eqb "[" "[") with true. cbn iota. do 3 f_equal. rewrite <- !app_assoc. reflexivity.
Qed.

(* C47: every conserved name, with or without index, becomes the entry of m with
   its moment number, each index at the place of the storage order; all other
   tokens are unchanged and nothing is lost or added. *)
Theorem C47_rewrite e is last :
  good_env e -> wf e is [last] -> Forall (arity e) is ->
  exists outs, Forall2 (becomes e) is outs /\
    transform_expr e (print is ++ [last]) = Some (List.concat outs ++ [last]).
Proof. intros He Hw Ha. exact (transform_spec e last He is _ Hw Ha (le_n _)). Qed.

(* The tokens of every expression have this structure as soon as every bracket
   opened after a conserved name is closed. *)
(* In a tokenized expression the texts "," "[" and "]" only occur as operators. *)
Definition lexed (t : token) : Prop := snd t = "," \/ snd t = "[" \/ snd t = "]" -> fst t = OP.

Lemma take_index_print ts : forall cur st c r, Forall plain (rev cur) -> Forall lexed ts ->
  take_index cur ts = Some (st, c, r) ->
  c = (OP, "]") /\ st <> [] /\ Forall (Forall plain) st /\ rev cur ++ ts = print_args st ++ c :: r.
Proof.
  induction ts as [|t ts IH]; intros cur st c r Hc HL; cbn; [discriminate|].
  inversion HL as [|? ? Ht HL']; subst.
  destruct (String.eqb (snd t) "]") eqn:E1.
  - intros H. injection H as <- <- <-. apply String.eqb_eq in E1.
    split; [destruct t as [k s]; cbn in *; subst s; red in Ht; cbn in Ht; f_equal; tauto|].
    split; [congruence|]. split; [repeat constructor; exact Hc|]. reflexivity.
  - destruct (String.eqb (snd t) ",") eqn:E2.
    + destruct (take_index [] ts) as [[[st' c'] r']|] eqn:E; [|discriminate].
      intros H. injection H as <- <- <-. apply IH in E; [|constructor|exact HL'].
      destruct E as (Hs & Hn & HF & Es). split; [exact Hs|]. split; [congruence|].
      split; [constructor; assumption|]. apply String.eqb_eq in E2.
      assert (t = comma) as -> by (destruct t as [k s]; cbn in *; subst s; red in Ht; cbn in Ht; unfold comma; f_equal; tauto).
      destruct st' as [|s st']; [congruence|].
      change (print_args (rev cur :: s :: st')) with (rev cur ++ comma :: print_args (s :: st')).
      cbn in Es. rewrite Es, <- app_assoc. reflexivity.
    + intros H. apply IH in H; [|cbn|exact HL'].
      * destruct H as (Hs & Hn & HF & Es). repeat (split; [assumption|]).
        cbn in Es. rewrite <- app_assoc in Es. exact Es.
      * apply Forall_app. split; [exact Hc|]. constructor; [|constructor].
        split; now apply String.eqb_neq.
Qed.

Lemma cover e last : lexed last -> snd last <> "]" -> forall fuel ts out,
  (List.length ts < fuel)%nat -> Forall lexed ts -> transform_from fuel e (ts ++ [last]) = Some out ->
  exists is, ts = print is /\ wf e is [last].
Proof.
  intros HLl Hlast. induction fuel as [|fuel IH]; intros ts out Hf HL H; [lia|].
  destruct ts as [|t ts]; [exists []; split; reflexivity|].
  inversion HL as [|? ? Ht HL']; subst. cbn in Hf.
  destruct (ts ++ [last]) as [|n r] eqn:En; [now apply app_eq_nil in En|].
  cbn [app transform_from] in H. rewrite En in H.
  destruct (conserved e t) as [k|] eqn:Ec.
  - assert (exists c, t = (NAME, c) /\ numbered e c k) as (c & -> & Hk).
    { destruct t as [[] c]; try discriminate. exists c. split; [reflexivity|exact Ec]. }
    destruct (is_open n) eqn:Eo.
    + destruct (take_index [] r) as [[[st cl] r']|] eqn:Et; [|discriminate].
      destruct (reorder e ([(NUMBER, k)] :: st)); [|discriminate].
      destruct (transform_from fuel e r') as [out'|] eqn:Er; [|discriminate].
      assert (Hn : n = (OP, "[")).
      { destruct n as [[] s]; try discriminate. apply String.eqb_eq in Eo. cbn in Eo. now subst. }
      destruct ts as [|t1 ts]; [cbn in En; injection En as <- <-; discriminate|].
      cbn in En. injection En as -> Er'. inversion HL' as [|? ? _ HL'']; subst.
      apply take_index_print in Et; [|constructor|apply Forall_app; split; [exact HL''|repeat constructor; exact HLl]].
      destruct Et as (-> & Hne & HF & Es). cbn [rev app] in Es.
      assert (exists ts', r' = ts' ++ [last]) as (ts' & ->).
      { destruct (exists_last (l := r')) as (ts' & x & ->).
        - intros ->. apply app_inj_tail in Es. destruct Es as [_ ->]. now apply Hlast.
        - exists ts'. f_equal. f_equal. rewrite app_comm_cons, app_assoc in Es. apply app_inj_tail in Es. symmetry. apply Es. }
      rewrite app_comm_cons, app_assoc in Es. apply app_inj_tail in Es. destruct Es as [Es _].
      destruct (IH ts' out') as (is & -> & Hw).
      { rewrite Es in Hf. cbn in Hf. rewrite app_length in Hf. cbn in Hf. lia. }
      { rewrite Es in HL''. apply Forall_app in HL''. destruct HL'' as [_ H2]. now inversion H2. }
      { exact Er. }
      exists (Indexed c st :: is). split.
      * rewrite Es. cbn. rewrite <- app_assoc. reflexivity.
      * cbn. repeat split; eauto.
    + destruct (set_order _ _); [|discriminate].
      destruct (transform_from fuel e (n :: r)) as [out'|] eqn:Er; [|discriminate].
      rewrite <- En in Er. destruct (IH ts out') as (is & -> & Hw); [lia|exact HL'|exact Er|].
      exists (Bare c :: is). split; [reflexivity|]. cbn [wf]. split; [|exact Hw].
      split; [eauto|]. intros t r0 E. rewrite E in En. injection En as -> ->.
      intros ->. discriminate.
  - destruct (transform_from fuel e (n :: r)) as [out'|] eqn:Er; [|discriminate].
    rewrite <- En in Er. destruct (IH ts out') as (is & -> & Hw); [lia|exact HL'|exact Er|].
    exists (Other t :: is). split; [reflexivity|]. cbn [wf]. split; [|exact Hw].
    intros k Hk Hc. unfold conserved in Ec. rewrite Hk in Ec. congruence.
Qed.

(* C47, all token lists: whenever the function returns, the tokens have the
   structure of C47_rewrite. *)
Theorem C47_covers e ts last out : Forall lexed ts -> lexed last -> snd last <> "]" ->
  transform_expr e (ts ++ [last]) = Some out ->
  exists is, ts = print is /\ wf e is [last].
Proof.
  intros HL H1 H2 H. apply (cover e last H1 H2 (List.length (ts ++ [last])) ts out); auto.
  rewrite app_length. cbn. lia.
Qed.

(* C47: in a source term the default index is taken from the entry m[0], so a
   name without index becomes exactly the entry of m of its moment number: the
   indices of m[0] with only the moment number changed.  base.py 464-466. *)
Theorem C47_same_entry c k sorder space m0 mk idx last t0 :
  lookup c t0 = Some k -> is_order sorder (S (List.length space)) -> last <> (OP, "[") ->
  set_order (INum "0" :: space) sorder = Some m0 ->
  set_order (INum k :: space) sorder = Some mk ->
  source_indices m0 sorder = Some idx ->
  transform_expr (mkEnv c sorder idx) [(NAME, t0); last] =
  Some ((NAME, "m") :: (OP, "[") :: flat_map (fun i => [index_token i; comma]) mk ++ [(OP, "]"); last]).
Proof.
  intros Hc Ho Hl H0 Hk Hi.
  assert (idx = space) as ->.
  { destruct sorder as [|s0 s]; [apply is_order_length in Ho; discriminate|].
    destruct (set_order_ordered (INum "0" :: space) (s0 :: s)) as (m0' & E & HL & HO); [congruence|exact Ho|].
    rewrite H0 in E. injection E as <-. unfold source_indices in Hi. cbn [tl] in Hi.
    destruct (gather_spec m0 s) as (r & E & Hlr & Hr).
    { intros p Hp. rewrite HL. apply (is_order_lt (s0 :: s)); [exact Ho|now right]. }
    rewrite Hi in E. injection E as <-.
    apply nth_error_ext.
    - rewrite Hlr. apply is_order_length in Ho. cbn in Ho. lia.
    - intros j Hj. destruct (nth_error s j) as [p|] eqn:Ep.
      + rewrite (Hr j p Ep). exact (HO (S j) p Ep).
      + apply nth_error_None in Ep. rewrite Hlr in Hj. lia. }
  unfold transform_expr. cbn [List.length transform_from].
  unfold conserved. cbn [fst snd e_consm e_default e_sorder]. rewrite Hc.
  assert (is_open last = false) as -> .
  { destruct last as [[] s]; cbn; auto. apply String.eqb_neq. congruence. }
  rewrite Hk. reflexivity.
Qed.

(* Without the structure: a conserved name inside the index of another one is
   left as it is, and so is a conserved name that is the last token. *)
Theorem C47_nested_refuted : exists e ts out, Forall lexed ts /\ good_env e /\
  transform_expr e ts = Some out /\ exists c, lookup (e_consm e) c <> None /\ In (NAME, c) ts /\ In (NAME, c) out.
Proof.
  exists (mkEnv [("rho", "0"); ("q", "1")] [0; 1]%nat [IIdx "ix_"]).
  exists [(NAME, "rho"); (OP, "["); (NAME, "q"); (OP, "]"); (TOther, "")].
  eexists. split; [|split; [|split; [reflexivity|]]].
  - repeat constructor; intros [H|[H|H]]; try discriminate; reflexivity.
  - unfold good_env, is_order. cbn. repeat constructor.
  - exists "q". split; [discriminate|]. split; cbn; tauto.
Qed.
(* Too many indices: the ones after the storage order are lost. *)
Theorem C47_arity_refuted : exists e ts out, good_env e /\ transform_expr e ts = Some out /\
  In (NAME, "iy") ts /\ ~ In (NAME, "iy") out.
Proof.
  exists (mkEnv [("rho", "0")] [0; 1]%nat [IIdx "ix_"]).
  exists [(NAME, "rho"); (OP, "["); (NAME, "ix"); (OP, ","); (NAME, "iy"); (OP, "]"); (TOther, "")].
  eexists. split; [|split; [reflexivity|]].
  - unfold good_env, is_order. cbn. repeat constructor.
  - split; [cbn; tauto|]. cbn. intuition discriminate.
Qed.

(* 2*rho - q[ix-1, iy] in two dimensions, the moments stored last: sorder [2,0,1]. *)
Definition e_ex : env := mkEnv [("rho", "0"); ("q", "3")] [2; 0; 1]%nat [IIdx "ix_"; IIdx "iy_"].
Definition is_ex : list item :=
  [Other (NUMBER, "2"); Other (OP, "*"); Bare "rho"; Other (OP, "-");
   Indexed "q" [[(NAME, "ix"); (OP, "-"); (NUMBER, "1")]; [(NAME, "iy")]]].
Example C47_ex_hyps : good_env e_ex /\ wf e_ex is_ex [(TOther, "")] /\ Forall (arity e_ex) is_ex.
Proof.
  split; [unfold good_env, is_order; cbn; apply Permutation_sym; change [0; 1; 2]%nat with ([0; 1] ++ [2])%nat; apply (Permutation_app_comm [0;1]%nat [2]%nat)|].
  split; [|repeat constructor].
  cbn. unfold numbered, not_open. cbn. repeat split; eauto; try congruence;
    try (repeat constructor; cbn; discriminate); intros; try discriminate.
Qed.
Example C47_ex : transform_expr e_ex (print is_ex ++ [(TOther, "")]) =
  Some [(NUMBER, "2"); (OP, "*"); (NAME, "m"); (OP, "["); (NAME, "ix_"); (OP, ","); (NAME, "iy_"); (OP, ",");
        (NUMBER, "0"); (OP, ","); (OP, "]"); (OP, "-"); (NAME, "m"); (OP, "[");
        (NAME, "ix"); (OP, "-"); (NUMBER, "1"); (OP, ","); (NAME, "iy"); (OP, ","); (NUMBER, "3"); (OP, ",");
        (OP, "]"); (TOther, "")].
Proof. reflexivity. Qed.
Example C47_ex_entry : set_order [INum "3"; IIdx "ix_"; IIdx "iy_"] [2; 0; 1]%nat = Some [IIdx "ix_"; IIdx "iy_"; INum "3"] /\
  source_indices [IIdx "ix_"; IIdx "iy_"; INum "0"] [2; 0; 1]%nat = Some [IIdx "ix_"; IIdx "iy_"].
Proof. split; reflexivity. Qed.

Print Assumptions C47_rewrite.
Print Assumptions C47_covers.
Print Assumptions C47_same_entry.
Print Assumptions C47_nested_refuted.
Print Assumptions C47_arity_refuted.
