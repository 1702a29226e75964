(* The dictionaries which are accepted, stated without the rules of the validator; proof that they
   are those of the model. *)
From Coq Require Import String QArith.
From Verif Require Import PyBase ValidatorModel.
Open Scope string_scope.
Open Scope Z_scope.

(* ---- the shape of a dictionary ---- *)
Definition Number (v : pv) : Prop := (exists z, v = PInt z) \/ (exists q, v = PFloat q).
Definition Integer (v : pv) : Prop := exists z, v = PInt z.
Definition Symbol (v : pv) : Prop := exists s, v = PSymbol s.
Definition Expr (v : pv) : Prop := exists s, v = PSymbol s \/ v = PExpr s.
Definition Bool (v : pv) : Prop := exists b, v = PBool b.
Definition Function (v : pv) : Prop := exists f, v = PFun f.
Definition Sequence (P : pv -> Prop) (v : pv) : Prop := exists l, (v = PList l \/ v = PTuple l) /\ Forall P l.
(* a pair *)
Definition Couple (P Q : pv -> Prop) (v : pv) : Prop := exists a b, (v = PList [a; b] \/ v = PTuple [a; b]) /\ P a /\ Q b.
Definition Mapping (P Q : pv -> Prop) (v : pv) : Prop := exists d, v = PDict d /\ forall k w, In (k, w) d -> P k /\ Q w.
Definition Any (v : pv) : Prop := True.
Definition has (k : string) (d : list (pv * pv)) : Prop := exists v, In (PStr k, v) d.
(* the keys are names, with their values *)
Definition named (F : string -> pv -> Prop) (d : list (pv * pv)) : Prop := forall k v, In (k, v) d -> exists s, k = PStr s /\ F s v.
Definition Record_ (F : string -> pv -> Prop) (v : pv) : Prop := exists d, v = PDict d /\ named F d.

Inductive box_field : string -> pv -> Prop :=
| BFx v : Couple Number Number v -> box_field "x" v
| BFy v : Couple Number Number v -> box_field "y" v
| BFz v : Couple Number Number v -> box_field "z" v
| BFlabel v : Integer v \/ Sequence Integer v -> box_field "label" v.
Inductive boundary_field : string -> pv -> Prop :=
| OFmethod v : Mapping Integer (fun w => exists n a, w = PClass n true a) v -> boundary_field "method" v
| OFvalue v : Function v \/ Couple Function (fun w => w = PNone \/ Sequence Any w) v -> boundary_field "value" v
| OFtime v : Bool v -> boundary_field "time_bc" v.
Inductive scheme_field : string -> pv -> Prop :=
| SFvelocities v : Sequence (fun w => exists z, w = PInt z /\ 0 <= z) v -> scheme_field "velocities" v
| SFmatrix n m : scheme_field "M" (PMatrix n m)
| SFpolynomials v : Sequence (fun w => Number w \/ Expr w) v -> scheme_field "polynomials" v
| SFrelaxation v : Sequence (fun w => Number w \/ Expr w) v -> scheme_field "relaxation_parameters" v
| SFequilibrium v : Sequence (fun w => Number w \/ Expr w) v -> scheme_field "equilibrium" v
| SFfeq v : Couple Function (Sequence Any) v -> scheme_field "feq" v
| SFconserved v : Symbol v \/ Sequence Symbol v -> scheme_field "conserved_moments" v
| SFsource v : Mapping Symbol (fun w => Number w \/ Expr w) v -> scheme_field "source_terms" v.
(* a class which needs the description of the collision *)
Definition full (c : class) : Prop := c = CScheme \/ c = CSimulation.
Definition elementary (c : class) (s : list (pv * pv)) : Prop :=
  named scheme_field s /\
  (c <> CGeometry -> has "velocities" s) /\
  ~ (has "M" s /\ has "polynomials" s) /\ ~ (has "equilibrium" s /\ has "feq" s) /\
  (full c -> (has "M" s \/ has "polynomials" s) /\ (has "equilibrium" s \/ has "feq" s) /\
             has "relaxation_parameters" s /\ has "conserved_moments" s).
(* the condition of a label is not None, and not a list with an element: anything else than a
   dictionary is accepted *)
Definition Condition (v : pv) : Prop :=
  v <> PNone /\ (forall w l, v <> PList (w :: l) /\ v <> PTuple (w :: l)) /\ (forall d, v = PDict d -> named boundary_field d).
Inductive field (c : class) : string -> pv -> Prop :=
| Fdim z : z = 1 \/ z = 2 \/ z = 3 -> field c "dim" (PInt z)
| Fbox v : Record_ box_field v -> field c "box" v
| Felements v : Sequence (fun w => exists n, w = PElem n) v -> field c "elements" v
| Fstep v : (exists z, v = PInt z /\ 0 <= z) \/ (exists q, v = PFloat q /\ (0 <= q)%Q) -> field c "space_step" v
| Fvelocity v : Number v \/ Symbol v -> field c "scheme_velocity" v
| Fschemes v : Sequence (fun w => exists s, w = PDict s /\ elementary c s) v -> field c "schemes" v
| Fparameters v : Mapping Symbol (fun w => Number w \/ Expr w) v -> field c "parameters" v
| Finittype s : s = "moments" \/ s = "distributions" -> field c "inittype" (PStr s)
| Finit v : Mapping (fun w => Symbol w \/ Number w) (fun w => Number w \/ Function w \/ Couple Function (Sequence Any) w) v -> field c "init" v
| Fboundary v : Mapping Integer Condition v -> field c "boundary_conditions" v
| Frelative v : Sequence (fun w => Number w \/ Expr w) v -> field c "relative_velocity" v
| Fgenerator s : s = "numpy" \/ s = "cython" \/ s = "loopy" -> field c "generator" (PStr s)
| Fcodegen v : Record_ (fun k w => k = "directory" /\ (exists s, w = PStr s) \/ k = "generate" /\ Bool w) v -> field c "codegen_option" v
| Falgorithm v : Record_ (fun k w => k = "name" /\ (exists n b, w = PClass n b true) \/ k = "settings" /\ (exists d, w = PDict d)) v -> field c "lbm_algorithm" v
| Fshow v : Bool v -> field c "show_code" v.
Definition dictionary (c : class) (d : list (pv * pv)) : Prop :=
  named (field c) d /\
  ~ (has "dim" d /\ has "box" d) /\
  (c = CStencil \/ c = CScheme -> has "dim" d \/ has "box" d) /\
  (c = CDomain \/ c = CGeometry \/ c = CSimulation -> has "box" d) /\
  (c = CDomain \/ c = CSimulation -> has "space_step" d) /\
  (full c -> has "scheme_velocity" d) /\
  (c <> CGeometry -> has "schemes" d) /\
  (c = CSimulation -> has "init" d).

(* ---- the outcomes ---- *)
Lemma of_bool_ok b : of_bool b = Ok <-> b = true.
Proof. now destruct b. Qed.
Lemma of_bool_fine b : of_bool b <> Raise.
Proof. now destruct b. Qed.
Lemma both_ok a b : both a b = Ok <-> a = Ok /\ b = Ok.
Proof. now destruct a, b. Qed.
Lemma both_fine a b : both a b <> Raise <-> a <> Raise /\ b <> Raise.
Proof. destruct a, b; cbn; intuition congruence. Qed.
Lemma every_ok l : every l = Ok <-> forall o, In o l -> o = Ok.
Proof.
  induction l as [|a l IH]; cbn; [tauto|]. rewrite both_ok, IH. split.
  - intros [<- H] o [<-|Hi]; auto.
  - intros H. split; [apply H; now left|intros; apply H; now right].
Qed.
Lemma every_fine l : every l <> Raise <-> forall o, In o l -> o <> Raise.
Proof.
  induction l as [|a l IH]; cbn; [split; [tauto|discriminate]|]. rewrite both_fine, IH. split.
  - intros [Ha H] o [<-|Hi]; auto.
  - intros H. split; [apply H; now left|intros; apply H; now right].
Qed.
Lemma every_map A (f : A -> outcome) l : every (map f l) = Ok <-> Forall (fun a => f a = Ok) l.
Proof.
  rewrite every_ok, Forall_forall. split.
  - intros H a Ha. apply H, in_map, Ha.
  - intros H o Ho. apply in_map_iff in Ho. destruct Ho as [a [<- Ha]]. now apply H.
Qed.
Lemma every_map_fine A (f : A -> outcome) l : (forall a, In a l -> f a <> Raise) -> every (map f l) <> Raise.
Proof. intros H. apply every_fine. intros o Ho. apply in_map_iff in Ho. destruct Ho as [a [<- Ha]]. now apply H. Qed.
Lemma some_ok_ok l : (forall o, In o l -> o <> Raise) -> (some_ok l = Ok <-> In Ok l).
Proof.
  intros Hf. unfold some_ok.
  destruct (existsb _ l) eqn:E1.
  - apply existsb_exists in E1. destruct E1 as [o [Ho E]]. destruct o; try discriminate. now destruct (Hf Raise).
  - rewrite of_bool_ok, existsb_exists. split.
    + intros [o [Ho E]]. now destruct o.
    + intros H. now exists Ok.
Qed.
Lemma some_ok_fine l : (forall o, In o l -> o <> Raise) -> some_ok l <> Raise.
Proof.
  intros Hf. unfold some_ok.
  destruct (existsb _ l) eqn:E1; [|apply of_bool_fine].
  apply existsb_exists in E1. destruct E1 as [o [Ho E]]. destruct o; try discriminate. now destruct (Hf Raise).
Qed.

(* ---- the rules of one value ---- *)
Lemma run_some rs v : v <> PNone -> run rs v = if types_ok rs v then every (map (fun r => check r v) rs) else Bad.
Proof. now destruct v. Qed.
Lemma none_dec (v : pv) : v = PNone \/ v <> PNone.
Proof. destruct v; [now left|..]; right; discriminate. Qed.
Lemma types_cons t rs v : types_ok (RType t :: rs) v = has_type t v && types_ok rs v.
Proof. reflexivity. Qed.
Lemma run_typed t rs v : run (RType t :: rs) v = Ok <-> (v = PNone /\ nullable rs = true) \/ (v <> PNone /\ has_type t v = true /\ run rs v = Ok).
Proof.
  destruct (none_dec v) as [->|Hv].
  - cbn. fold (nullable rs). rewrite of_bool_ok. intuition congruence.
  - rewrite !run_some, types_cons by exact Hv. cbn [map every fold_right check]. fold (every (map (fun r => check r v) rs)).
    destruct (has_type t v), (types_ok rs v); cbn [andb]; rewrite ?both_ok, ?of_bool_ok; intuition congruence.
Qed.
Lemma typed_fine t rs v : (v <> PNone -> has_type t v = true -> run rs v <> Raise) -> run (RType t :: rs) v <> Raise.
Proof.
  destruct (none_dec v) as [->|Hv]; [intros _; apply of_bool_fine|].
  intros H. specialize (H Hv). rewrite run_some in * by exact Hv. rewrite types_cons.
  destruct (has_type t v) eqn:E; [|discriminate]. specialize (H eq_refl). cbn [andb].
  destruct (types_ok rs v); [|discriminate]. cbn [map every fold_right check]. rewrite E. apply both_fine. split; [discriminate|exact H].
Qed.
Lemma run_nil v : run [] v = Ok <-> v <> PNone.
Proof. destruct v; cbn; intuition congruence. Qed.
Lemma nil_fine v : run [] v <> Raise.
Proof. destruct v; discriminate. Qed.
(* a rule which is not a type *)
Definition plain (r : rule) : Prop := match r with RType _ | RNullable => False | _ => True end.
Lemma types_plain r rs v : plain r -> types_ok (r :: rs) v = types_ok rs v.
Proof. now destruct r. Qed.
Lemma run_plain r rs v : plain r -> (run (r :: rs) v = Ok <-> (v = PNone /\ nullable rs = true) \/ (v <> PNone /\ check r v = Ok /\ run rs v = Ok)).
Proof.
  intros Hp. destruct (none_dec v) as [->|Hv].
  - unfold run, run_with. rewrite of_bool_ok. replace (nullable (r :: rs)) with (nullable rs) by (now destruct r). intuition congruence.
  - rewrite !run_some, types_plain by assumption. cbn [map every fold_right]. fold (every (map (fun r => check r v) rs)).
    destruct (types_ok rs v); rewrite ?both_ok; intuition congruence.
Qed.
Lemma plain_fine r rs v : plain r -> (v <> PNone -> check r v <> Raise) -> run rs v <> Raise -> run (r :: rs) v <> Raise.
Proof.
  intros Hp Hc. destruct (none_dec v) as [->|Hv]; [intros _; apply of_bool_fine|].
  specialize (Hc Hv). rewrite !run_some, types_plain by assumption. destruct (types_ok rs v); [|discriminate].
  intros H. cbn [map every fold_right]. apply both_fine. now split.
Qed.
Lemma check_seq rs l v : v = PList l \/ v = PTuple l -> (check (RSeq rs) v = Ok <-> Forall (fun w => run rs w = Ok) l).
Proof. intros [-> | ->]; cbn [check seq_of]; apply every_map. Qed.
Lemma seq_fine rs v : (forall w, run rs w <> Raise) -> check (RSeq rs) v <> Raise.
Proof. intros H. cbn [check]. destruct (seq_of v); [|discriminate]. apply every_map_fine. intros a _. apply H. Qed.
Lemma check_pair r1 r2 l v : v = PList l \/ v = PTuple l ->
  (check (RItems [r1; r2]) v = Ok <-> exists a b, l = [a; b] /\ run r1 a = Ok /\ run r2 b = Ok).
Proof.
  intros Hv. assert (seq_of v = Some l) as E by (destruct Hv as [-> | ->]; reflexivity).
  cbn [check]. rewrite E. destruct l as [|a [|b [|c l]]]; cbn [length Nat.eqb].
  1,2,4: split; [discriminate|intros [x [y [H _]]]; discriminate].
  fold run. rewrite !both_ok. split.
  - intros [Ha [Hb _]]. now exists a, b.
  - intros [x [y [H [Hx Hy]]]]. injection H as -> ->. now repeat split.
Qed.
Lemma pair_fine r1 r2 v : has_type TList v = true -> (forall w, run r1 w <> Raise) -> (forall w, run r2 w <> Raise) -> check (RItems [r1; r2]) v <> Raise.
Proof.
  intros Ht H1 H2. cbn [check]. destruct (seq_of v) as [l|] eqn:E; [|destruct v; discriminate].
  destruct l as [|a [|b [|c l]]]; cbn [length Nat.eqb]; try discriminate.
  fold run. rewrite !both_fine. repeat split; try discriminate; auto.
Qed.
Lemma check_any l v : (forall rs, In rs l -> run rs v <> Raise) -> (check (RAnyof l) v = Ok <-> exists rs, In rs l /\ run rs v = Ok).
Proof.
  intros H. cbn [check]. fold run. rewrite some_ok_ok.
  - rewrite in_map_iff. split; intros [rs [A B]]; exists rs; auto.
  - intros o Ho. apply in_map_iff in Ho. destruct Ho as [rs [<- Hr]]. now apply H.
Qed.
Lemma any_fine l v : (forall rs, In rs l -> run rs v <> Raise) -> check (RAnyof l) v <> Raise.
Proof.
  intros H. cbn [check]. fold run. apply some_ok_fine.
  intros o Ho. apply in_map_iff in Ho. destruct Ho as [rs [<- Hr]]. now apply H.
Qed.
Lemma check_keys rs d : check (RKeys rs) (PDict d) = Ok <-> forall k w, In (k, w) d -> run rs k = Ok.
Proof.
  cbn [check]. fold run. rewrite every_map, Forall_forall. split.
  - intros H k w Hi. exact (H _ Hi).
  - intros H [k w] Hi. exact (H _ _ Hi).
Qed.
Lemma check_values rs d : check (RValues rs) (PDict d) = Ok <-> forall k w, In (k, w) d -> run rs w = Ok.
Proof.
  cbn [check]. fold run. rewrite every_map, Forall_forall. split.
  - intros H k w Hi. exact (H _ Hi).
  - intros H [k w] Hi. exact (H _ _ Hi).
Qed.
Lemma keys_fine rs v : (forall w, run rs w <> Raise) -> check (RKeys rs) v <> Raise.
Proof. intros H. destruct v; cbn [check]; try discriminate. apply every_map_fine. intros a _. apply H. Qed.
Lemma values_fine rs v : (forall w, run rs w <> Raise) -> check (RValues rs) v <> Raise.
Proof. intros H. destruct v; cbn [check]; try discriminate. apply every_map_fine. intros a _. apply H. Qed.

(* ---- the fields ---- *)
Lemma key_is_true k x : key_is k x = true <-> x = PStr k.
Proof.
  destruct x; cbn; try (split; discriminate). rewrite String.eqb_eq. split; [now intros ->|now intros [= ->]].
Qed.
Lemma mem_has k d : mem k d = true <-> has k d.
Proof.
  unfold mem, has. rewrite existsb_exists. split.
  - intros [[x v] [Hi E]]. apply key_is_true in E. cbn in E. subst. now exists v.
  - intros [v Hi]. exists (PStr k, v). split; [exact Hi|]. now apply key_is_true.
Qed.
Fixpoint assoc (k : string) (l : list (string * list rule)) : option (list rule) := match l with
  | [] => None
  | (k', rs) :: l => if String.eqb k k' then Some rs else assoc k l
  end.
Lemma check_fields fs d : check (RFields fs) (PDict d) = Ok <->
  (forall k v, In (k, v) d -> exists s rs, k = PStr s /\ assoc s fs = Some rs /\ run rs v = Ok /\ (forall f, In f (excluded rs) -> ~ has f d)) /\ present fs d = true.
Proof.
  cbn [check]. fold run. rewrite both_ok, of_bool_ok, every_map, Forall_forall.
  match goal with |- ?A /\ ?B <-> ?C /\ ?D => enough (A <-> C) by tauto end.
  assert (forall (p : pv * pv) l, (fix go (l : list (string * list rule)) : outcome := match l with
                      | [] => Bad
                      | (key, rs) :: l => if key_is key (fst p) then both (run rs (snd p)) (of_bool (forallb (fun f => negb (mem f d)) (excluded rs)))
                                          else go l
                      end) l = Ok <-> exists s rs, fst p = PStr s /\ assoc s l = Some rs /\ run rs (snd p) = Ok /\ (forall f, In f (excluded rs) -> ~ has f d)) as E.
  { intros [k v]. cbn [fst snd]. induction l as [|[key rs] l IH].
    - split; [discriminate|]. intros [s [rs [_ [H _]]]]. discriminate.
    - destruct (key_is key k) eqn:Ek.
      + apply key_is_true in Ek. subst k. rewrite both_ok, of_bool_ok, forallb_forall. split.
        * intros [Hr Hf]. exists key, rs. cbn [assoc]. rewrite String.eqb_refl. repeat split; auto.
          intros f Hi Hh. apply mem_has in Hh. specialize (Hf f Hi). rewrite Hh in Hf. discriminate.
        * intros [s [rs' [[= <-] [Ha [Hr Hf]]]]]. cbn [assoc] in Ha. rewrite String.eqb_refl in Ha. injection Ha as <-.
          split; [exact Hr|]. intros f Hi. destruct (mem f d) eqn:Em; [|reflexivity]. apply mem_has in Em. now destruct (Hf f Hi).
      + rewrite IH. split; intros [s [rs' [Hk [Ha H]]]]; exists s, rs'; cbn [assoc] in *; subst k;
          cbn [key_is] in Ek; rewrite Ek in *; auto. }
  split.
  - intros H k v Hi. apply (E (k, v)). exact (H _ Hi).
  - intros H [k v] Hi. apply E. exact (H _ _ Hi).
Qed.

(* ---- the values of the schema ---- *)
Ltac leaf := let v := fresh "v" in intros v; destruct v; cbn; split; intros H; try discriminate; try reflexivity;
  unfold Number, Integer, Symbol, Expr, Bool, Function in *; firstorder (try discriminate; eauto).
Lemma L_number : forall v, run [RType TNumber] v = Ok <-> Number v. Proof. leaf. Qed.
Lemma L_integer : forall v, run [RType TInteger] v = Ok <-> Integer v. Proof. leaf. Qed.
Lemma L_symbol : forall v, run [RType TSymbol] v = Ok <-> Symbol v. Proof. leaf. Qed.
Lemma L_function : forall v, run [RType TFunction] v = Ok <-> Function v. Proof. leaf. Qed.
Lemma L_bool : forall v, run [RType TBoolean] v = Ok <-> Bool v. Proof. leaf. Qed.
Lemma L_string : forall v, run [RType TString] v = Ok <-> exists s, v = PStr s. Proof. leaf. Qed.
Lemma L_dict : forall v, run [RType TDict] v = Ok <-> exists d, v = PDict d. Proof. leaf. Qed.
Lemma L_element : forall v, run [RType TElement] v = Ok <-> exists n, v = PElem n. Proof. leaf. Qed.
Lemma L_expression : forall v, run expression v = Ok <-> Number v \/ Expr v. Proof. leaf. Qed.
Lemma L_expression' : forall v, run [RAnyof [[RType TExpr]; [RType TNumber]]] v = Ok <-> Number v \/ Expr v. Proof. leaf. Qed.
Lemma L_key : forall v, run [RAnyof [[RType TSymbol]; [RType TNumber]]] v = Ok <-> Symbol v \/ Number v. Proof. leaf. Qed.
Lemma L_isboundary : forall v, run [RIsBoundary] v = Ok <-> exists n a, v = PClass n true a.
Proof. intros v. destruct v; cbn; try (split; [discriminate|intros [? [? ?]]; discriminate]). destruct boundary; cbn; split; eauto; try discriminate. intros [? [? [= ]]]. Qed.
Lemma L_isalgorithm : forall v, run [RIsAlgorithm] v = Ok <-> exists n b, v = PClass n b true.
Proof. intros v. destruct v; cbn; try (split; [discriminate|intros [? [? ?]]; discriminate]). destruct algorithm; cbn; split; eauto; try discriminate. intros [? [? [= ]]]. Qed.
Lemma L_nat : forall v, run [RType TInteger; RMin 0] v = Ok <-> exists z, v = PInt z /\ 0 <= z.
Proof.
  intros v. destruct v; cbn; try (split; [discriminate|intros [? [? ?]]; discriminate]).
  destruct (0 <=? z) eqn:E; cbn; split; try discriminate.
  - intros _. exists z. split; [reflexivity|now apply Z.leb_le].
  - reflexivity.
  - intros [y [[= ->] H]]. apply Z.leb_le in H. congruence.
Qed.
Lemma L_list : forall v, run [RType TList] v = Ok <-> Sequence Any v.
Proof.
  intros v. destruct v; cbn; split; try discriminate; try (intros [l' [[H|H] _]]; discriminate); intros _; try reflexivity.
  - exists l. split; [now left|]. apply Forall_forall. now intros.
  - exists l. split; [now right|]. apply Forall_forall. now intros.
Qed.
Lemma L_listnull : forall v, run [RType TList; RNullable] v = Ok <-> v = PNone \/ Sequence Any v.
Proof.
  intros v. rewrite <- L_list. destruct v; cbn; split; try discriminate; try (intros [H|H]; discriminate); auto.
Qed.
Lemma one_type_fine : forall t v, run [RType t] v <> Raise.
Proof. intros t v. apply typed_fine. intros _ _. apply nil_fine. Qed.

Definition trivial_rule (r : rule) : bool := match r with RRequired _ | RExcludes _ => true | _ => false end.
Lemma nullable_trivial ex : forallb trivial_rule ex = true -> nullable ex = false.
Proof.
  induction ex as [|r ex IH]; [reflexivity|]. cbn [forallb]. intros H. apply andb_true_iff in H. destruct H as [Hr He].
  specialize (IH He). destruct r; try discriminate; exact IH.
Qed.
Lemma run_trivial ex v : forallb trivial_rule ex = true -> (run ex v = Ok <-> v <> PNone).
Proof.
  induction ex as [|r ex IH]; [intros _; apply run_nil|].
  cbn [forallb]. intros H. apply andb_true_iff in H. destruct H as [Hr He].
  rewrite run_plain by (destruct r; now try discriminate). rewrite (IH He).
  rewrite (nullable_trivial ex He). destruct r; try discriminate; cbn [check]; intuition congruence.
Qed.
Lemma nullable_plain r rs : plain r -> nullable (r :: rs) = nullable rs.
Proof. now destruct r. Qed.
Lemma has_list v : has_type TList v = true <-> exists l, v = PList l \/ v = PTuple l.
Proof. destruct v; cbn; split; try discriminate; try (intros [l' [H|H]]; discriminate); eauto. Qed.
Lemma has_dict v : has_type TDict v = true <-> exists d, v = PDict d.
Proof. destruct v; cbn; split; try discriminate; try (intros [l' H]; discriminate); eauto. Qed.
Lemma L_seq rs P ex v : (forall w, run rs w = Ok <-> P w) -> forallb trivial_rule ex = true -> (run (RType TList :: RSeq rs :: ex) v = Ok <-> Sequence P v).
Proof.
  intros HP He. rewrite run_typed, run_plain, run_trivial, nullable_plain, (nullable_trivial ex He) by easy.
  split.
  - intros [[_ H]|[Hn [Ht [[_ H]|[_ [Hc _]]]]]]; try discriminate. apply has_list in Ht. destruct Ht as [l Hl].
    exists l. split; [exact Hl|]. rewrite (check_seq rs l v Hl) in Hc. eapply Forall_impl; [|exact Hc]. intros w Hw. now apply HP.
  - intros [l [Hl H]]. right. assert (v <> PNone) by (destruct Hl; subst; discriminate). repeat split; auto.
    + apply has_list. now exists l.
    + right. repeat split; auto. rewrite (check_seq rs l v Hl). eapply Forall_impl; [|exact H]. intros w Hw. now apply HP.
Qed.
Lemma L_pair r1 r2 P Q ex v : (forall w, run r1 w = Ok <-> P w) -> (forall w, run r2 w = Ok <-> Q w) -> forallb trivial_rule ex = true ->
  (run (RType TList :: RItems [r1; r2] :: ex) v = Ok <-> Couple P Q v).
Proof.
  intros HP HQ He. rewrite run_typed, run_plain, run_trivial, nullable_plain, (nullable_trivial ex He) by easy.
  split.
  - intros [[_ H]|[Hn [Ht [[_ H]|[_ [Hc _]]]]]]; try discriminate. apply has_list in Ht. destruct Ht as [l Hl].
    rewrite (check_pair r1 r2 l v Hl) in Hc. destruct Hc as [a [b [-> [Ha Hb]]]]. exists a, b. rewrite <- HP, <- HQ. auto.
  - intros [a [b [Hl [Ha Hb]]]]. right. assert (v <> PNone) by (destruct Hl; subst; discriminate). repeat split; auto.
    + apply has_list. now exists [a; b].
    + right. repeat split; auto. rewrite (check_pair r1 r2 [a; b] v Hl). exists a, b. rewrite HP, HQ. auto.
Qed.
Lemma L_map r1 r2 P Q ex v : (forall w, run r1 w = Ok <-> P w) -> (forall w, run r2 w = Ok <-> Q w) -> forallb trivial_rule ex = true ->
  (run (RType TDict :: RKeys r1 :: RValues r2 :: ex) v = Ok <-> Mapping P Q v).
Proof.
  intros HP HQ He. rewrite run_typed, !run_plain, run_trivial, !nullable_plain, (nullable_trivial ex He) by easy.
  split.
  - intros [[_ H]|[Hn [Ht [[_ H]|[_ [Hc [[_ H]|[_ [Hd _]]]]]]]]]; try discriminate. apply has_dict in Ht. destruct Ht as [d ->].
    exists d. split; [reflexivity|]. intros k w Hi. rewrite check_keys in Hc. rewrite check_values in Hd. rewrite <- HP, <- HQ. eauto.
  - intros [d [-> H]]. right. split; [discriminate|]. split; [reflexivity|]. right. split; [discriminate|]. split.
    + apply check_keys. intros k w Hi. apply HP. now apply (H k w).
    + right. split; [discriminate|]. split; [|discriminate]. apply check_values. intros k w Hi. apply HQ. now apply (H k w).
Qed.
Lemma L_fields fs ex v : forallb trivial_rule ex = true ->
  (run (RType TDict :: RFields fs :: ex) v = Ok <-> exists d, v = PDict d /\ check (RFields fs) (PDict d) = Ok).
Proof.
  intros He. rewrite run_typed, run_plain, run_trivial, nullable_plain, (nullable_trivial ex He) by easy.
  split.
  - intros [[_ H]|[Hn [Ht [[_ H]|[_ [Hc _]]]]]]; try discriminate. apply has_dict in Ht. destruct Ht as [d ->]. now exists d.
  - intros [d [-> H]]. right. repeat split; try discriminate. right. repeat split; try discriminate. exact H.
Qed.
(* fields which are neither required nor exclusive *)
Definition loose (fs : list (string * list rule)) : bool := forallb (fun p : string * list rule => negb (required (snd p)) && match excluded (snd p) with [] => true | _ => false end) fs.
Lemma L_loose fs F d : loose fs = true -> (forall s v, (exists rs, assoc s fs = Some rs /\ run rs v = Ok) <-> F s v) ->
  (check (RFields fs) (PDict d) = Ok <-> named F d).
Proof.
  intros Hl HF. rewrite check_fields. unfold loose in Hl. rewrite forallb_forall in Hl. split.
  - intros [H _] k v Hi. destruct (H k v Hi) as [s [rs [-> [Ha [Hr _]]]]]. exists s. split; [reflexivity|]. apply HF. now exists rs.
  - intros H. split.
    + intros k v Hi. destruct (H k v Hi) as [s [-> Hs]]. apply HF in Hs. destruct Hs as [rs [Ha Hr]]. exists s, rs. repeat split; auto.
      assert (excluded rs = []) as ->; [|now intros f []].
      clear -Ha Hl. induction fs as [|[k' r'] fs IH]; [discriminate|]. cbn [assoc] in Ha. destruct (String.eqb s k').
      * injection Ha as ->. specialize (Hl (k', rs) (or_introl eq_refl)). apply andb_true_iff in Hl. destruct Hl as [_ Hl]. cbn [snd] in Hl. now destruct (excluded rs).
      * apply IH; [|exact Ha]. intros x Hx. apply Hl. now right.
    + unfold present. apply forallb_forall. intros x Hx. apply Hl in Hx. apply andb_true_iff in Hx. destruct Hx as [-> _]. reflexivity.
Qed.
Ltac find_key H s := cbn [assoc] in H;
  repeat match type of H with context [String.eqb s ?k] => destruct (String.eqb_spec s k) as [->|?]; [injection H as <-|] end; try discriminate.
Lemma L_pairrule : forall v, run pair_rule v = Ok <-> Couple Number Number v.
Proof. intros v. now apply L_pair; try apply L_number. Qed.
Lemma L_label : forall v, run [RAnyof [[RType TInteger]; [RType TList; RSeq [RType TInteger]]]] v = Ok <-> Integer v \/ Sequence Integer v.
Proof.
  intros v. rewrite run_plain, run_nil by easy. rewrite check_any.
  2:{ intros rs [<-|[<-|[]]]; [apply one_type_fine|]. apply typed_fine. intros _ _. apply plain_fine; [easy| |apply nil_fine]. intros _. apply seq_fine, one_type_fine. }
  rewrite <- (L_seq [RType TInteger] Integer [] v L_integer eq_refl), <- (L_integer v). split.
  - intros [[_ H]|[_ [[rs [[<-|[<-|[]]] H]] _]]]; try discriminate; auto.
  - intros H. right. assert (v <> PNone) by (intros ->; destruct H; discriminate). repeat split; auto. destruct H as [H|H]; eexists; (split; [|exact H]); cbn; auto.
Qed.
Lemma L_box : forall d, check (RFields box_schema) (PDict d) = Ok <-> named box_field d.
Proof.
  intros d. apply L_loose; [reflexivity|]. intros s v. split.
  - intros [rs [Ha Hr]]. unfold box_schema in Ha. find_key Ha s; try (apply L_pairrule in Hr; now constructor). apply L_label in Hr. now constructor.
  - intros H. destruct H as [v H|v H|v H|v H]; eexists; (split; [reflexivity|]); now try apply L_pairrule; try apply L_label.
Qed.
Lemma L_call : forall v, run [RType TList; RItems [[RType TFunction]; [RType TList]]] v = Ok <-> Couple Function (Sequence Any) v.
Proof. intros v. now apply L_pair; [apply L_function|apply L_list|]. Qed.
Lemma call_fine rs : (forall w, run rs w <> Raise) -> forall v, run [RType TList; RItems [[RType TFunction]; rs]] v <> Raise.
Proof. intros H v. apply typed_fine. intros _ Ht. apply plain_fine; [easy| |apply nil_fine]. intros _. apply pair_fine; [exact Ht|apply one_type_fine|exact H]. Qed.
Lemma L_value : forall v, run [RAnyof [[RType TFunction]; [RType TList; RItems [[RType TFunction]; [RType TList; RNullable]]]]] v = Ok <->
  Function v \/ Couple Function (fun w => w = PNone \/ Sequence Any w) v.
Proof.
  intros v. rewrite run_plain, run_nil by easy. rewrite check_any.
  2:{ intros rs [<-|[<-|[]]]; [apply one_type_fine|]. apply call_fine. intros w. destruct w; discriminate. }
  rewrite <- (L_pair [RType TFunction] [RType TList; RNullable] Function _ [] v L_function L_listnull eq_refl), <- (L_function v). split.
  - intros [[_ H]|[_ [[rs [[<-|[<-|[]]] H]] _]]]; try discriminate; auto.
  - intros H. right. assert (v <> PNone) by (intros ->; destruct H; discriminate). repeat split; auto. destruct H as [H|H]; eexists; (split; [|exact H]); cbn; auto.
Qed.
Lemma L_start : forall v, run [RAnyof [[RType TNumber]; [RType TFunction]; [RType TList; RItems [[RType TFunction]; [RType TList]]]]] v = Ok <->
  Number v \/ Function v \/ Couple Function (Sequence Any) v.
Proof.
  intros v. rewrite run_plain, run_nil by easy. rewrite check_any.
  2:{ intros rs [<-|[<-|[<-|[]]]]; try apply one_type_fine. apply call_fine, one_type_fine. }
  rewrite <- L_call, <- (L_function v), <- (L_number v). split.
  - intros [[_ H]|[_ [[rs [[<-|[<-|[<-|[]]]] H]] _]]]; try discriminate; auto.
  - intros H. right. assert (v <> PNone) by (intros ->; destruct H as [H|[H|H]]; discriminate). repeat split; auto. destruct H as [H|[H|H]]; eexists; (split; [|exact H]); cbn; auto.
Qed.
Lemma L_conserved ex : forallb trivial_rule ex = true -> forall v, run (RAnyof [[RType TSymbol]; [RType TList; RSeq [RType TSymbol]]] :: ex) v = Ok <-> Symbol v \/ Sequence Symbol v.
Proof.
  intros He v. rewrite run_plain, run_trivial, (nullable_trivial ex He) by easy. rewrite check_any.
  2:{ intros rs [<-|[<-|[]]]; [apply one_type_fine|]. apply typed_fine. intros _ _. apply plain_fine; [easy| |apply nil_fine]. intros _. apply seq_fine, one_type_fine. }
  rewrite <- (L_seq [RType TSymbol] Symbol [] v L_symbol eq_refl), <- (L_symbol v). split.
  - intros [[_ H]|[_ [[rs [[<-|[<-|[]]] H]] _]]]; try discriminate; auto.
  - intros H. right. assert (v <> PNone) by (intros ->; destruct H; discriminate). repeat split; auto. destruct H as [H|H]; eexists; (split; [|exact H]); cbn; auto.
Qed.
Lemma L_velocity ex : forallb trivial_rule ex = true -> forall v, run (RAnyof [[RType TNumber]; [RType TSymbol]] :: ex) v = Ok <-> Number v \/ Symbol v.
Proof.
  intros He v. rewrite run_plain, run_trivial, (nullable_trivial ex He) by easy. rewrite check_any.
  2:{ intros rs [<-|[<-|[]]]; apply one_type_fine. }
  rewrite <- (L_symbol v), <- (L_number v). split.
  - intros [[_ H]|[_ [[rs [[<-|[<-|[]]] H]] _]]]; try discriminate; auto.
  - intros H. right. assert (v <> PNone) by (intros ->; destruct H; discriminate). repeat split; auto. destruct H as [H|H]; eexists; (split; [|exact H]); cbn; auto.
Qed.
Lemma L_matrix ex : forallb trivial_rule ex = true -> forall v, run (RType TMatrix :: ex) v = Ok <-> exists n m, v = PMatrix n m.
Proof.
  intros He v. rewrite run_typed, run_trivial, (nullable_trivial ex He) by easy. destruct v; cbn; split; try (intros [[? ?]|[? [? ?]]]; discriminate); try (intros [? [? ?]]; discriminate).
  - intros _. now exists n, m.
  - intros _. right. repeat split; discriminate.
Qed.
Lemma L_bdict : forall d, check (RFields boundary_schema) (PDict d) = Ok <-> named boundary_field d.
Proof.
  intros d. apply L_loose; [reflexivity|]. intros s v. split.
  - intros [rs [Ha Hr]]. unfold boundary_schema in Ha. find_key Ha s; constructor.
    + now apply (L_map _ _ _ _ [] v L_integer L_isboundary eq_refl).
    + now apply L_value.
    + now apply L_bool.
  - intros H. destruct H as [v H|v H|v H]; eexists; (split; [reflexivity|]).
    + now apply (L_map _ _ _ _ [] v L_integer L_isboundary eq_refl).
    + now apply L_value.
    + now apply L_bool.
Qed.
Lemma L_condition : forall v, run [RFields boundary_schema] v = Ok <-> Condition v.
Proof.
  intros v. rewrite run_plain, run_nil by easy. unfold Condition. cbn [nullable existsb]. split.
  - intros [[_ H]|[Hv [Hc _]]]; [discriminate|]. split; [exact Hv|]. split.
    + intros w l. split; intros ->; discriminate.
    + intros d ->. now apply L_bdict.
  - intros [Hv [Hl Hd]]. right. split; [exact Hv|]. split; [|exact Hv]. destruct v; try reflexivity.
    + destruct l; [reflexivity|]. destruct (Hl p l). congruence.
    + destruct l; [reflexivity|]. destruct (Hl p l). congruence.
    + apply L_bdict. now apply Hd.
Qed.
Lemma L_codegen : forall d, check (RFields [("directory", [RType TString]); ("generate", [RType TBoolean])]) (PDict d) = Ok <->
  named (fun k w => k = "directory" /\ (exists s, w = PStr s) \/ k = "generate" /\ Bool w) d.
Proof.
  intros d. apply L_loose; [reflexivity|]. intros s v. split.
  - intros [rs [Ha Hr]]. find_key Ha s; [left|right]; split; try reflexivity; [now apply L_string|now apply L_bool].
  - intros [[-> H]|[-> H]]; eexists; (split; [reflexivity|]); [now apply L_string|now apply L_bool].
Qed.
Lemma L_algorithm : forall d, check (RFields [("name", [RIsAlgorithm]); ("settings", [RType TDict])]) (PDict d) = Ok <->
  named (fun k w => k = "name" /\ (exists n b, w = PClass n b true) \/ k = "settings" /\ (exists d, w = PDict d)) d.
Proof.
  intros d. apply L_loose; [reflexivity|]. intros s v. split.
  - intros [rs [Ha Hr]]. find_key Ha s; [left|right]; split; try reflexivity; [now apply L_isalgorithm|now apply L_dict].
  - intros [[-> H]|[-> H]]; eexists; (split; [reflexivity|]); [now apply L_isalgorithm|now apply L_dict].
Qed.

(* ---- one elementary scheme ---- *)
Lemma scheme_values c s v : (exists rs, assoc s (scheme_schema c) = Some rs /\ run rs v = Ok) <-> scheme_field s v.
Proof.
  split.
  - intros [rs [Ha Hr]]. unfold scheme_schema in Ha. find_key Ha s.
    + constructor. revert Hr. now apply L_seq; [apply L_nat|].
    + apply L_matrix in Hr; [|reflexivity]. destruct Hr as [n1 [m1 ->]]. constructor.
    + constructor. revert Hr. now apply L_seq; [apply L_expression|].
    + constructor. revert Hr. now apply L_seq; [apply L_expression|].
    + constructor. revert Hr. now apply L_seq; [apply L_expression|].
    + constructor. revert Hr. now apply L_pair; [apply L_function|apply L_list|].
    + constructor. revert Hr. now apply L_conserved.
    + constructor. revert Hr. now apply (L_map _ _ _ _ [] v L_symbol L_expression').
  - intros H. destruct H; eexists; (split; [reflexivity|]).
    + revert H. now apply L_seq; [apply L_nat|].
    + apply L_matrix; [reflexivity|]. now exists n, m.
    + revert H. now apply L_seq; [apply L_expression|].
    + revert H. now apply L_seq; [apply L_expression|].
    + revert H. now apply L_seq; [apply L_expression|].
    + revert H. now apply L_pair; [apply L_function|apply L_list|].
    + revert H. now apply L_conserved.
    + revert H. now apply (L_map _ _ _ _ [] v L_symbol L_expression').
Qed.
Lemma scheme_present c d : present (scheme_schema c) d = true <->
  (c <> CGeometry -> mem "velocities" d = true) /\
  (full c -> (mem "M" d = true \/ mem "polynomials" d = true) /\ (mem "equilibrium" d = true \/ mem "feq" d = true) /\
             mem "relaxation_parameters" d = true /\ mem "conserved_moments" d = true).
Proof.
  unfold present, unrequired, scheme_schema, full, among.
  destruct c; cbn -[mem]; repeat rewrite ?andb_false_r, ?andb_true_r, ?orb_true_r, ?orb_false_r; cbn -[mem];
    destruct (mem "velocities" d); cbn -[mem]; try solve [intuition congruence];
    destruct (mem "M" d), (mem "polynomials" d); cbn -[mem]; try solve [intuition congruence];
    destruct (mem "equilibrium" d), (mem "feq" d); cbn -[mem]; try solve [intuition congruence];
    destruct (mem "relaxation_parameters" d), (mem "conserved_moments" d); cbn -[mem]; intuition congruence.
Qed.
Lemma L_elementary c d : check (RFields (scheme_schema c)) (PDict d) = Ok <-> elementary c d.
Proof.
  rewrite check_fields, scheme_present, !mem_has. unfold elementary. split.
  - intros [H [Hv Hf]]. repeat split; auto; try tauto.
    + intros k v Hi. destruct (H k v Hi) as [s [rs [-> [Ha [Hr _]]]]]. exists s. split; [reflexivity|]. apply (scheme_values c). now exists rs.
    + intros [[v Hi] Hp]. destruct (H _ v Hi) as [s [rs [[= <-] [Ha [_ He]]]]]. injection Ha as <-. revert Hp. apply He. now left.
    + intros [[v Hi] Hp]. destruct (H _ v Hi) as [s [rs [[= <-] [Ha [_ He]]]]]. injection Ha as <-. revert Hp. apply He. now left.
  - intros [Hn [Hv [H1 [H2 Hf]]]]. split; [|tauto]. intros k v Hi. destruct (Hn k v Hi) as [s [-> Hs]].
    apply (scheme_values c) in Hs. destruct Hs as [rs [Ha Hr]]. exists s, rs. repeat split; auto.
    assert (has s d) by (now exists v). unfold scheme_schema in Ha. find_key Ha s; cbn; intros f Hff; try contradiction; destruct Hff as [<-|[]]; tauto.
Qed.
(* ---- the whole dictionary ---- *)
Lemma L_dim ex : forallb trivial_rule ex = true -> forall v, run (RType TInteger :: RAllowed [PInt 1; PInt 2; PInt 3] :: ex) v = Ok <-> exists z, v = PInt z /\ (z = 1 \/ z = 2 \/ z = 3).
Proof.
  intros He v. rewrite run_typed, run_plain, run_trivial, nullable_plain, (nullable_trivial ex He) by easy.
  destruct v; cbn [has_type check existsb same orb]; split; try (intros [[? ?]|[? [? ?]]]; discriminate); try (intros [? [? ?]]; discriminate).
  - intros [[? ?]|[_ [_ [[? ?]|[_ [H _]]]]]]; try discriminate. apply of_bool_ok in H. exists z. split; [reflexivity|]. lia.
  - intros [y [[= ->] H]]. right. repeat split; try discriminate. right. repeat split; try discriminate. apply of_bool_ok. lia.
Qed.
Lemma L_step ex : forallb trivial_rule ex = true -> forall v, run (RType TNumber :: RMin 0 :: ex) v = Ok <->
  (exists z, v = PInt z /\ 0 <= z) \/ (exists q, v = PFloat q /\ (0 <= q)%Q).
Proof.
  intros He v. rewrite run_typed, run_plain, run_trivial, nullable_plain, (nullable_trivial ex He) by easy.
  destruct v; cbn [has_type check at_least]; split; try (intros [[? ?]|[? [? ?]]]; discriminate); try (intros [[? [? ?]]|[? [? ?]]]; discriminate).
  - intros [[? ?]|[_ [_ [[? ?]|[_ [H _]]]]]]; try discriminate. apply of_bool_ok in H. left. exists z. split; [reflexivity|]. lia.
  - intros [[y [[= ->] H]]|[y [? ?]]]; [|discriminate]. right. repeat split; try discriminate. right. repeat split; try discriminate. apply of_bool_ok. lia.
  - intros [[? ?]|[_ [_ [[? ?]|[_ [H _]]]]]]; try discriminate. apply of_bool_ok, Qle_bool_iff in H. right. now exists q.
  - intros [[y [? ?]]|[y [[= ->] H]]]; [discriminate|]. right. repeat split; try discriminate. right. repeat split; try discriminate. now apply of_bool_ok, Qle_bool_iff.
Qed.
Lemma L_among (l : list string) : forall v, run [RType TString; RAllowed (map PStr l)] v = Ok <-> exists s, v = PStr s /\ In s l.
Proof.
  intros v. rewrite run_typed, run_plain, run_nil by easy. cbn [nullable existsb].
  destruct v; cbn [has_type check]; split; try (intros [[? ?]|[? [? ?]]]; discriminate); try (intros [? [? ?]]; discriminate).
  - intros [[? ?]|[_ [_ [[? ?]|[_ [H _]]]]]]; try discriminate. apply of_bool_ok, existsb_exists in H. destruct H as [w [Hw E]].
    apply in_map_iff in Hw. destruct Hw as [x [<- Hx]]. cbn in E. apply String.eqb_eq in E. subst. now exists x.
  - intros [y [[= ->] H]]. right. repeat split; try discriminate. right. repeat split; try discriminate.
    apply of_bool_ok, existsb_exists. exists (PStr y). split; [now apply in_map|]. cbn. apply String.eqb_refl.
Qed.
Lemma L_schemes c : forall v, run [RType TDict; RFields (scheme_schema c)] v = Ok <-> exists s, v = PDict s /\ elementary c s.
Proof. intros v. rewrite L_fields by reflexivity. split; intros [s [-> H]]; exists s; split; auto; now apply L_elementary. Qed.
Lemma top_values c s v : (exists rs, assoc s (schema c) = Some rs /\ run rs v = Ok) <-> field c s v.
Proof.
  split.
  - intros [rs [Ha Hr]]. unfold schema in Ha. find_key Ha s.
    + apply L_dim in Hr; [|reflexivity]. destruct Hr as [z [-> H]]. now constructor.
    + apply L_fields in Hr; [|reflexivity]. destruct Hr as [d [-> H]]. constructor. exists d. split; [reflexivity|]. now apply L_box.
    + constructor. revert Hr. now apply L_seq; [apply L_element|].
    + constructor. revert Hr. now apply L_step.
    + constructor. revert Hr. now apply L_velocity.
    + constructor. revert Hr. now apply L_seq; [apply L_schemes|].
    + constructor. revert Hr. now apply (L_map _ _ _ _ [] v L_symbol L_expression').
    + apply (L_among ["moments"; "distributions"]) in Hr. destruct Hr as [s [-> H]]. constructor. cbn in H. intuition.
    + constructor. revert Hr. now apply L_map; [apply L_key|apply L_start|].
    + constructor. revert Hr. now apply (L_map _ _ _ _ [] v L_integer L_condition).
    + constructor. revert Hr. now apply L_seq; [apply L_expression|].
    + apply (L_among ["numpy"; "cython"; "loopy"]) in Hr. destruct Hr as [s [-> H]]. constructor. cbn in H. intuition.
    + apply L_fields in Hr; [|reflexivity]. destruct Hr as [d [-> H]]. constructor. exists d. split; [reflexivity|]. now apply L_codegen.
    + apply L_fields in Hr; [|reflexivity]. destruct Hr as [d [-> H]]. constructor. exists d. split; [reflexivity|]. now apply L_algorithm.
    + constructor. now apply L_bool.
  - intros H. destruct H; eexists; (split; [reflexivity|]).
    + apply L_dim; [reflexivity|]. now exists z.
    + destruct H as [d [-> H]]. apply L_fields; [reflexivity|]. exists d. split; [reflexivity|]. now apply L_box.
    + revert H. now apply L_seq; [apply L_element|].
    + revert H. now apply L_step.
    + revert H. now apply L_velocity.
    + revert H. now apply L_seq; [apply L_schemes|].
    + revert H. now apply (L_map _ _ _ _ [] v L_symbol L_expression').
    + apply (L_among ["moments"; "distributions"]). exists s. split; [reflexivity|]. cbn. intuition.
    + revert H. now apply L_map; [apply L_key|apply L_start|].
    + revert H. now apply (L_map _ _ _ _ [] v L_integer L_condition).
    + revert H. now apply L_seq; [apply L_expression|].
    + apply (L_among ["numpy"; "cython"; "loopy"]). exists s. split; [reflexivity|]. cbn. intuition.
    + destruct H as [d [-> H]]. apply L_fields; [reflexivity|]. exists d. split; [reflexivity|]. now apply L_codegen.
    + destruct H as [d [-> H]]. apply L_fields; [reflexivity|]. exists d. split; [reflexivity|]. now apply L_algorithm.
    + now apply L_bool.
Qed.
Lemma top_present c d : present (schema c) d = true <->
  (c = CStencil \/ c = CScheme -> mem "dim" d = true \/ mem "box" d = true) /\
  (c = CDomain \/ c = CGeometry \/ c = CSimulation -> mem "box" d = true) /\
  (c = CDomain \/ c = CSimulation -> mem "space_step" d = true) /\
  (full c -> mem "scheme_velocity" d = true) /\
  (c <> CGeometry -> mem "schemes" d = true) /\
  (c = CSimulation -> mem "init" d = true).
Proof.
  unfold present, unrequired, schema, full, among.
  destruct c; cbn -[mem]; repeat rewrite ?andb_false_r, ?andb_true_r, ?orb_true_r, ?orb_false_r; cbn -[mem];
    destruct (mem "dim" d), (mem "box" d); cbn -[mem]; try solve [intuition congruence];
    destruct (mem "space_step" d), (mem "scheme_velocity" d); cbn -[mem]; try solve [intuition congruence];
    destruct (mem "schemes" d), (mem "init" d); cbn -[mem]; intuition congruence.
Qed.
Lemma accepted c d : verdict c d = Ok <-> dictionary c d.
Proof.
  unfold verdict. rewrite check_fields, top_present, !mem_has. unfold dictionary. split.
  - intros [H Hp]. split; [|split].
    + intros k v Hi. destruct (H k v Hi) as [s [rs [-> [Ha [Hr _]]]]]. exists s. split; [reflexivity|]. apply top_values. now exists rs.
    + intros [[v Hi] Hb]. destruct (H _ v Hi) as [s [rs [[= <-] [Ha [_ He]]]]]. injection Ha as <-. revert Hb. apply He. now left.
    + tauto.
  - intros [Hn [Hd H]]. split; [|tauto]. intros k v Hi. destruct (Hn k v Hi) as [s [-> Hs]].
    apply top_values in Hs. destruct Hs as [rs [Ha Hr]]. exists s, rs. repeat split; auto.
    assert (has s d) by (now exists v). unfold schema in Ha. find_key Ha s; cbn; intros f Hff; try contradiction; destruct Hff as [<-|[]]; tauto.
Qed.

(* ---- the exceptions of the validator ---- *)
Lemma fields_fine fs v : (forall s rs w, In (s, rs) fs -> (exists d, v = PDict d /\ In (PStr s, w) d) -> run rs w <> Raise) ->
  (forall w l, v <> PList (w :: l) /\ v <> PTuple (w :: l)) -> check (RFields fs) v <> Raise.
Proof.
  intros H Hl. destruct v; try discriminate.
  - destruct l as [|w l]; [discriminate|]. destruct (Hl w l). congruence.
  - destruct l as [|w l]; [discriminate|]. destruct (Hl w l). congruence.
  - cbn [check]. fold run. apply both_fine. split; [|apply of_bool_fine]. apply every_map_fine. intros [k v] Hi. cbn [fst snd].
    assert (forall fs', incl fs' fs -> (fix go (l0 : list (string * list rule)) : outcome := match l0 with
                      | [] => Bad
                      | (key, rs) :: l0 => if key_is key k then both (run rs v) (of_bool (forallb (fun f => negb (mem f l)) (excluded rs)))
                                          else go l0
                      end) fs' <> Raise) as E.
    { induction fs' as [|[key rs] fs' IH]; intros Hs; [discriminate|]. destruct (key_is key k) eqn:Ek.
      - apply both_fine. split; [|apply of_bool_fine]. apply key_is_true in Ek. subst k. apply (H key rs v); [apply Hs; now left|]. now exists l.
      - apply IH. intros x Hx. apply Hs. now right. }
    apply E. apply incl_refl.
Qed.
Lemma trivial_fine ex v : forallb trivial_rule ex = true -> run ex v <> Raise.
Proof. intros He H. destruct (none_dec v) as [->|Hv]; [revert H; apply of_bool_fine|]. apply (run_trivial ex v He) in Hv. congruence. Qed.
Lemma expression_fine v : run expression v <> Raise. Proof. destruct v; discriminate. Qed.
Lemma listnull_fine v : run [RType TList; RNullable] v <> Raise. Proof. destruct v; discriminate. Qed.
Ltac fine := repeat first [apply expression_fine | apply listnull_fine | match goal with |- check (RMin _) _ <> _ => apply of_bool_fine | |- check (RAllowed _) _ <> _ => apply of_bool_fine
    | |- check RIsBoundary _ <> _ => apply of_bool_fine | |- check RIsAlgorithm _ <> _ => apply of_bool_fine end | apply trivial_fine; reflexivity | apply one_type_fine | apply typed_fine; intros ? ? | apply plain_fine; [easy|intros ?|]
  | apply seq_fine; intros ? | apply keys_fine; intros ? | apply values_fine; intros ? | apply nil_fine
  | apply pair_fine; [assumption|intros ?|intros ?]
  | apply any_fine; let rs := fresh in let H := fresh in intros rs H; cbn [In] in H; repeat (destruct H as [<-|H]; [|]); try contradiction ].
Lemma scheme_fine c v : run [RType TDict; RFields (scheme_schema c)] v <> Raise.
Proof.
  apply typed_fine. intros _ Ht. apply has_dict in Ht. destruct Ht as [d ->]. apply plain_fine; [easy| |apply nil_fine]. intros _.
  apply fields_fine; [|split; discriminate]. intros s rs w Hi _. unfold scheme_schema in Hi. cbn [In] in Hi.
  repeat (destruct Hi as [[= <- <-]|Hi]); try contradiction; fine.
Qed.
Lemma verdict_fine c d :
  (forall bc k v l w, In (PStr "boundary_conditions", PDict bc) d -> In (k, v) bc -> v <> PList (w :: l) /\ v <> PTuple (w :: l)) -> verdict c d <> Raise.
Proof.
  intros Hb. unfold verdict. apply fields_fine; [|split; discriminate].
  intros s rs w Hi [d' [[= <-] Hw]]. unfold schema in Hi. cbn [In] in Hi.
  repeat (destruct Hi as [[= <- <-]|Hi]); try contradiction; try solve [fine].
  - apply typed_fine. intros _ Ht. apply has_dict in Ht. destruct Ht as [b ->]. apply plain_fine; [easy| |fine]. intros _.
    apply fields_fine; [|split; discriminate]. intros s rs w Hi _. unfold box_schema, pair_rule in Hi. cbn [In] in Hi.
    repeat (destruct Hi as [[= <- <-]|Hi]); try contradiction; fine.
  - apply typed_fine. intros _ _. apply plain_fine; [easy| |fine]. intros _. apply seq_fine. intros x. apply scheme_fine.
  - apply typed_fine. intros _ Ht. apply has_dict in Ht. destruct Ht as [bc ->]. apply plain_fine; [easy|intros _; fine|]. apply plain_fine; [easy|intros _|fine].
    cbn [check]. fold run. apply every_map_fine. intros [k v] Hi. cbn [snd]. apply plain_fine; [easy| |fine]. intros _.
    apply fields_fine; [|intros x l; exact (Hb bc k v l x Hw Hi)]. intros s rs w Hs _. unfold boundary_schema in Hs. cbn [In] in Hs.
    repeat (destruct Hs as [[= <- <-]|Hs]); try contradiction; fine.
  - apply typed_fine. intros _ Ht. apply has_dict in Ht. destruct Ht as [b ->]. apply plain_fine; [easy| |fine]. intros _.
    apply fields_fine; [|split; discriminate]. intros s rs w Hi _. cbn [In] in Hi.
    repeat (destruct Hi as [[= <- <-]|Hi]); try contradiction; fine.
  - apply typed_fine. intros _ Ht. apply has_dict in Ht. destruct Ht as [b ->]. apply plain_fine; [easy| |fine]. intros _.
    apply fields_fine; [|split; discriminate]. intros s rs w Hi _. cbn [In] in Hi.
    repeat (destruct Hi as [[= <- <-]|Hi]); try contradiction; fine.
Qed.

(* ---- the message ---- the dictionaries which rec_dict visits *)
Inductive visits : pv -> list (pv * pv) -> Prop :=
| VSelf d : visits (PDict d) d
| VDict d k e d' : In (k, PDict e) d -> visits (PDict e) d' -> visits (PDict d) d'
| VList d k e l d' : In (k, PList (PDict e :: l)) d -> visits (PList (PDict e :: l)) d' -> visits (PDict d) d'
| VElement l w d' : In w l -> visits w d' -> visits (PList l) d'.
Fixpoint pv_nested (P : pv -> Prop) (Hl : forall l, Forall P l -> P (PList l)) (Hd : forall d, Forall (fun p => P (snd p)) d -> P (PDict d))
  (Ho : forall v, (forall l, v <> PList l) -> (forall d, v <> PDict d) -> P v) (v : pv) {struct v} : P v.
Proof.
  destruct v; try (apply Ho; discriminate).
  - apply Hl. induction l as [|a l IH]; constructor; [apply pv_nested; assumption|exact IH].
  - apply Hd. induction l as [|[k a] l IH]; constructor; [apply pv_nested; assumption|exact IH].
Defined.
Lemma shown_cons w l : shown (PList (w :: l)) = match shown w with Some _ => shown (PList l) | None => None end.
Proof. now destruct w. Qed.
Definition entry_shown (w : pv) : option unit := match w with PList [] => None | PList (PDict _ :: _) | PDict _ => shown w | _ => Some tt end.
Lemma shown_entry k w d : shown (PDict ((k, w) :: d)) = match entry_shown w with Some _ => shown (PDict d) | None => None end.
Proof. reflexivity. Qed.
Lemma shown_spec v : shown v <> None <-> forall d, visits v d -> forall k, ~ In (k, PList []) d.
Proof.
  induction v as [l H|d H|v Hl Hd] using pv_nested.
  - transitivity (Forall (fun w => shown w <> None) l).
    + clear H. induction l as [|w l IH]; [split; [constructor|discriminate]|]. rewrite shown_cons, Forall_cons_iff, <- IH.
      destruct (shown w); split; try tauto; try (intros []; congruence). intros H. split; [discriminate|exact H].
    + rewrite Forall_forall in *. split.
      * intros E d Hv. inversion Hv; subst. apply (H w); auto.
      * intros E w Hw. apply (H w Hw). intros d Hv. apply E. now apply (VElement l w).
  - transitivity (Forall (fun p : pv * pv => entry_shown (snd p) <> None) d).
    + clear H. induction d as [|[k w] d IH]; [split; [constructor|discriminate]|]. rewrite shown_entry, Forall_cons_iff, <- IH. cbn [snd].
      destruct (entry_shown w); split; try tauto; try (intros []; congruence). intros H. split; [discriminate|exact H].
    + rewrite Forall_forall in *. split.
      * intros E d' Hv k Hk. inversion Hv as [d0|d0 k0 e d0' H0 H1|d0 k0 e l d0' H0 H1|]; subst.
        -- now apply (E _ Hk).
        -- assert (shown (PDict e) <> None) as Es by (apply (E _ H0)). revert Hk. apply (proj1 (H _ H0)); assumption.
        -- assert (shown (PList (PDict e :: l)) <> None) as Es by (apply (E _ H0)). revert Hk. apply (proj1 (H _ H0)); assumption.
      * intros E [k w] Hi. cbn [snd]. destruct w; try discriminate.
        -- destruct l as [|w l]; [now destruct (E d (VSelf d) k)|]. destruct w; try discriminate.
           apply (proj2 (H _ Hi)). intros d' Hv. apply E. now apply (VList d k l0 l).
        -- apply (proj2 (H _ Hi)). intros d' Hv. apply E. now apply (VDict d k l).
  - split; [|intros _; destruct v; try discriminate; [now destruct (Hl l)|now destruct (Hd l)]].
    intros _ d Hv. inversion Hv; subst; [now destruct (Hd d)|now destruct (Hd d0)|now destruct (Hd d0)|now destruct (Hl l)].
Qed.

(* ---- reading an accepted dictionary ---- *)
Lemma get_in k d v : get k d = Some v -> In (PStr k, v) d.
Proof.
  unfold get. intros H. destruct (find _ d) as [[x w]|] eqn:E; [|discriminate]. injection H as <-. apply find_some in E. destruct E as [Hi E].
  apply key_is_true in E. cbn in E. now subst x.
Qed.
Lemma get_none k d : get k d = None <-> ~ has k d.
Proof.
  unfold get. destruct (find _ d) as [[x w]|] eqn:E; cbn.
  - split; [discriminate|]. intros H. apply find_some in E. destruct E as [Hi E]. apply key_is_true in E. cbn in E. subst x. destruct H. now exists w.
  - split; [|reflexivity]. intros _ [v Hi]. apply (find_none _ _ E) in Hi. cbn in Hi. rewrite String.eqb_refl in Hi. discriminate.
Qed.
Lemma get_has k d : has k d <-> exists v, get k d = Some v.
Proof.
  destruct (get k d) as [v|] eqn:E.
  - split; [now exists v|]. intros _. exists v. now apply get_in.
  - apply get_none in E. split; [contradiction|]. intros [v H]. discriminate.
Qed.
Lemma all_some A B (f : A -> option B) l : (exists r, all f l = Some r) <-> forall a, In a l -> exists b, f a = Some b.
Proof.
  induction l as [|a l IH]; cbn [all In].
  - split; [easy|]. intros _. now exists [].
  - split.
    + intros [r H]. destruct (f a) as [b|] eqn:Ea; [|discriminate]. destruct (all f l) as [bs|]; [|discriminate].
      intros x [<-|Hx]; [now exists b|]. apply IH; [now exists bs|exact Hx].
    + intros H. destruct (H a (or_introl eq_refl)) as [b ->]. destruct (proj2 IH (fun x Hx => H x (or_intror Hx))) as [bs ->]. now exists (b :: bs).
Qed.
Lemma all_in A B (f : A -> option B) l r b : all f l = Some r -> (In b r <-> exists a, In a l /\ f a = Some b).
Proof.
  revert r. induction l as [|a l IH]; cbn [all In]; intros r H.
  - injection H as <-. split; [easy|]. now intros [a [[] _]].
  - destruct (f a) as [b'|] eqn:Ea; [|discriminate]. destruct (all f l) as [bs|]; [|discriminate]. injection H as <-. cbn [In]. rewrite (IH bs eq_refl). split.
    + intros [<-|[x [Hx E]]]; [exists a; auto|exists x; auto].
    + intros [x [[<-|Hx] E]]; [left; congruence|right; now exists x].
Qed.
Lemma bind_some A B (o : option A) (f : A -> option B) : (exists r, bind o f = Some r) <-> exists a, o = Some a /\ exists r, f a = Some r.
Proof.
  destruct o as [a|]; cbn [bind].
  - split; [intros H; now exists a|]. now intros [x [[= <-] H]].
  - split; [now intros [r H]|now intros [x [H _]]].
Qed.
Lemma seq_of_in v l : seq_of v = Some l <-> v = PList l \/ v = PTuple l.
Proof. destruct v; cbn; split; try discriminate; try (intros [H|H]; discriminate); [intros [= ->]; now left|intros [[= ->]|H]; [reflexivity|discriminate]|intros [= ->]; now right|intros [H|[= ->]]; [discriminate|reflexivity]]. Qed.
Lemma map_some A B (f : A -> B) o : (exists r, option_map f o = Some r) <-> exists a, o = Some a.
Proof. destruct o as [a|]; cbn; split; intros [x H]; try discriminate; eauto. Qed.

Section Accepted.
Variables (c : class) (d : list (pv * pv)).
Hypothesis Hd : dictionary c d.
Ltac field_of k Hg := let s := fresh in let E := fresh in
  pose proof (proj1 Hd _ _ (get_in _ _ _ Hg)) as [s [[= <-] E]]; inversion E; subst; clear E; try match goal with H : Record_ _ _ |- _ => rename H into Hfld | H : Sequence _ _ |- _ => rename H into Hfld | H : Mapping _ _ _ |- _ => rename H into Hfld end.

(* the box has the interval of the first axis *)
Definition has_x : Prop := exists b, get "box" d = Some (PDict b) /\ has "x" b.
(* the number of axes of the box *)
Definition axes (b : list (pv * pv)) (n : Z) : Prop :=
  (n = 1 /\ ~ has "y" b) \/ (n = 2 /\ has "y" b /\ ~ has "z" b) \/ (n = 3 /\ has "y" b /\ has "z" b).
Lemma box_dict v : get "box" d = Some v -> exists b, v = PDict b /\ named box_field b.
Proof. intros H. field_of "box" H. assumption. Qed.
Lemma get_box_some : (exists r, get_box d = Some r) <-> has_x.
Proof.
  unfold get_box. rewrite bind_some. split.
  - intros [v [Hv H]]. destruct (box_dict v Hv) as [b [-> _]]. cbn [entries bind] in H. apply bind_some in H. destruct H as [x [Hx _]].
    exists b. split; [exact Hv|]. apply get_has. now exists x.
  - intros [b [Hb Hx]]. exists (PDict b). split; [exact Hb|]. cbn [entries bind]. apply bind_some. apply get_has in Hx. destruct Hx as [x Hx]. exists x. split; [exact Hx|]. eexists. reflexivity.
Qed.
Lemma get_box_axes r b : get_box d = Some r -> get "box" d = Some (PDict b) -> axes b (fst r).
Proof.
  unfold get_box. intros H Hb. rewrite Hb in H. cbn [bind entries] in H. destruct (get "x" b) as [x|]; [|discriminate]. cbn [bind] in H. injection H as <-. unfold axes.
  destruct (get "y" b) as [y|] eqn:Ey; [|left; split; [reflexivity|now apply get_none]].
  assert (has "y" b) by (apply get_has; now exists y).
  destruct (get "z" b) as [z|] eqn:Ez; [right; right|right; left]; repeat split; auto; [apply get_has; now exists z|now apply get_none].
Qed.
Lemma axes_fun b n m : axes b n -> axes b m -> n = m.
Proof. unfold axes. intuition congruence. Qed.
Lemma extract_dim_some : (exists n, extract_dim d = Some n) <-> has "dim" d \/ has_x.
Proof.
  unfold extract_dim. destruct (get "dim" d) as [v|] eqn:E.
  - assert (has "dim" d) by (apply get_has; now exists v). field_of "dim" E.
    split; [tauto|]. intros _. destruct (z =? 0) eqn:Ez; [lia|]. eexists. reflexivity.
  - apply get_none in E. rewrite map_some, get_box_some. tauto.
Qed.
Lemma schemes_some : c <> CGeometry -> exists ss, schemes_of d = Some ss /\ Forall (elementary c) ss.
Proof.
  intros Hc. destruct Hd as [_ [_ [_ [_ [_ [_ [Hs _]]]]]]]. specialize (Hs Hc). apply get_has in Hs. destruct Hs as [v Hv].
  unfold schemes_of. rewrite Hv. cbn [bind]. field_of "schemes" Hv. destruct Hfld as [l [Hl HF]]. apply seq_of_in in Hl. rewrite Hl. cbn [bind].
  rewrite Forall_forall in HF. destruct (proj2 (all_some _ _ entries l)) as [ss Hss].
  { intros a Ha. destruct (HF a Ha) as [s [-> _]]. now exists s. }
  exists ss. split; [exact Hss|]. apply Forall_forall. intros s Hin. apply (all_in _ _ _ _ _ s Hss) in Hin. destruct Hin as [a [Ha E]].
  destruct (HF a Ha) as [s' [-> He]]. cbn in E. congruence.
Qed.
Lemma velocities_some s : c <> CGeometry -> elementary c s -> exists vs, velocities_of s = Some vs /\ Forall (fun z => 0 <= z) vs.
Proof.
  intros Hc [Hn [Hv _]]. specialize (Hv Hc). apply get_has in Hv. destruct Hv as [v Hv]. unfold velocities_of. rewrite Hv. cbn [bind].
  destruct (Hn _ _ (get_in _ _ _ Hv)) as [k [[= <-] E]]. inversion E as [v' [l [Hl HF]]| | | | | | | ]; subst. apply seq_of_in in Hl. rewrite Hl. cbn [bind].
  rewrite Forall_forall in HF. destruct (proj2 (all_some _ _ integer l)) as [vs Hvs].
  { intros a Ha. destruct (HF a Ha) as [z [-> _]]. now exists z. }
  exists vs. split; [exact Hvs|]. apply Forall_forall. intros z Hz. apply (all_in _ _ _ _ _ z Hvs) in Hz. destruct Hz as [a [Ha Ez]].
  destruct (HF a Ha) as [y [-> Hy]]. cbn in Ez. congruence.
Qed.
(* a scheme with a velocity *)
Definition some_velocity : Prop := exists ss s vs z, schemes_of d = Some ss /\ In s ss /\ velocities_of s = Some vs /\ In z vs.
Lemma stencil_some : c <> CGeometry -> ((exists r, stencil d = Some r) <-> (has "dim" d \/ has_x) /\ some_velocity).
Proof.
  intros Hc. rewrite <- extract_dim_some. unfold stencil. rewrite bind_some.
  destruct (schemes_some Hc) as [ss [Hss HF]]. rewrite Forall_forall in HF.
  destruct (proj2 (all_some _ _ velocities_of ss)) as [vs Hvs].
  { intros s Hs. destruct (velocities_some s Hc (HF s Hs)) as [v [Hv _]]. now exists v. }
  assert (some_velocity <-> concat vs <> []) as E.
  { unfold some_velocity. split.
    - intros [ss' [s [v [z [E1 [Hs [Hv Hz]]]]]]]. rewrite Hss in E1. injection E1 as <-. assert (In v vs) as Hi by (apply (all_in _ _ _ _ _ v Hvs); now exists s).
      intros E0. assert (In z (concat vs)) as Hz' by (apply in_concat; now exists v). rewrite E0 in Hz'. destruct Hz'.
    - intros H. destruct (concat vs) as [|z r] eqn:E0; [congruence|]. assert (In z (concat vs)) as Hz by (rewrite E0; now left).
      apply in_concat in Hz. destruct Hz as [v [Hv Hz]]. apply (all_in _ _ _ _ _ v Hvs) in Hv. destruct Hv as [s [Hs Hsv]]. now exists ss, s, v, z. }
  rewrite E. split.
  - intros [n [Hn H]]. split; [now exists n|]. apply bind_some in H. destruct H as [ss' [E1 H]]. rewrite Hss in E1. injection E1 as <-.
    rewrite Hvs in H. cbn [bind] in H. destruct (concat vs); [destruct H; discriminate|discriminate].
  - intros [[n Hn] H]. exists n. split; [exact Hn|]. rewrite Hss. cbn [bind]. rewrite Hvs. cbn [bind]. destruct (concat vs); [congruence|]. eexists. reflexivity.
Qed.
Lemma stencil_values n vs : c <> CGeometry -> stencil d = Some (n, vs) -> 1 <= n <= 3 /\ Forall (Forall (fun z => 0 <= z)) vs.
Proof.
  intros Hc H. unfold stencil in H. destruct (extract_dim d) as [m|] eqn:Em; [|discriminate]. cbn [bind] in H.
  destruct (schemes_some Hc) as [ss [Hss HF]]. rewrite Hss in H. cbn [bind] in H. destruct (all velocities_of ss) as [vs'|] eqn:Ev; [|discriminate]. cbn [bind] in H.
  destruct (concat vs'); [discriminate|]. injection H as -> ->. split.
  - unfold extract_dim in Em. destruct (get "dim" d) as [v|] eqn:E.
    + field_of "dim" E. destruct (z0 =? 0) eqn:Ez; [lia|]. injection Em as <-. lia.
    + destruct (get_box d) as [r|] eqn:Er; [|discriminate]. cbn in Em. injection Em as <-.
      assert (exists r, get_box d = Some r) as Hr by (now exists r). apply get_box_some in Hr. destruct Hr as [b [Hb _]].
      pose proof (get_box_axes r b Er Hb) as Ha. unfold axes in Ha. lia.
  - apply Forall_forall. intros v Hv. apply (all_in _ _ _ _ _ v Ev) in Hv. destruct Hv as [s [Hs Hsv]]. rewrite Forall_forall in HF.
    destruct (velocities_some s Hc (HF s Hs)) as [v' [Hv' HF']]. congruence.
Qed.
(* the labels of the box given by a tuple *)
Definition tuple_label : Prop := exists b l, get "box" d = Some (PDict b) /\ get "label" b = Some (PTuple l).
Definition same_dimension : Prop := forall b m e l n, get "box" d = Some (PDict b) -> axes b m -> get "elements" d = Some e -> seq_of e = Some l -> In (PElem n) l -> Z.of_nat n = m.
Lemma elements_some r b : get_box d = Some r -> get "box" d = Some (PDict b) -> same_dimension -> exists es, elements_of (fst r) d = Some es.
Proof.
  intros Hr Hb Hs. unfold elements_of. destruct (get "elements" d) as [e|] eqn:Ee; [|now exists []].
  field_of "elements" Ee. destruct Hfld as [l [Hl HF]]. apply seq_of_in in Hl. rewrite Hl. cbn [bind]. rewrite Forall_forall in HF.
  apply all_some. intros a Ha. destruct (HF a Ha) as [n ->]. rewrite (Hs b (fst r) e l n Hb (get_box_axes r b Hr Hb) Ee Hl Ha), Z.eqb_refl. eexists. reflexivity.
Qed.
Lemma geometry_some : (exists r, geometry d = Some r) <-> has_x /\ ~ tuple_label /\ same_dimension.
Proof.
  rewrite <- get_box_some. unfold geometry. rewrite bind_some. split.
  - intros [r [Hr H]]. split; [now exists r|]. apply bind_some in H. destruct H as [v [Hb H]]. destruct (box_dict v Hb) as [b [-> _]]. cbn [entries bind] in H.
    apply bind_some in H. destruct H as [lab [Hlab H]]. apply bind_some in H. destruct H as [es [Hes _]]. split.
    + intros [b' [l [Hb' Hl]]]. rewrite Hb in Hb'. injection Hb' as <-. unfold box_label in Hlab. rewrite Hl in Hlab. discriminate.
    + intros b' m e l n Hb' Hm He Hl Hn. rewrite Hb in Hb'. injection Hb' as <-. pose proof (get_box_axes r b Hr Hb) as Ha. rewrite (axes_fun b m (fst r) Hm Ha).
      unfold elements_of in Hes. rewrite He, Hl in Hes. cbn [bind] in Hes.
      destruct (proj1 (all_some _ _ _ l) (ex_intro _ es Hes) _ Hn) as [x Hx]. cbn in Hx. destruct (Z.of_nat n =? fst r) eqn:E; [lia|discriminate].
  - intros [[r Hr] [Ht Hs]]. exists r. split; [exact Hr|]. apply bind_some.
    assert (exists r, get_box d = Some r) as Hx by (now exists r). apply get_box_some in Hx. destruct Hx as [b [Hb _]]. exists (PDict b). split; [exact Hb|]. cbn [entries bind].
    apply bind_some. unfold box_label. destruct (get "label" b) as [v|] eqn:El.
    + destruct (box_dict _ Hb) as [b' [[= <-] Hn]]. destruct (Hn _ _ (get_in _ _ _ El)) as [k [[= <-] E]]. inversion E as [| | |v' H']; subst.
      destruct (elements_some r b Hr Hb Hs) as [es Hes].
      destruct H' as [[z ->]|[l [[->| ->] HF]]].
      * eexists. split; [reflexivity|]. rewrite Hes. eexists. reflexivity.
      * eexists. split; [reflexivity|]. rewrite Hes. eexists. reflexivity.
      * destruct Ht. now exists b, l.
    + eexists. split; [reflexivity|]. destruct (elements_some r b Hr Hb Hs) as [es Hes]. rewrite Hes. eexists. reflexivity.
Qed.
Lemma list_at_some k s : elementary c s -> has k s -> (k = "relaxation_parameters" \/ k = "polynomials") -> exists l, list_at k s = Some l.
Proof.
  intros [Hn _] Hk Hkk. apply get_has in Hk. destruct Hk as [v Hv]. unfold list_at. rewrite Hv. cbn [bind].
  destruct (Hn _ _ (get_in _ _ _ Hv)) as [k' [[= <-] E]]. destruct Hkk as [->| ->]; inversion E as [| |v' [l [Hl _]]|v' [l [Hl _]]| | | | ]; subst; apply seq_of_in in Hl; exists l; exact Hl.
Qed.
(* there is one scheme, or no scheme has a matrix M *)
Definition readable_moments : Prop := forall ss s, schemes_of d = Some ss -> In s ss -> has "M" s -> length ss = 1%nat.
Lemma scheme_some : full c -> ((exists r, scheme d = Some r) <-> (has "dim" d \/ has_x) /\ some_velocity /\ readable_moments).
Proof.
  intros Hf. assert (c <> CGeometry) as Hc by (destruct Hf; subst; discriminate).
  pose proof (stencil_some Hc) as Est. unfold scheme. rewrite bind_some. destruct (schemes_some Hc) as [ss [Hss HF]]. rewrite Forall_forall in HF.
  assert (exists la, get "scheme_velocity" d = Some la) as [la Hla].
  { apply get_has. destruct Hd as [_ [_ [_ [_ [_ [H _]]]]]]. now apply H. }
  assert (exists rl, all (list_at "relaxation_parameters") ss = Some rl) as [rl Hrl].
  { apply all_some. intros s Hs. apply list_at_some; auto. destruct (HF s Hs) as [_ [_ [_ [_ H]]]]. now apply H. }
  assert ((exists m, moments_of ss = Some m) <-> readable_moments) as Em.
  { assert (forall s, In s ss -> ~ has "M" s -> has "polynomials" s) as Hp.
    { intros s Hs Hm. destruct (HF s Hs) as [_ [_ [_ [_ H]]]]. destruct (H Hf) as [[H1|H1] _]; [contradiction|exact H1]. }
    assert (forall s, In s ss -> has "M" s -> ~ has "polynomials" s) as Hq.
    { intros s Hs Hm Hp'. destruct (HF s Hs) as [_ [_ [H _]]]. now apply H. }
    assert (length ss <> 1%nat -> ((exists m, option_map Polynomials (all (list_at "polynomials") ss) = Some m) <-> readable_moments)) as Hmany.
    { intros Hlen. rewrite map_some, all_some. unfold readable_moments. split.
      - intros H ss' s E Hs Hm. rewrite Hss in E. injection E as <-. exfalso. apply (Hq s Hs Hm). destruct (H s Hs) as [l Hl]. unfold list_at in Hl.
        destruct (get "polynomials" s) as [v|] eqn:Ev; [|discriminate]. apply get_has. now exists v.
      - intros H s Hs. apply list_at_some; auto. apply Hp; auto. intros Hm. apply Hlen. now apply (H ss s). }
    destruct ss as [|s [|s2 ss]].
    - apply Hmany. discriminate.
    - unfold moments_of. split; [intros _ ss' s' E _ _; rewrite Hss in E; now injection E as <-|]. intros _.
      destruct (get "M" s) as [v|] eqn:Ev.
      + destruct (HF s (or_introl eq_refl)) as [Hn _]. destruct (Hn _ _ (get_in _ _ _ Ev)) as [k [[= <-] E]]. inversion E; subst. eexists. reflexivity.
      + apply get_none in Ev. apply map_some. apply list_at_some; auto; [apply HF; now left|]. apply Hp; auto. now left.
    - apply Hmany. discriminate. }
  rewrite <- Em. split.
  - intros [r [Hr H]]. assert (exists r, stencil d = Some r) as Hr' by (now exists r). apply Est in Hr'. split; [tauto|]. split; [tauto|].
    rewrite Hla, Hss in H. cbn [bind] in H. rewrite Hrl in H. cbn [bind] in H. apply bind_some in H. destruct H as [m [Hm _]]. now exists m.
  - intros [H1 [H2 [m Hm]]]. destruct (proj2 Est (conj H1 H2)) as [r Hr]. exists r. split; [exact Hr|]. rewrite Hla, Hss. cbn [bind]. rewrite Hrl. cbn [bind]. rewrite Hm. cbn [bind]. eexists. reflexivity.
Qed.
Lemma codegen_some : (exists r, codegen d = Some r) <-> forall p o, get "codegen_option" d = Some (PDict (p :: o)) -> has "directory" (p :: o).
Proof.
  unfold codegen. destruct (get "codegen_option" d) as [v|] eqn:Ev; [|split; [discriminate|intros _; eexists; reflexivity]].
  field_of "codegen_option" Ev. destruct Hfld as [o [-> Hn]]. destruct o as [|p o]; [split; [discriminate|intros _; eexists; reflexivity]|].
  rewrite bind_some. split.
  - intros [dir [Hdir _]] p' o' [= <- <-]. apply get_has. now exists dir.
  - intros H. specialize (H p o eq_refl). apply get_has in H. destruct H as [dir Hdir]. exists dir. split; [exact Hdir|]. eexists. reflexivity.
Qed.
(* an initial value is not given by a list, and the arguments are in a tuple *)
Definition tuple_values : Prop := forall i k v, get "init" d = Some (PDict i) -> In (k, v) i ->
  (forall l, v <> PList l) /\ (forall f a, v = PTuple [f; a] -> exists l, a = PTuple l).
Lemma init_some : (exists r, init d = Some r) <-> tuple_values.
Proof.
  unfold init, tuple_values. destruct (get "init" d) as [v|] eqn:Ev; [|split; [discriminate|intros _; eexists; reflexivity]].
  field_of "init" Ev. destruct Hfld as [i [-> Hi]]. cbn [entries bind]. rewrite all_some. split.
  - intros H i' k v [= <-] Hin. destruct (H _ Hin) as [r Hr]. cbn [fst snd] in Hr. split.
    + intros l ->. discriminate.
    + intros f a ->. destruct f; cbn in Hr; try discriminate. destruct a; try discriminate. now exists l.
  - intros H [k v] Hin. cbn [fst snd]. apply map_some. destruct (H i k v eq_refl Hin) as [Hl Ht]. destruct (Hi k v Hin) as [_ Hv].
    destruct Hv as [[[z ->]|[q ->]]|[[f ->]|[a [b [Hc [[f ->] Hb]]]]]]; try (eexists; reflexivity).
    destruct Hc as [->| ->]; [now destruct (Hl [PFun f; b])|]. destruct (Ht _ _ eq_refl) as [l ->]. eexists. reflexivity.
Qed.
(* the description of the label l *)
Definition described (l : Z) : Prop := exists bc b, get "boundary_conditions" d = Some (PDict bc) /\
  option_map snd (find (fun p => label_is l (fst p)) bc) = Some (PDict b) /\ has "method" b.
Lemma conditions_some labels : (exists r, conditions d labels = Some r) <-> forall l, In l labels -> l <> -1 -> l <> -2 -> described l.
Proof.
  assert (forall l, In l (filter (fun l => negb ((l =? -1) || (l =? -2))) labels) <-> In l labels /\ l <> -1 /\ l <> -2) as Ef.
  { intros l. rewrite filter_In. destruct (Z.eqb_spec l (-1)), (Z.eqb_spec l (-2)); cbn; intuition congruence. }
  unfold conditions, described. destruct (get "boundary_conditions" d) as [v|] eqn:Ev.
  - field_of "boundary_conditions" Ev. destruct Hfld as [bc [-> Hbc]]. cbn [entries bind]. rewrite all_some. split.
    + intros H l Hl H1 H2. destruct (H l (proj2 (Ef l) (conj Hl (conj H1 H2)))) as [r Hr].
      destruct (option_map snd (find _ bc)) as [x|] eqn:Ex; [|discriminate]. cbn [bind] in Hr. destruct x; try discriminate. cbn [entries bind] in Hr.
      destruct (get "method" l0) as [m|] eqn:Em; [|discriminate]. exists bc, l0. repeat split; auto. apply get_has. now exists m.
    + intros H l Hl. apply Ef in Hl. destruct Hl as [Hl [H1 H2]]. destruct (H l Hl H1 H2) as [bc' [b [[= <-] [Hx Hm]]]].
      rewrite Hx. cbn [bind entries]. apply get_has in Hm. destruct Hm as [m Hm]. rewrite Hm. cbn [bind]. eexists. reflexivity.
  - cbn [bind]. rewrite all_some. split.
    + intros H l Hl H1 H2. destruct (H l (proj2 (Ef l) (conj Hl (conj H1 H2)))) as [r Hr]. discriminate.
    + intros H l Hl. apply Ef in Hl. destruct Hl as [Hl [H1 H2]]. destruct (H l Hl H1 H2) as [bc' [b [E _]]]. discriminate.
Qed.
End Accepted.
