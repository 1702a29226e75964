(* Properties C80 and C81: the validation of the dictionaries, and what the constructors find in a
   dictionary which has been accepted. *)
From Coq Require Import String QArith.
From Verif Require Import PyBase ValidatorModel ValidatorProofs.
Open Scope string_scope.
Open Scope Z_scope.

(* ---- C80 ---- the rules accept the dictionaries of the expected shape, and no other one *)
Theorem C80_accepted : forall c d, verdict c d = Ok <-> dictionary c d.
Proof. exact accepted. Qed.
(* validate returns exactly when, in addition, no value of a dictionary of the message is [] *)
Theorem C80_validate : forall c d, validate c d = Returns <-> dictionary c d /\ (forall d', visits (PDict d) d' -> forall k, ~ In (k, PList []) d').
Proof.
  intros c d. rewrite <- accepted, <- shown_spec. unfold validate. destruct (verdict c d); [|split; [discriminate|intros [? _]; discriminate]..].
  destruct (shown (PDict d)) as [[]|]; split; try tauto; try discriminate; intros _; split; congruence.
Qed.
(* otherwise it exits, unless the description of a boundary condition is a list *)
Theorem C80_exits : forall c d,
  (forall bc k v l w, In (PStr "boundary_conditions", PDict bc) d -> In (k, v) bc -> v <> PList (w :: l) /\ v <> PTuple (w :: l)) ->
  (validate c d = Exits <-> ~ dictionary c d).
Proof.
  intros c d H. apply (verdict_fine c d) in H. rewrite <- accepted. unfold validate.
  destruct (verdict c d); [destruct (shown (PDict d))| |congruence]; intuition congruence.
Qed.
(* the key "comm" of domain.py 382, and the keys "time", "space_x", ... of scheme.py 193-198, are
   never accepted *)
Theorem C80_unreachable : forall c d, dictionary c d ->
  ~ has "comm" d /\ (forall p k v s, In (PStr "parameters", PDict p) d -> In (k, v) p -> k <> PStr s).
Proof.
  intros c d [Hn _]. split.
  - intros [v Hv]. destruct (Hn _ _ Hv) as [s [[= <-] E]]. inversion E.
  - intros p k v s Hp Hk ->. destruct (Hn _ _ Hp) as [x [[= <-] E]]. inversion E as [| | | | | |w [q [Eq H]] Ew1 Ew2| | | | | | | | ].
    injection Eq as <-. destruct (H _ _ Hk) as [[y Hy] _]. discriminate.
Qed.
(* a dictionary for the D1Q3, with a wall on the left *)
Definition sequence (l : list Z) : pv := PList (map PInt l).
Definition d1q3 : list (pv * pv) :=
  [(PStr "velocities", sequence [0; 1; 2]);
   (PStr "polynomials", PList [PInt 1; PSymbol "X"; PExpr "X**2"]);
   (PStr "relaxation_parameters", PList [PInt 0; PFloat 1.9; PSymbol "s"]);
   (PStr "equilibrium", PList [PSymbol "u"; PExpr "c*u"; PExpr "u/2"]);
   (PStr "conserved_moments", PSymbol "u")].
Definition domain1 : list (pv * pv) :=
  [(PStr "box", PDict [(PStr "x", sequence [0; 1]); (PStr "label", sequence [0; -1])]); (PStr "space_step", PFloat 0.125)].
Definition bounce_back : pv := PDict [(PStr "method", PDict [(PInt 0, PClass "BounceBack" true false)]); (PStr "value", PTuple [PFun 1; PTuple [PInt 0]])].
Definition simulation1 : list (pv * pv) := domain1 ++
  [(PStr "scheme_velocity", PSymbol "LA"); (PStr "schemes", PList [PDict d1q3]);
   (PStr "parameters", PDict [(PSymbol "LA", PInt 1); (PSymbol "s", PFloat 1.5)]);
   (PStr "init", PDict [(PSymbol "u", PTuple [PFun 0; PTuple [PFloat 0.5]])]);
   (PStr "boundary_conditions", PDict [(PInt 0, bounce_back)]); (PStr "generator", PStr "numpy")].
Example C80_example : validate CSimulation simulation1 = Returns /\ validate CDomain simulation1 = Returns /\ validate CScheme simulation1 = Returns /\
  (* for a Stencil the schemes need only their velocities; a Simulation needs more *)
  validate CStencil [(PStr "dim", PInt 2); (PStr "schemes", PList [PDict [(PStr "velocities", sequence [0; 1; 2; 3; 4])]])] = Returns /\
  validate CStencil [(PStr "dim", PInt 4); (PStr "schemes", PList [PDict [(PStr "velocities", sequence [0; 1])]])] = Exits /\
  validate CSimulation (domain1 ++ [(PStr "schemes", PList [PDict [(PStr "velocities", sequence [0; 1; 2])]])]) = Exits /\
  (* both or none of dim and box *)
  validate CScheme ((PStr "dim", PInt 1) :: simulation1) = Exits /\ validate CScheme (skipn 1 simulation1) = Exits /\
  (* a key which is not known, a Boolean instead of an integer, None *)
  validate CSimulation ((PStr "comm", POther) :: simulation1) = Exits /\ validate CSimulation ((PStr "dim", PBool true) :: skipn 1 simulation1) = Exits /\
  validate CSimulation ((PStr "show_code", PNone) :: simulation1) = Exits.
Proof. repeat split. Qed.
(* an empty list is accepted by the rules, then the message fails (validator.py 158) *)
Theorem C80_empty_list_refuted : exists d, dictionary CSimulation d /\ validate CSimulation d = Raises.
Proof. exists ((PStr "elements", PList []) :: simulation1). split; [now apply accepted|reflexivity]. Qed.
(* a boundary condition described by a list: an exception instead of the message *)
Theorem C80_list_refuted : exists d, ~ dictionary CSimulation d /\ validate CSimulation d = Raises.
Proof.
  exists ((PStr "boundary_conditions", PDict [(PInt 0, PList [bounce_back])]) :: firstn 6 simulation1). split; [|reflexivity].
  intros H. apply accepted in H. discriminate.
Qed.

(* ---- C81 ---- what the constructors read in an accepted dictionary: exactly when it succeeds *)
Theorem C81_stencil : forall c d, dictionary c d -> c <> CGeometry ->
  ((exists r, stencil d = Some r) <-> (has "dim" d \/ has_x d) /\ some_velocity d) /\
  (forall n vs, stencil d = Some (n, vs) -> 1 <= n <= 3 /\ Forall (Forall (fun z => 0 <= z)) vs).
Proof. intros c d Hd Hc. split; [exact (stencil_some c d Hd Hc)|]. intros n vs. exact (stencil_values c d Hd n vs Hc). Qed.
Theorem C81_geometry : forall c d, dictionary c d -> ((exists r, geometry d = Some r) <-> has_x d /\ ~ tuple_label d /\ same_dimension d).
Proof. exact geometry_some. Qed.
Theorem C81_scheme : forall c d, dictionary c d -> full c -> ((exists r, scheme d = Some r) <-> (has "dim" d \/ has_x d) /\ some_velocity d /\ readable_moments d).
Proof. exact scheme_some. Qed.
Theorem C81_codegen : forall c d, dictionary c d -> ((exists r, codegen d = Some r) <-> forall p o, get "codegen_option" d = Some (PDict (p :: o)) -> has "directory" (p :: o)).
Proof. exact codegen_some. Qed.
Theorem C81_init : forall c d, dictionary c d -> ((exists r, init d = Some r) <-> tuple_values d).
Proof. exact init_some. Qed.
Theorem C81_conditions : forall c d labels, dictionary c d ->
  ((exists r, conditions d labels = Some r) <-> forall l, In l labels -> l <> -1 -> l <> -2 -> described d l).
Proof. intros c d labels Hd. exact (conditions_some c d Hd labels). Qed.
(* the values which are read: one interval per axis, in the order x, y, z; two labels per axis *)
Theorem C81_geometry_values : forall d n axes labels elements, geometry d = Some (n, axes, labels, elements) ->
  exists b, get "box" d = Some (PDict b) /\ 1 <= n <= 3 /\ Z.of_nat (length axes) = n /\
    (forall i k, nth_error ["x"; "y"; "z"] i = Some k -> (i < length axes)%nat -> nth_error axes i = get k b) /\
    (forall k, nth_error ["y"; "z"] (length axes - 1) = Some k -> get k b = None) /\
    match get "label" b with
    | None => Z.of_nat (length labels) = 2 * n /\ forall l, In l labels -> l = PInt (-1)
    | Some (PInt z) => Z.of_nat (length labels) = 2 * n /\ forall l, In l labels -> l = PInt z
    | Some v => v = PList labels
    end /\
    match get "elements" d with None => elements = [] | Some v => v = PList elements \/ v = PTuple elements end /\
    Forall (fun e => exists m, e = PElem m /\ Z.of_nat m = n) elements.
Proof.
  intros d n axes labels elements. unfold geometry, get_box. destruct (get "box" d) as [v|]; [|discriminate]. cbn [bind]. destruct v; try discriminate. cbn [entries bind].
  match goal with |- context [get "x" ?b] => rename b into bx end. destruct (get "x" bx) as [x|] eqn:Ex; [|discriminate]. cbn [bind].
  assert (L : forall dim, box_label dim bx = Some labels -> 0 <= dim -> match get "label" bx with
    | None => Z.of_nat (length labels) = 2 * dim /\ forall l, In l labels -> l = PInt (-1)
    | Some (PInt z) => Z.of_nat (length labels) = 2 * dim /\ forall l, In l labels -> l = PInt z
    | Some v => v = PList labels end).
  { intros dim. unfold box_label. destruct (get "label" bx) as [[]|]; intros [= <-] Hd; try reflexivity; (split; [rewrite repeat_length; lia|intros l Hl; now apply repeat_spec in Hl]). }
  assert (F : forall dim, elements_of dim d = Some elements -> match get "elements" d with None => elements = [] | Some v => v = PList elements \/ v = PTuple elements end /\
    Forall (fun e => exists m, e = PElem m /\ Z.of_nat m = dim) elements).
  { intros dim. unfold elements_of. destruct (get "elements" d) as [v|]; [|intros [= <-]; split; [reflexivity|constructor]].
    assert (A : forall l r, all (fun e => match e with PElem n => if Z.of_nat n =? dim then Some e else None | _ => None end) l = Some r -> r = l /\ Forall (fun e => exists m, e = PElem m /\ Z.of_nat m = dim) l).
    { induction l as [|e l IH]; intros r H; cbn in H; [injection H as <-; now split|]. destruct e as [| | | | | | | | |m| | | | |]; try discriminate. destruct (Z.eqb_spec (Z.of_nat m) dim) as [E|]; [|discriminate]. cbn [bind] in H.
      destruct (all _ l) as [r'|]; [|discriminate]. cbn in H. injection H as <-. destruct (IH _ eq_refl) as [-> IH2]. split; [reflexivity|]. constructor; [eauto|exact IH2]. }
    destruct v; try discriminate; cbn [seq_of bind]; intros H; apply A in H as [-> H]; auto. }
  destruct (get "y" bx) as [y|] eqn:Ey; [destruct (get "z" bx) as [z|] eqn:Ez|]; cbn [fst snd bind];
    (destruct (box_label _ bx) as [lab|] eqn:El; [|discriminate]); (destruct (elements_of _ d) as [es|] eqn:Ee; [|discriminate]); cbn [bind]; intros [= <- <- <- <-];
    exists bx; (split; [reflexivity|]); (split; [lia|]); (split; [reflexivity|]); (split; [|split; [|split; [exact (L _ El ltac:(lia))|exact (F _ Ee)]]]).
  all: try (intros i k Hk Hi; cbn [length] in Hi; destruct i as [|[|[|i]]]; try (exfalso; lia); cbn [nth_error] in Hk |- *; injection Hk as <-; first [symmetry; assumption|exfalso; lia]).
  all: intros k Hk; cbn [nth_error length Nat.sub] in Hk; first [discriminate|injection Hk as <-; assumption].
Qed.
(* the files go to the directory which is given; they are written unless the option generate is False *)
Theorem C81_codegen_values : forall d dir g, codegen d = Some (dir, g) ->
  (forall p o, get "codegen_option" d = Some (PDict (p :: o)) -> dir = get "directory" (p :: o) /\ dir <> None /\ (g = false <-> get "generate" (p :: o) = Some (PBool false))) /\
  ((forall p o, get "codegen_option" d <> Some (PDict (p :: o))) -> dir = None /\ g = true).
Proof.
  intros d dir g. unfold codegen. destruct (get "codegen_option" d) as [[]|]; try (intros [= <- <-]; split; [discriminate|now split]).
  match goal with |- context [PDict ?x] => destruct x as [|p o] end; [intros [= <- <-]; split; [discriminate|now split]|].
  destruct (get "directory" (p :: o)) as [v|] eqn:E; [|discriminate]. cbn [bind]. intros [= <- <-]. split; [|intros H; now destruct (H p o)].
  intros p' o' [= <- <-]. rewrite E. split; [reflexivity|]. split; [discriminate|]. destruct (get "generate" (p :: o)) as [[]|]; split; congruence.
Qed.
(* the initial values, in the order of the dictionary: numbers as they are, functions with their further arguments *)
Lemma all_forall2 A B (f : A -> option B) l r : all f l = Some r -> Forall2 (fun a b => f a = Some b) l r.
Proof.
  revert r. induction l as [|a l IH]; cbn [all]; intros r H; [injection H as <-; constructor|].
  destruct (f a) eqn:E; [|discriminate]. destruct (all f l); [|discriminate]. injection H as <-. constructor; [exact E|now apply IH].
Qed.
Lemma Forall2_weaken A B (P Q : A -> B -> Prop) l r : (forall a b, P a b -> Q a b) -> Forall2 P l r -> Forall2 Q l r.
Proof. intros H F. induction F; constructor; auto. Qed.
Theorem C81_init_values : forall d l, init d = Some l -> (get "init" d = None /\ l = []) \/ exists i, get "init" d = Some (PDict i) /\
  Forall2 (fun p q => fst q = fst p /\ match snd q with
    | SNumber v => snd p = v /\ ((exists z, v = PInt z) \/ exists x, v = PFloat x)
    | SCall f args => (snd p = PFun f \/ snd p = PTuple [PFun f]) /\ args = [] \/ snd p = PTuple [PFun f; PTuple args]
    end) i l.
Proof.
  intros d l. unfold init. destruct (get "init" d) as [v|]; [|intros [= <-]; now left]. destruct v as [| | | | | | | | | | | | |i|]; try discriminate. cbn [entries bind]. intros H. right. exists i. split; [reflexivity|].
  eapply Forall2_weaken; [|apply all_forall2; exact H]. intros [k v] q. cbn [fst snd]. destruct (start_of v) as [s|] eqn:Es; [|discriminate]. intros [= <-]. cbn [fst snd]. split; [reflexivity|].
  destruct v; try discriminate; cbn [start_of] in Es.
  - injection Es as <-. split; [reflexivity|]. left. eauto.
  - injection Es as <-. split; [reflexivity|]. right. eauto.
  - injection Es as <-. left. auto.
  - destruct l0 as [|[] [|[] [|]]]; try discriminate; injection Es as <-; auto.
Qed.
(* for each label other than -1 and -2, in this order: the first description with this label *)
Theorem C81_conditions_values : forall d labels l, conditions d labels = Some l -> exists bcs,
  (get "boundary_conditions" d = None /\ bcs = [] \/ get "boundary_conditions" d = Some (PDict bcs)) /\
  Forall2 (fun lab q => exists before b after, bcs = (before ++ (PInt lab, PDict b) :: after)%list /\ (forall v, ~ In (PInt lab, v) before) /\
    fst (fst q) = get "value" b /\ get "method" b = Some (snd q) /\ (get "time_bc" b = None -> snd (fst q) = PBool false) /\ (forall t, get "time_bc" b = Some t -> snd (fst q) = t))
  (filter (fun z => negb (Z.eqb z (-1)) && negb (Z.eqb z (-2))) labels) l.
Proof.
  intros d labels l. unfold conditions.
  assert (X : forall bcs, all (fun l => bind (option_map snd (find (fun p => label_is l (fst p)) bcs)) (fun b => bind (entries b) (fun b =>
    bind (get "method" b) (fun m => Some (get "value" b, match get "time_bc" b with Some t => t | None => PBool false end, m)))))
    (filter (fun l => negb ((l =? -1) || (l =? -2))) labels) = Some l -> Forall2 (fun lab q => exists before b after, bcs = (before ++ (PInt lab, PDict b) :: after)%list /\ (forall v, ~ In (PInt lab, v) before) /\
    fst (fst q) = get "value" b /\ get "method" b = Some (snd q) /\ (get "time_bc" b = None -> snd (fst q) = PBool false) /\ (forall t, get "time_bc" b = Some t -> snd (fst q) = t))
    (filter (fun z => negb (Z.eqb z (-1)) && negb (Z.eqb z (-2))) labels) l).
  { intros bcs H. apply all_forall2 in H. rewrite (filter_ext (fun l => negb ((l =? -1) || (l =? -2))) (fun z => negb (Z.eqb z (-1)) && negb (Z.eqb z (-2)))) in H by (intros z; apply negb_orb).
    eapply Forall2_weaken; [|exact H]. clear. intros lab q. cbv beta.
    assert (F : forall o, option_map snd (find (fun p => label_is lab (fst p)) bcs) = Some o -> exists before after, bcs = (before ++ (PInt lab, o) :: after)%list /\ forall v, ~ In (PInt lab, v) before).
    { induction bcs as [|[k v] t IH]; intros o; cbn [find option_map]; [discriminate|]. cbn [fst]. destruct (label_is lab k) eqn:Ek.
      - intros [= <-]. destruct k; try discriminate. cbn in Ek. apply Z.eqb_eq in Ek as ->. exists [], t. split; [reflexivity|]. intros v' [].
      - intros Ho. destruct (IH o Ho) as (b1 & a1 & -> & Hn). exists ((k, v) :: b1), a1. split; [reflexivity|]. intros v' [[= -> ->]|Hin]; [|exact (Hn v' Hin)].
        cbn in Ek. now rewrite Z.eqb_refl in Ek. }
    destruct (option_map snd _) as [o|] eqn:Eo; [|now intros H]. cbn [bind]. destruct (F o eq_refl) as (b1 & a1 & -> & Hn). destruct o as [| | | | | | | | | | | | |b|]; try (now intros H). cbn [entries bind].
    destruct (get "method" b) as [m|] eqn:Em; [|discriminate]. cbn [bind]. intros [= <-]. cbn [fst snd]. exists b1, b, a1. split; [reflexivity|]. split; [exact Hn|]. split; [reflexivity|]. split; [exact Em|].
    split; [now intros ->|now intros t ->]. }
  destruct (get "boundary_conditions" d) as [v|].
  - destruct v as [| | | | | | | | | | | | |bcs|]; try discriminate. cbn [entries bind]. intros H. exists bcs. split; [now right|now apply X].
  - cbn [bind]. intros H. exists []. split; [now left|now apply X].
Qed.
Example C81_example :
  stencil simulation1 = Some (1, [[0; 1; 2]]) /\ geometry simulation1 = Some (1, [sequence [0; 1]], [PInt 0; PInt (-1)], []) /\
  scheme simulation1 = Some (PSymbol "LA", [[PInt 0; PFloat 1.9; PSymbol "s"]], Polynomials [[PInt 1; PSymbol "X"; PExpr "X**2"]]) /\
  codegen ((PStr "codegen_option", PDict [(PStr "directory", PStr "build")]) :: simulation1) = Some (Some (PStr "build"), true) /\
  geometry [(PStr "box", PDict [(PStr "z", sequence [0; 3]); (PStr "y", sequence [0; 2]); (PStr "x", sequence [0; 1]); (PStr "label", PInt 4)]); (PStr "elements", PTuple [PElem 3])] =
    Some (3, [sequence [0; 1]; sequence [0; 2]; sequence [0; 3]], [PInt 4; PInt 4; PInt 4; PInt 4; PInt 4; PInt 4], [PElem 3]) /\
  codegen simulation1 = Some (None, true) /\ init simulation1 = Some [(PSymbol "u", SCall 0 [PFloat 0.5])] /\
  conditions simulation1 [0; -1] = Some [(Some (PTuple [PFun 1; PTuple [PInt 0]]), PBool false, PDict [(PInt 0, PClass "BounceBack" true false)])].
Proof. repeat split. Qed.
(* Each condition above can fail for a dictionary which validate accepts. *)
Definition without (k : string) (d : list (pv * pv)) : list (pv * pv) := filter (fun p => negb (key_is k (fst p))) d.
Definition d1q3M : list (pv * pv) := (PStr "M", PMatrix 3 3) :: without "polynomials" d1q3.
Theorem C81_refuted :
  (* no interval x *)
  (exists d, validate CSimulation d = Returns /\ stencil d = None /\ geometry d = None) /\
  (* two schemes given by their matrices *)
  (exists d, validate CSimulation d = Returns /\ stencil d <> None /\ geometry d <> None /\ scheme d = None) /\
  (* the labels of the box in a tuple *)
  (exists d, validate CSimulation d = Returns /\ scheme d <> None /\ geometry d = None) /\
  (* an option of the code generation without directory *)
  (exists d, validate CSimulation d = Returns /\ scheme d <> None /\ geometry d <> None /\ codegen d = None) /\
  (* the function and its arguments in a list *)
  (exists d, validate CSimulation d = Returns /\ scheme d <> None /\ geometry d <> None /\ init d = None) /\
  (* a label without method *)
  (exists d, validate CSimulation d = Returns /\ scheme d <> None /\ geometry d <> None /\ init d <> None /\ conditions d [0] = None).
Proof.
  repeat split.
  - exists ((PStr "box", PDict [(PStr "y", sequence [0; 1])]) :: without "box" simulation1). repeat split.
  - exists ((PStr "schemes", PList [PDict d1q3M; PDict d1q3M]) :: without "schemes" simulation1). repeat split; discriminate.
  - exists ((PStr "box", PDict [(PStr "x", sequence [0; 1]); (PStr "label", PTuple [PInt 0; PInt 1])]) :: without "box" simulation1). repeat split; discriminate.
  - exists ((PStr "codegen_option", PDict [(PStr "generate", PBool false)]) :: simulation1). repeat split; discriminate.
  - exists ((PStr "init", PDict [(PSymbol "u", PList [PFun 0; PList [PFloat 0.5]])]) :: without "init" simulation1). repeat split; discriminate.
  - exists ((PStr "boundary_conditions", PDict [(PInt 0, PDict [(PStr "value", PFun 1)])]) :: without "boundary_conditions" simulation1). repeat split; discriminate.
Qed.

Print Assumptions C80_accepted.
Print Assumptions C80_validate.
Print Assumptions C80_exits.
Print Assumptions C80_unreachable.
Print Assumptions C80_empty_list_refuted.
Print Assumptions C80_list_refuted.
Print Assumptions C81_stencil.
Print Assumptions C81_geometry.
Print Assumptions C81_scheme.
Print Assumptions C81_codegen.
Print Assumptions C81_geometry_values.
Print Assumptions C81_codegen_values.
Print Assumptions C81_init_values.
Print Assumptions C81_conditions_values.
Print Assumptions C81_init.
Print Assumptions C81_conditions.
Print Assumptions C81_refuted.
