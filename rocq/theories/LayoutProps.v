(* C69: the text of the generated files has the block structure of the kernels. *)
From Coq Require Import String Ascii ZifyBool.
From Verif Require Import PyBase LayoutModel LayoutProofs.
Open Scope string_scope.
Open Scope Z_scope.

(* ================= specification ================= *)
Definition one_line (s : string) : Prop := ~ In "010"%char (list_ascii_of_string s).
Definition begins (s : string) : Prop := exists c r, s = String c r /\ ~ In c [" "; "009"; "010"; "#"]%char.
Definition ends (s : string) : Prop := exists t, s = t ++ "end".
(* a statement whose text is one line; the right side ends neither with "end" nor with ":" *)
Definition fair (l r : string) : Prop := begins l /\ one_line l /\ one_line r /\ ~ opens r.
Fixpoint written (ok : string -> Prop) (s : stmt) : Prop := match s with
  | Assign l r => l = r \/ (fair l r /\ ok r)
  | For t b => (forall i, In i t -> one_line (l_label i) /\ one_line (l_lower i) /\ one_line (l_upper i)) /\
      (fix go (l : list stmt) : Prop := match l with [] => True | e :: l => written ok e /\ go l end) b
  end.
Definition good : stmt -> Prop := written (fun r => ~ ends r).
Definition readable : stmt -> Prop := written (fun _ => True).
(* the program: loops around their body with Cython, the body alone with the slices of NumPy;
   a statement x = x does nothing *)
Definition loop_head (i : loop) : string := "for " ++ l_label i ++ " in range(" ++ l_lower i ++ ", " ++ l_upper i ++ "):".
Fixpoint program (be : backend) (s : stmt) : list tree := match s with
  | Assign l r => if String.eqb l r then [] else [Line (l ++ " = " ++ r)]
  | For t b => let inner := (fix go (l : list stmt) : list tree := match l with [] => [] | e :: l => (program be e ++ go l)%list end) b in
      match be with Cython => fold_right (fun i ts => [Block (loop_head i) ts]) inner t | Numpy => inner end
  end.
(* each loop has something to do *)
Fixpoint busy (s : stmt) : Prop := match s with
  | Assign _ _ => True
  | For t b => (t = [] \/ exists e, In e b /\ program Cython e <> []) /\
      (fix go (l : list stmt) : Prop := match l with [] => True | e :: l => busy e /\ go l end) b
  end.
Definition parameter (be : backend) (a : arg) : string := match be with
  | Numpy => g_name a
  | Cython => match g_dims a with
      | O => g_type a ++ " " ++ g_name a
      | S d => g_type a ++ "[" ++ String.concat ", " (repeat ":" d ++ ["::1"]) ++ "] " ++ g_name a
      end
  end.
Definition signature (be : backend) (r : routine) : string :=
  "def " ++ r_name r ++ "(" ++ String.concat ", " (map (parameter be) (r_args r)) ++ "):".
Definition declaration (l : local) : string := match l with
  | LIdx n => "cdef int " ++ n
  | LSym n => "cdef double " ++ n
  | LArr n sh => "cdef double " ++ n ++ "[" ++ String.concat "," sh ++ "]"
  end.
Definition suite (be : backend) (r : routine) : list tree :=
  (match be with Cython => map (fun l => Line (declaration l)) (r_locals r) | Numpy => [] end ++ flat_map (program be) (r_stmts r))%list.
Definition kernel (be : backend) (r : routine) : tree := Block (signature be r) (suite be r).
Definition prelude (be : backend) : list tree := match be with Cython => [Line "from libc.math cimport *"] | Numpy => [Line "import numpy"] end.
(* the names and types are on one line, and no local is named "...end" *)
Definition named (be : backend) (r : routine) : Prop :=
  one_line (signature be r) /\ (be = Cython -> forall l, In l (r_locals r) -> one_line (declaration l) /\ ~ ends (declaration l) /\ ~ opens (declaration l)).
Definition good_routine (be : backend) (r : routine) : Prop :=
  named be r /\ (forall s, In s (r_stmts r) -> good s /\ (be = Cython -> busy s)) /\ suite be r <> [].

(* ================= lemmas ================= *)
Lemma one_line_has : forall s, one_line s -> has nl s = false.
Proof.
  unfold one_line. induction s; intros H; [reflexivity|]. cbn [list_ascii_of_string has] in *. rewrite IHs by (intro I; apply H; now right).
  destruct (Ascii.eqb_spec a nl) as [->|]; [|reflexivity]. exfalso. apply H. now left.
Qed.
Lemma last_char : forall c d a b, a ++ String c "" = b ++ String d "" -> c = d.
Proof.
  induction a; intros [|e b] H; cbn in H; injection H; intros; auto.
  - destruct b; discriminate.
  - destruct a0; discriminate.
  - eauto.
Qed.
Lemma not_ends_colon : forall x, endswith "end" (x ++ ":") = false.
Proof.
  intros. destruct (endswith "end" (x ++ ":")) eqn:E; auto. apply endswith_spec in E. destruct E as [p E].
  change "end" with ("en" ++ "d") in E. rewrite <- app_assoc_s in E. apply last_char in E. discriminate.
Qed.
Lemma ends_iff : forall s, endswith "end" s = true <-> ends s.
Proof. intros. apply endswith_spec. Qed.
Lemma opens_iff : forall s, endswith ":" s = true <-> opens s.
Proof. intros. apply endswith_spec. Qed.
Lemma not_ends : forall s, ~ ends s -> endswith "end" s = false.
Proof. intros. destruct (endswith "end" s) eqn:E; auto. apply ends_iff in E. contradiction. Qed.
Lemma not_opens : forall s, ~ opens s -> endswith ":" s = false.
Proof. intros. destruct (endswith ":" s) eqn:E; auto. apply opens_iff in E. contradiction. Qed.
Lemma opens_colon : forall x, opens (x ++ ":").
Proof. intros. now exists x. Qed.
Lemma loop_head_colon : forall i, exists x, loop_head i = x ++ ":".
Proof.
  intros. exists ("for " ++ l_label i ++ " in range(" ++ l_lower i ++ ", " ++ l_upper i ++ ")"). unfold loop_head. now rewrite !app_assoc_s.
Qed.
Lemma signature_colon : forall be r, exists x, signature be r = x ++ ":".
Proof. intros. exists ("def " ++ r_name r ++ "(" ++ String.concat ", " (map (parameter be) (r_args r)) ++ ")"). unfold signature. now rewrite !app_assoc_s. Qed.

Lemma good_body : forall ok t b, written ok (For t b) -> forall e, In e b -> written ok e.
Proof. intros ok t b [_ H]. induction b; intros e I; [contradiction|]. destruct H. destruct I as [<-|I]; auto. Qed.
Lemma busy_body : forall t b, busy (For t b) -> forall e, In e b -> busy e.
Proof. intros t b [_ H]. induction b; intros e I; [contradiction|]. destruct H. destruct I as [<-|I]; auto. Qed.
Lemma program_for : forall be t b, program be (For t b) =
  match be with Cython => fold_right (fun i ts => [Block (loop_head i) ts]) (flat_map (program be) b) t | Numpy => flat_map (program be) b end.
Proof.
  intros. cbn [program]. assert (E : forall b, (fix go (l : list stmt) : list tree := match l with [] => [] | e :: l => (program be e ++ go l)%list end) b = flat_map (program be) b).
  { clear. induction b; [reflexivity|]. cbn. now rewrite IHb. }
  rewrite E. reflexivity.
Qed.

(* the stripped lines of a statement *)
Lemma fair_text : forall l r, fair l r -> has nl (l ++ " = " ++ r) = false /\ core (l ++ " = " ++ r) = [l ++ " = " ++ r] /\
  comment (l ++ " = " ++ r) = false /\ endswith ":" (l ++ " = " ++ r) = false /\ endswith "end" (l ++ " = " ++ r) = endswith "end" r.
Proof.
  intros l r ((c & q & -> & Hc) & Hl & Hr & Ho).
  assert (Hc1 : Ascii.eqb c " " = false) by (apply Ascii.eqb_neq; intros ->; apply Hc; cbn; tauto).
  assert (Hc2 : Ascii.eqb c "009" = false) by (apply Ascii.eqb_neq; intros ->; apply Hc; cbn; tauto).
  assert (Hc3 : Ascii.eqb c "#" = false) by (apply Ascii.eqb_neq; intros ->; apply Hc; cbn; tauto).
  repeat split.
  - rewrite !has_app, (one_line_has _ Hl), (one_line_has _ Hr). reflexivity.
  - unfold core. cbn [append lstrip]. unfold is_blank. rewrite Hc1, Hc2. reflexivity.
  - cbn [append comment]. exact Hc3.
  - change (" = " ++ r) with (" =" ++ String " " r). rewrite <- app_assoc_s, endswith_after by reflexivity. now apply not_opens.
  - change (" = " ++ r) with (" =" ++ String " " r). rewrite <- app_assoc_s, endswith_after by reflexivity. reflexivity.
Qed.
Lemma head_core : forall i, one_line (l_label i) -> one_line (l_lower i) -> one_line (l_upper i) -> cores (lines (for_line i)) = [for_line i].
Proof.
  intros i H1 H2 H3. rewrite cores_one; [reflexivity|]. unfold for_line. rewrite !has_app, (one_line_has _ H1), (one_line_has _ H2), (one_line_has _ H3). reflexivity.
Qed.
Lemma flat_map_single : forall {A B} (g : A -> list B) (h : A -> B) l, (forall x, In x l -> g x = [h x]) -> flat_map g l = map h l.
Proof. induction l; intros; [reflexivity|]. cbn. rewrite H by (now left). cbn. rewrite IHl by (intros; apply H; now right). reflexivity. Qed.
Lemma flat_map_eq : forall {A B} (g h : A -> list B) l, (forall x, In x l -> g x = h x) -> flat_map g l = flat_map h l.
Proof. induction l; intros; [reflexivity|]. cbn. rewrite H by (now left). rewrite IHl by (intros; apply H; now right). reflexivity. Qed.
Lemma flat_map_map' : forall {A B C} (g : B -> list C) (h : A -> B) l, flat_map g (map h l) = flat_map (fun x => g (h x)) l.
Proof. induction l; [reflexivity|]. cbn. now rewrite IHl. Qed.
Lemma print_cores : forall be s, readable s -> cores (lines (print be s)) = flat be s.
Proof.
  intros be. induction s as [l r|t b IH] using stmt_rec'; intros H.
  - cbn [print flat]. destruct (String.eqb_spec l r) as [E|E]; [reflexivity|]. destruct H as [H|[H _]]; [contradiction|].
    destruct (fair_text l r H) as (H1 & H2 & _). rewrite cores_one by auto. exact H2.
  - rewrite print_for, flat_for, cores_concat.
    assert (E : flat_map (fun p => cores (lines p)) (map (fun e => format (print be e)) b) = flat_map (flat be) b).
    { rewrite flat_map_map'. apply flat_map_eq. intros e I. rewrite cores_format. rewrite Forall_forall in IH. apply IH; auto.
      exact (good_body _ t b H e I). }
    destruct be; [|exact E]. rewrite !flat_map_app, E. f_equal; [|f_equal].
    + rewrite flat_map_map'. apply flat_map_single. intros i I. destruct H as [H _]. destruct (H i I) as (H1 & H2 & H3). now apply head_core.
    + rewrite flat_map_map'. now apply flat_map_single.
Qed.

(* ---- the layout of a list of trees ---- *)
Fixpoint lay (k : Z) (t : tree) : list (nat * string) := match t with
  | Line s => [((4 * Z.to_nat k)%nat, s)]
  | Block h ts => ((4 * Z.to_nat k)%nat, h) :: (fix go (l : list tree) : list (nat * string) := match l with [] => [] | e :: l => (lay (k + 1) e ++ go l)%list end) ts
  end.
Lemma lay_block : forall k h ts, lay k (Block h ts) = ((4 * Z.to_nat k)%nat, h) :: flat_map (lay (k + 1)) ts.
Proof. reflexivity. Qed.
Section TInd.
Variable P : tree -> Prop.
Hypothesis HL : forall s, P (Line s).
Hypothesis HB : forall h b, Forall P b -> P (Block h b).
Fixpoint tree_rec' (s : tree) : P s := match s with
  | Line s => HL s
  | Block h b => HB h b ((fix go (l : list tree) : Forall P l := match l with [] => Forall_nil P | e :: l => Forall_cons e (tree_rec' e) (go l) end) b)
  end.
End TInd.
(* a tree which is a source *)
Fixpoint sound (t : tree) : Prop := match t with
  | Line s => ~ opens s
  | Block h ts => opens h /\ ts <> [] /\ (fix go (l : list tree) : Prop := match l with [] => True | e :: l => sound e /\ go l end) ts
  end.
Lemma sound_block : forall h ts, sound (Block h ts) <-> opens h /\ ts <> [] /\ Forall sound ts.
Proof.
  intros. cbn [sound]. assert (E : (fix go (l : list tree) : Prop := match l with [] => True | e :: l => sound e /\ go l end) ts <-> Forall sound ts).
  { induction ts; [split; auto|]. rewrite Forall_cons_iff, IHts. tauto. }
  rewrite E. tauto.
Qed.
Lemma lay_nonempty : forall k t, lay k t <> [].
Proof. destruct t; discriminate. Qed.
Lemma lay_sound_one : forall t k rest us, 0 <= k -> sound t -> block (4 * Z.to_nat k) rest us -> block (4 * Z.to_nat k) (lay k t ++ rest) (t :: us).
Proof.
  induction t as [s|h ts IH] using tree_rec'; intros k rest us Hk Hs Hr.
  - cbn. now apply b_line.
  - apply sound_block in Hs. destruct Hs as (Ho & Hne & Hf). rewrite lay_block. cbn [app].
    apply (b_block _ (4 * Z.to_nat (k + 1))); auto; [lia| |].
    + destruct ts as [|t ts]; [contradiction|]. cbn. intro E. apply app_eq_nil in E. destruct E as [E _]. now apply lay_nonempty in E.
    + clear Hne. induction ts as [|t ts IHts]; [constructor|]. cbn. apply Forall_cons_iff in IH, Hf. destruct IH as [IH1 IH2], Hf as [Hf1 Hf2].
      apply IH1; [lia|auto|now apply IHts].
Qed.
Lemma lay_sound : forall ts k, 0 <= k -> Forall sound ts -> block (4 * Z.to_nat k) (flat_map (lay k) ts) ts.
Proof. induction ts; intros k Hk H; [constructor|]. apply Forall_cons_iff in H. destruct H. cbn. now apply lay_sound_one; auto. Qed.

(* ---- the levels of the lines of a statement ---- *)
Lemma place_head : forall i k rest, place k (for_line i :: rest) = ((4 * Z.to_nat k)%nat, for_line i) :: place (k + 1) rest.
Proof.
  intros. change for_line with loop_head. destruct (loop_head_colon i) as [x E]. cbn [place]. rewrite E, not_ends_colon, (proj2 (opens_iff _) (opens_colon x)), <- E.
  unfold loop_head at 1. cbn [append comment level_of]. change (Ascii.eqb "f" "#") with false. cbn [app]. now rewrite Z.sub_0_r.
Qed.
Lemma place_end : forall k rest, place k ("#end" :: rest) = place (k - 1) rest.
Proof. intros. change (place (k - 1 + 0) rest = place (k - 1) rest). now rewrite Z.add_0_r. Qed.
Lemma map_repeat : forall {A} (t : list A) (x : string), map (fun _ => x) t = repeat x (length t).
Proof. induction t; intros; [reflexivity|]. cbn. now rewrite IHt. Qed.
Lemma place_nest : forall t k inner rest lower,
  place (k + Z.of_nat (length t)) (inner ++ repeat "#end" (length t) ++ rest)%list = (flat_map (lay (k + Z.of_nat (length t))) lower ++ place (k + Z.of_nat (length t)) (repeat "#end" (length t) ++ rest))%list ->
  place k (map for_line t ++ inner ++ repeat "#end" (length t) ++ rest)%list = (flat_map (lay k) (fold_right (fun i ts => [Block (loop_head i) ts]) lower t) ++ place k rest)%list.
Proof.
  induction t as [|i t IH]; intros k inner rest lower H.
  - cbn in *. rewrite Z.add_0_r in H. exact H.
  - cbn [map length fold_right flat_map]. rewrite app_nil_r, lay_block. cbn [app]. rewrite place_head. f_equal.
    assert (E : (repeat "#end" (S (length t)) ++ rest = repeat "#end" (length t) ++ "#end" :: rest)%list).
    { clear. induction (length t); [reflexivity|]. cbn in *. now rewrite <- IHn. }
    rewrite E. rewrite (IH (k + 1) inner ("#end" :: rest) lower).
    + rewrite place_end. do 2 f_equal. lia.
    + cbn [length] in H. rewrite E in H. replace (k + 1 + Z.of_nat (length t)) with (k + Z.of_nat (S (length t))) by lia. exact H.
Qed.
Lemma place_stmt : forall be s k rest, good s -> place k (flat be s ++ rest)%list = (flat_map (lay k) (program be s) ++ place k rest)%list.
Proof.
  intros be. induction s as [l r|t b IH] using stmt_rec'; intros k rest H.
  - cbn [flat program]. destruct (String.eqb_spec l r) as [E|E]; [reflexivity|]. destruct H as [H|[H He]]; [contradiction|].
    destruct (fair_text l r H) as (_ & _ & H3 & H4 & H5). cbn [app place flat_map lay]. rewrite H3, H4, H5, (not_ends _ He). cbn [level_of].
    rewrite Z.sub_0_r, Z.add_0_r. reflexivity.
  - assert (B : forall k rest, place k (flat_map (flat be) b ++ rest)%list = (flat_map (lay k) (flat_map (program be) b) ++ place k rest)%list).
    { clear k rest. intros k rest. pose proof (good_body _ t b H) as G. clear H. induction b as [|e b IHb]; [reflexivity|].
      apply Forall_cons_iff in IH. destruct IH as [IH1 IH2]. cbn [flat_map]. rewrite <- app_assoc, IH1 by (apply G; now left).
      rewrite flat_map_app, <- app_assoc. f_equal. apply IHb; auto. intros. apply G. now right. }
    rewrite flat_for, program_for. destruct be; [|apply B].
    rewrite (map_repeat t), <- !app_assoc. apply place_nest. apply B.
Qed.
Lemma place_stmts : forall be ss k rest, (forall s, In s ss -> good s) ->
  place k (flat_map (flat be) ss ++ rest)%list = (flat_map (lay k) (flat_map (program be) ss) ++ place k rest)%list.
Proof.
  induction ss; intros k rest H; [reflexivity|]. cbn [flat_map]. rewrite <- app_assoc, place_stmt by (apply H; now left).
  rewrite flat_map_app, <- app_assoc. f_equal. apply IHss. intros. apply H. now right.
Qed.
Lemma program_sound : forall be s, good s -> (be = Cython -> busy s) -> Forall sound (program be s).
Proof.
  intros be. induction s as [l r|t b IH] using stmt_rec'; intros H Hb.
  - cbn [program]. destruct (String.eqb_spec l r); [constructor|]. destruct H as [H|[H He]]; [contradiction|]. repeat constructor.
    cbn [sound]. rewrite <- opens_iff. destruct (fair_text l r H) as (_ & _ & _ & -> & _). discriminate.
  - assert (B : Forall sound (flat_map (program be) b)).
    { pose proof (good_body _ t b H) as G. assert (G2 : forall e, In e b -> be = Cython -> busy e) by (intros e I E; exact (busy_body t b (Hb E) e I)).
      clear H Hb. induction b as [|e b IHb]; [constructor|]. apply Forall_cons_iff in IH. destruct IH as [IH1 IH2]. cbn. apply Forall_app. split.
      - apply IH1; [apply G; now left|]. apply G2. now left.
      - apply IHb; auto; intros; [apply G|apply G2]; auto; now right. }
    rewrite program_for. destruct be; [|exact B]. destruct (Hb eq_refl) as [[->|(e & I & N)] _]; [exact B|].
    assert (N2 : flat_map (program Cython) b <> []).
    { intro E. apply N. clear - E I. induction b; [contradiction|]. cbn in E. apply app_eq_nil in E. destruct I as [->|I]; tauto. }
    clear - N2 B. induction t; [exact B|]. cbn [fold_right]. constructor; [|constructor]. apply sound_block. repeat split.
    + destruct (loop_head_colon a) as [x ->]. apply opens_colon.
    + destruct t; [exact N2|discriminate].
    + exact IHt.
Qed.

(* ---- the routines ---- *)
Lemma opening_text : forall be r, opening be r = signature be r ++ NL.
Proof.
  intros. unfold opening, signature. rewrite !app_assoc_s. do 5 f_equal. apply map_ext. intros a. unfold arg_text, parameter. destruct be; [|reflexivity].
  destruct (g_dims a) as [|d]; [reflexivity|]. f_equal. f_equal.
  assert (E : String.concat ", " (repeat ":" (S d)) ++ ":1" = String.concat ", " (repeat ":" d ++ ["::1"])).
  { induction d; [reflexivity|]. change (String.concat ", " (repeat ":" (S (S d)))) with (":" ++ ", " ++ String.concat ", " (repeat ":" (S d))). rewrite !app_assoc_s, IHd.
    destruct d; reflexivity. }
  rewrite <- E. rewrite !app_assoc_s. reflexivity.
Qed.
Lemma signature_core : forall be r, one_line (signature be r) -> cores (lines (signature be r)) = [signature be r].
Proof. intros. rewrite cores_one by (now apply one_line_has). reflexivity. Qed.
Lemma cores_units : forall {A} (text : A -> string) ls, cores (lines (String.concat "" (map (fun l => text l ++ NL) ls))) = flat_map (fun l => cores (lines (text l))) ls.
Proof.
  induction ls as [|x ls]; [reflexivity|].
  assert (E : String.concat "" (map (fun l => text l ++ NL) (x :: ls)) = (text x ++ NL ++ String.concat "" (map (fun l => text l ++ NL) ls)))
    by (destruct ls; cbn [map String.concat]; [now rewrite app_nil_s|now rewrite app_assoc_s]).
  rewrite E, cores_nl, IHls. reflexivity.
Qed.
Lemma local_text_decl : forall l, local_text l = declaration l ++ NL.
Proof. destruct l; cbn [local_text declaration]; now rewrite !app_assoc_s. Qed.
Definition decls (be : backend) (r : routine) : list string := match be with Cython => map declaration (r_locals r) | Numpy => [] end.
Definition routine_flat (be : backend) (r : routine) : list string := (signature be r :: decls be r ++ flat_map (flat be) (r_stmts r) ++ ["#end"])%list.
Definition routine_body (be : backend) (r : routine) : string := NL ++ opening be r ++ declare_locals be r ++ NL ++ call_printer be r ++ NL ++ "#end".
Lemma decl_core : forall l, one_line (declaration l) -> cores (lines (declaration l)) = [declaration l].
Proof. intros l H. rewrite cores_one by (now apply one_line_has). destruct l; reflexivity. Qed.
Lemma cores_nl0 : forall b, cores (lines (NL ++ b)) = cores (lines b).
Proof. intros. exact (cores_nl "" b). Qed.
Lemma declared : forall be r, declare_locals be r = "" \/ exists t, declare_locals be r = t ++ NL.
Proof.
  destruct be; intros r; [|left; reflexivity]. cbn [declare_locals]. rewrite (map_ext _ _ local_text_decl). induction (r_locals r) as [|l ls IH]; [left; reflexivity|].
  right. destruct ls as [|m ls]; [exists (declaration l); reflexivity|]. destruct IH as [IH|[t IH]].
  - exfalso. cbn [map String.concat] in IH. destruct m; destruct ls; discriminate.
  - exists (declaration l ++ NL ++ t). cbn [map String.concat] in *. rewrite IH. now rewrite !app_assoc_s.
Qed.
Lemma routine_cores : forall be r, named be r -> (forall s, In s (r_stmts r) -> readable s) -> cores (lines (routine_body be r)) = routine_flat be r.
Proof.
  intros be r [H1 H2] H3. unfold routine_body, routine_flat. rewrite cores_nl0, opening_text, app_assoc_s, cores_nl, signature_core by auto. cbn [app]. f_equal.
  assert (D : cores (lines (declare_locals be r)) = decls be r).
  { destruct be; [|reflexivity]. cbn [declare_locals decls]. rewrite (map_ext _ _ local_text_decl), cores_units. apply flat_map_single. intros. now apply decl_core, H2. }
  assert (C : cores (lines (call_printer be r)) = flat_map (flat be) (r_stmts r)).
  { unfold call_printer. rewrite cores_units. apply flat_map_eq. intros s I. rewrite cores_format. apply print_cores. now apply H3. }
  rewrite cores_nl, D. f_equal. rewrite cores_nl, C. reflexivity.
Qed.
Lemma routine_text_body : forall be r, routine_text be r = routine_body be r ++ NL.
Proof. intros. unfold routine_text, routine_body. now rewrite !app_assoc_s. Qed.
Lemma place_signature : forall be r k rest, place k (signature be r :: rest) = ((4 * Z.to_nat k)%nat, signature be r) :: place (k + 1) rest.
Proof.
  intros. destruct (signature_colon be r) as [x E]. cbn [place]. rewrite E, not_ends_colon, (proj2 (opens_iff _) (opens_colon x)), <- E.
  unfold signature at 1. cbn [append comment level_of]. change (Ascii.eqb "d" "#") with false. cbn [app]. now rewrite Z.sub_0_r.
Qed.
Lemma place_decls : forall be r k rest, named be r -> place k (decls be r ++ rest)%list =
  (flat_map (lay k) (match be with Cython => map (fun l => Line (declaration l)) (r_locals r) | Numpy => [] end) ++ place k rest)%list.
Proof.
  intros be r k rest [_ H]. destruct be; [|reflexivity]. specialize (H eq_refl). cbn [decls]. induction (r_locals r) as [|l ls IH]; [reflexivity|].
  cbn [map app place flat_map lay]. destruct (H l (or_introl eq_refl)) as (_ & He & Ho). rewrite (not_ends _ He), (not_opens _ Ho). cbn [level_of]. rewrite Z.sub_0_r, Z.add_0_r.
  assert (comment (declaration l) = false) as -> by (destruct l; reflexivity). cbn [app]. f_equal. apply IH. intros. apply H. now right.
Qed.
Lemma place_routine : forall be r rest, named be r -> (forall s, In s (r_stmts r) -> good s) ->
  place 0 (routine_flat be r ++ rest)%list = (lay 0 (kernel be r) ++ place 0 rest)%list.
Proof.
  intros be r rest H1 H2. unfold routine_flat, kernel. rewrite lay_block. cbn [app]. rewrite place_signature. f_equal.
  unfold suite. rewrite flat_map_app, <- !app_assoc, place_decls by auto. f_equal.
  rewrite place_stmts by auto. cbn [app]. rewrite place_end. reflexivity.
Qed.
Lemma header_nl : forall be, exists h, header be = h ++ NL /\ logical h = flat_map (lay 0) (prelude be).
Proof. intros be. exists (substring 0 (String.length (header be) - 1) (header be)). destruct be; split; vm_compute; reflexivity. Qed.
Lemma header_logical : forall be t, logical (header be ++ t) = (flat_map (lay 0) (prelude be) ++ logical t)%list.
Proof. intros be t. destruct (header_nl be) as (h & -> & <-). rewrite app_assoc_s. apply logical_app. Qed.
Lemma dump_logical : forall be rs, (forall r, In r rs -> named be r /\ forall s, In s (r_stmts r) -> readable s) ->
  logical (dump be rs) = (flat_map (lay 0) (prelude be) ++ place 0 (flat_map (routine_flat be) rs))%list.
Proof.
  intros be rs H. unfold dump. rewrite header_logical. f_equal. rewrite (map_ext _ _ (routine_text_body be)).
  assert (C : cores (lines (String.concat "" (map (fun r => routine_body be r ++ NL) rs))) = flat_map (routine_flat be) rs).
  { rewrite cores_units. apply flat_map_eq. intros r I. destruct (H r I). now apply routine_cores. }
  assert (E : String.concat "" (map (fun r => routine_body be r ++ NL) rs) = "" \/ exists t, String.concat "" (map (fun r => routine_body be r ++ NL) rs) = t ++ NL).
  { clear. induction rs as [|r rs IH]; [left; reflexivity|]. right. destruct rs as [|q rs]; [exists (routine_body be r); reflexivity|].
    destruct IH as [IH|[t IH]]; [exfalso; cbn [map String.concat] in IH; destruct rs; discriminate|].
    exists (routine_body be r ++ NL ++ t). change (String.concat "" (map (fun r => routine_body be r ++ NL) (r :: q :: rs))) with
      ((routine_body be r ++ NL) ++ "" ++ String.concat "" (map (fun r => routine_body be r ++ NL) (q :: rs))). rewrite IH. now rewrite !app_assoc_s. }
  destruct E as [E|[t E]]; rewrite <- C, E; [reflexivity|]. apply logical_indent.
Qed.
Lemma good_readable : forall s, good s -> readable s.
Proof.
  induction s as [l r|t b IH] using stmt_rec'; [intros [H|[H _]]; [left|right]; auto|]. intros [H1 H2]. split; [exact H1|].
  induction b; [exact I|]. apply Forall_cons_iff in IH. destruct IH as [I1 I2], H2 as [G1 G2]. split; [exact (I1 G1)|exact (IHb I2 G2)].
Qed.

(* ================= theorems ================= *)
(* The file has one block per kernel, with its declarations, its loops and its statements. *)
Theorem C69_text : forall be rs, (forall r, In r rs -> good_routine be r) -> parses (dump be rs) (prelude be ++ map (kernel be) rs).
Proof.
  intros be rs H. unfold parses.
  assert (E : logical (dump be rs) = flat_map (lay 0) (prelude be ++ map (kernel be) rs)).
  { rewrite dump_logical by (intros r I; destruct (H r I) as (H1 & H2 & _); split; auto; intros; apply good_readable, H2; auto). rewrite flat_map_app. f_equal.
    induction rs as [|r rs IH]; [reflexivity|]. cbn [flat_map map]. destruct (H r (or_introl eq_refl)) as (H1 & H2 & _).
    rewrite place_routine by (auto; intros; apply H2; auto). f_equal. apply IH. intros. apply H. now right. }
  rewrite E. apply (lay_sound _ 0); [lia|]. apply Forall_app. split.
  - destruct be; repeat constructor; cbn; rewrite <- opens_iff; discriminate.
  - apply Forall_forall. intros t I. apply in_map_iff in I. destruct I as (r & <- & I). destruct (H r I) as (H1 & H2 & H3). apply sound_block. repeat split.
    + destruct (signature_colon be r) as [x ->]. apply opens_colon.
    + exact H3.
    + unfold suite. apply Forall_app. split.
      * destruct H1 as [_ H1]. destruct be; [|constructor]. apply Forall_forall. intros t J. apply in_map_iff in J. destruct J as (l & <- & J). cbn. now apply H1.
      * apply Forall_flat_map. apply Forall_forall. intros s J. apply program_sound; now apply H2.
Qed.

(* A source has one structure. *)
Lemma block_at_least : forall k ls ts, block k ls ts -> forall p, In p ls -> (k <= fst p)%nat.
Proof.
  induction 1; intros p I; [contradiction| |].
  - destruct I as [<-|I]; auto.
  - destruct I as [<-|I]; auto. apply in_app_or in I. destruct I as [I|I]; auto. specialize (IHblock1 p I). lia.
Qed.
Lemma block_first : forall k ls ts, block k ls ts -> ls = [] \/ exists s rest, ls = (k, s) :: rest.
Proof. destruct 1; eauto. Qed.
Lemma split_unique : forall (k : nat) (a b c d : list (nat * string)), (a ++ b = c ++ d)%list ->
  (forall p, In p a -> (k < fst p)%nat) -> (forall p, In p c -> (k < fst p)%nat) ->
  (b = [] \/ exists s r, b = (k, s) :: r) -> (d = [] \/ exists s r, d = (k, s) :: r) -> a = c /\ b = d.
Proof.
  induction a as [|x a IH]; intros b [|y c] d E Ha Hc Hb Hd; cbn in E; auto.
  - exfalso. subst b. destruct Hb as [Hb|(s & r & Hb)]; [discriminate|]. injection Hb as -> _. specialize (Hc (k, s) (or_introl eq_refl)). cbn in Hc. lia.
  - exfalso. subst d. destruct Hd as [Hd|(s & r & Hd)]; [discriminate|]. injection Hd as -> _. specialize (Ha (k, s) (or_introl eq_refl)). cbn in Ha. lia.
  - injection E as -> E. destruct (IH b c d E) as [-> ->]; auto; intros; [apply Ha|apply Hc]; now right.
Qed.
Lemma block_unique : forall k ls ts, block k ls ts -> forall us, block k ls us -> ts = us.
Proof.
  induction 1; intros us' B.
  - inversion B. reflexivity.
  - inversion B; subst; [f_equal; auto|contradiction].
  - inversion B as [|k' s' rest' ts' Ho' Hb'|k' j' s' inner' rest' ts' us2 Ho' Hj' Hne' Hin' Hre' E1 E2 E3]; [subst; contradiction|]. subst k' s' us'.
    destruct (split_unique k inner rest inner' rest') as [<- <-]; auto.
    + intros p I. pose proof (block_at_least _ _ _ H2 p I). lia.
    + intros p I. pose proof (block_at_least _ _ _ Hin' p I). lia.
    + eapply block_first; eauto.
    + eapply block_first; eauto.
    + destruct (block_first _ _ _ H2) as [E|(s1 & r1 & E1)]; [congruence|]. destruct (block_first _ _ _ Hin') as [E|(s2 & r2 & E4)]; [congruence|].
      assert (j = j') by congruence. subst j'. f_equal; [f_equal|]; auto.
Qed.
Theorem C69_unique : forall text ts us, parses text ts -> parses text us -> ts = us.
Proof. intros text ts us H1 H2. exact (block_unique _ _ _ H1 _ H2). Qed.

(* A right side which ends with "end", as the symbol tend: the statement leaves the loop. *)
Theorem C69_end : forall nm args locs i a b l r, let q := mkRoutine nm args locs [For [i] [Assign a b; Assign l r]] in
  named Cython q -> one_line (l_label i) -> one_line (l_lower i) -> one_line (l_upper i) ->
  a <> b -> fair a b -> ~ ends b -> l <> r -> fair l r -> ends r ->
  parses (dump Cython [q]) (prelude Cython ++ [Block (signature Cython q) (map (fun x => Line (declaration x)) locs ++ [Block (loop_head i) [Line (a ++ " = " ++ b)]; Line (l ++ " = " ++ r)])]).
Proof.
  intros nm args locs i a b l r q Hn H1 H2 H3 Hab Ha He Hlr Hl Hr. unfold parses.
  assert (R : forall s, In s (r_stmts q) -> readable s).
  { intros s [<-|[]]. split; [intros j [<-|[]]; auto|]. repeat split; right; auto. }
  rewrite dump_logical by (intros x [<-|[]]; split; auto).
  assert (E : forall ts, (flat_map (lay 0) (prelude Cython) ++ place 0 (flat_map (routine_flat Cython) [q]))%list = flat_map (lay 0) (prelude Cython ++ ts)%list -> Forall sound ts ->
    block 0 (flat_map (lay 0) (prelude Cython) ++ place 0 (flat_map (routine_flat Cython) [q]))%list (prelude Cython ++ ts)).
  { intros ts -> Hs. apply (lay_sound _ 0); [lia|]. apply Forall_app. split; auto. repeat constructor; cbn; rewrite <- opens_iff; discriminate. }
  destruct (fair_text a b Ha) as (_ & _ & A1 & A2 & A3). destruct (fair_text l r Hl) as (_ & _ & L1 & L2 & L3).
  apply E; clear E.
  - rewrite flat_map_app. f_equal. cbn [flat_map]. rewrite !app_nil_r, lay_block. unfold routine_flat. rewrite place_signature. f_equal.
    rewrite place_decls by auto. rewrite flat_map_app. f_equal. cbn [flat_map q r_stmts]. rewrite flat_for. cbn [flat_map map flat].
    destruct (String.eqb_spec a b) as [?|_]; [contradiction|]. destruct (String.eqb_spec l r) as [?|_]; [contradiction|]. cbn [app].
    rewrite place_head. cbn [place]. rewrite A1, A2, A3, L1, L2, L3, (not_ends _ He), (proj2 (ends_iff r) Hr). reflexivity.
  - constructor; [|constructor]. apply sound_block. repeat split.
    + destruct (signature_colon Cython q) as [x ->]. apply opens_colon.
    + intro X. apply app_eq_nil in X. destruct X. discriminate.
    + apply Forall_app. split.
      * apply Forall_forall. intros t J. apply in_map_iff in J. destruct J as (x & <- & J). cbn. destruct Hn as [_ Hn]. now apply Hn.
      * constructor; [|constructor; [|constructor]].
        -- apply sound_block. repeat split; [destruct (loop_head_colon i) as [x ->]; apply opens_colon|discriminate|]. constructor; [|constructor].
           cbn [sound]. rewrite <- opens_iff, A2. discriminate.
        -- cbn [sound]. rewrite <- opens_iff, L2. discriminate.
Qed.

(* A loop or a kernel whose statements are all of the form x = x is not a source. *)
Lemma block_last : forall k ls ts, block k ls ts -> forall xs j s, ls = (xs ++ [(j, s)])%list -> ~ opens s.
Proof.
  induction 1; intros xs j' s' E.
  - destruct xs; discriminate.
  - destruct xs as [|x xs]; cbn in E; injection E.
    + intros _ <- _. exact H.
    + intros E1 _. eapply IHblock; eauto.
  - destruct xs as [|x xs]; cbn in E; injection E.
    + intros E1 _ _. apply app_eq_nil in E1. tauto.
    + intros E1 _. destruct rest as [|p rest].
      * rewrite app_nil_r in E1. eapply IHblock1; eauto.
      * destruct (exists_last (l := p :: rest)) as (r' & p' & Er); [discriminate|]. rewrite Er in E1. rewrite app_assoc in E1. apply app_inj_tail in E1. destruct E1 as [_ ->].
        eapply IHblock2; eauto.
Qed.
Lemma lay_nest_last : forall t k, t <> [] -> exists xs j i, flat_map (lay k) (fold_right (fun i ts => [Block (loop_head i) ts]) [] t) = (xs ++ [(j, loop_head i)])%list.
Proof.
  induction t as [|i t IH]; intros k H; [contradiction|]. cbn [fold_right flat_map]. rewrite app_nil_r, lay_block. destruct t as [|i' t].
  - cbn [fold_right flat_map]. exists [], (4 * Z.to_nat k)%nat, i. reflexivity.
  - destruct (IH (k + 1)) as (xs & j & i2 & E); [discriminate|]. rewrite E. exists (((4 * Z.to_nat k)%nat, loop_head i) :: xs), j, i2. reflexivity.
Qed.
Theorem C69_no_statement : forall be rs r, (forall q, In q rs -> good_routine be q) -> named be r -> (forall s, In s (r_stmts r) -> good s) ->
  (suite be r = [] \/ be = Cython /\ exists ss t b, r_stmts r = ss ++ [For t b] /\ t <> [] /\ (forall e, In e b -> program Cython e = []))%list ->
  forall ts, ~ parses (dump be (rs ++ [r])) ts.
Proof.
  intros be rs r H Hn Hg Hs ts P. unfold parses in P.
  rewrite dump_logical in P by (intros q I; apply in_app_or in I; destruct I as [I|[<-|[]]]; [destruct (H q I) as (G1 & G2 & _); split; auto; intros; apply good_readable, G2|split; auto; intros; apply good_readable]; auto).
  rewrite flat_map_app in P. cbn [flat_map] in P. rewrite app_nil_r in P.
  assert (E : forall X, place 0 (flat_map (routine_flat be) rs ++ X)%list = (flat_map (lay 0) (map (kernel be) rs) ++ place 0 X)%list).
  { intros X. clear - H. induction rs as [|q rs IH]; [reflexivity|]. cbn [flat_map map]. destruct (H q (or_introl eq_refl)) as (H1 & H2 & _).
    rewrite <- !app_assoc, place_routine by (auto; intros; apply H2; auto). f_equal. apply IH. intros. apply H. now right. }
  rewrite E in P. rewrite <- (app_nil_r (routine_flat be r)) in P. rewrite place_routine in P by auto. cbn [place] in P. rewrite app_nil_r, app_assoc in P.
  set (pre := (flat_map (lay 0) (prelude be) ++ flat_map (lay 0) (map (kernel be) rs))%list) in P. unfold kernel in P. rewrite lay_block in P.
  destruct Hs as [Hs|(-> & ss & t & b & Es & Ht & Hb)].
  - rewrite Hs in P. cbn [flat_map] in P. apply (block_last _ _ _ P pre _ _ eq_refl). destruct (signature_colon be r) as [x ->]. apply opens_colon.
  - assert (Eb : flat_map (program Cython) b = []) by (clear - Hb; induction b; [reflexivity|]; cbn; rewrite Hb, IHb by (try (intros; apply Hb); now (left + right)); reflexivity).
    unfold suite in P. rewrite Es, (flat_map_app (program Cython)) in P. cbn [flat_map] in P. rewrite program_for, Eb, app_nil_r in P.
    destruct (lay_nest_last t (0 + 1) Ht) as (xs & j & i & El). rewrite !flat_map_app, El in P.
    match type of P with block _ (pre ++ ?h :: ?u ++ ?v ++ xs ++ ?w)%list _ => apply (block_last _ _ _ P (pre ++ h :: u ++ v ++ xs)%list j (loop_head i)) end.
    + rewrite <- !app_assoc. cbn [app]. now rewrite <- !app_assoc.
    + destruct (loop_head_colon i) as [x ->]. apply opens_colon.
Qed.

(* "end" at the end of a right side: the text is a source with another meaning. *)
Definition x_loop := mkLoop "i" "0" "nx".
Definition x_end := mkRoutine "source_term" [mkArg "double" "m" 2; mkArg "double" "tend" 0] [LIdx "i"]
  [For [x_loop] [Assign "m[i, 0]" "2*m[i, 0]"; Assign "m[i, 1]" "m[i, 0]*tend"]].
Ltac no_such := let t := fresh in let H := fresh in intros [t H];
  match type of H with ?s = t ++ ?u => assert (E : endswith u s = true) by (apply endswith_spec; exists t; exact H); vm_compute in E; discriminate E end.
Ltac one_line_tac := let H := fresh in intro H; vm_compute in H; repeat (destruct H as [H|H]; [discriminate H|]); exact H.
Ltac fair_tac := repeat split; [eexists _, _; split; [reflexivity|let H := fresh in intro H; cbn in H; repeat (destruct H as [H|H]; [discriminate H|]); exact H]|one_line_tac|one_line_tac|no_such].
Lemma x_end_named : named Cython x_end.
Proof. split; [one_line_tac|]. intros _ l [<-|[]]. repeat split; [one_line_tac|no_such|no_such]. Qed.
Theorem C69_end_refuted : exists r ts, named Cython r /\ (forall s, In s (r_stmts r) -> readable s /\ busy s) /\ suite Cython r <> [] /\
  parses (dump Cython [r]) ts /\ ts <> (prelude Cython ++ [kernel Cython r])%list.
Proof.
  exists x_end. eexists. split; [exact x_end_named|]. split; [|split; [discriminate|split; [apply (C69_end "source_term" _ [LIdx "i"] x_loop)|]]].
  - intros s [<-|[]]. split.
    + split; [intros j [<-|[]]; repeat split; one_line_tac|]. repeat split; right; split; auto; fair_tac.
    + split; [right; eexists; split; [left; reflexivity|discriminate]|]. repeat split.
  - exact x_end_named.
  - one_line_tac.
  - one_line_tac.
  - one_line_tac.
  - discriminate.
  - fair_tac.
  - no_such.
  - discriminate.
  - fair_tac.
  - exists "m[i, 0]*t". reflexivity.
  - discriminate.
Qed.
(* The kernel of the equilibrium when all the moments are conserved. *)
Definition x_empty := mkRoutine "equilibrium" [mkArg "double" "m" 2] [LIdx "i"] [For [x_loop] [Assign "m[i, 0]" "m[i, 0]"; Assign "m[i, 1]" "m[i, 1]"]].
Theorem C69_empty_refuted : forall be, exists r, named be r /\ (forall s, In s (r_stmts r) -> good s) /\ forall ts, ~ parses (dump be [r]) ts.
Proof.
  intros be. exists x_empty.
  assert (N : named be x_empty) by (split; [destruct be; one_line_tac|intros _ l [<-|[]]; repeat split; [one_line_tac|no_such|no_such]]).
  assert (G : forall s, In s (r_stmts x_empty) -> good s).
  { intros s [<-|[]]. split; [intros j [<-|[]]; repeat split; one_line_tac|]. repeat split; left; reflexivity. }
  split; [exact N|split; [exact G|]]. apply (C69_no_statement be [] x_empty); auto; [intros q []|].
  destruct be; [right; split; [reflexivity|]|left; reflexivity].
  exists [], [x_loop], [Assign "m[i, 0]" "m[i, 0]"; Assign "m[i, 1]" "m[i, 1]"]. repeat split; [discriminate|]. intros e [<-|[<-|[]]]; reflexivity.
Qed.

(* ================= examples ================= *)
Definition x_good := mkRoutine "relaxation" [mkArg "double" "m" 3; mkArg "double" "s" 0] [LIdx "i"; LIdx "j"; LArr "w" ["3"]]
  [For [x_loop; mkLoop "j" "0" "ny"] [Assign "w[0]" "m[i, j, 0]"; Assign "m[i, j, 1]" "m[i, j, 1]"; Assign "m[i, j, 2]" "s*w[0]"]].
Lemma x_good_good : forall be, good_routine be x_good.
Proof.
  intros be. split; [|split].
  - split; [destruct be; one_line_tac|]. intros _ l [<-|[<-|[<-|[]]]]; repeat split; try one_line_tac; no_such.
  - intros s [<-|[]]. split.
    + split; [intros j [<-|[<-|[]]]; repeat split; one_line_tac|]. split; [right; split; [fair_tac|no_such]|]. split; [left; reflexivity|]. split; [right; split; [fair_tac|no_such]|exact I].
    + intros _. split; [right; eexists; split; [left; reflexivity|discriminate]|]. repeat split.
  - destruct be; discriminate.
Qed.
Example C69_example : parses (dump Cython [x_good; x_good]) (prelude Cython ++ [kernel Cython x_good; kernel Cython x_good]) /\
  kernel Cython x_good = Block "def relaxation(double[:, :, ::1] m, double s):" [Line "cdef int i"; Line "cdef int j"; Line "cdef double w[3]";
    Block "for i in range(0, nx):" [Block "for j in range(0, ny):" [Line "w[0] = m[i, j, 0]"; Line "m[i, j, 2] = s*w[0]"]]].
Proof. split; [|reflexivity]. apply (C69_text Cython [x_good; x_good]). intros r [<-|[<-|[]]]; apply x_good_good. Qed.
Example C69_example_numpy : parses (dump Numpy [x_good]) [Line "import numpy"; Block "def relaxation(m, s):" [Line "w[0] = m[i, j, 0]"; Line "m[i, j, 2] = s*w[0]"]].
Proof. apply (C69_text Numpy [x_good]). intros r [<-|[]]. apply x_good_good. Qed.
Example C69_example_text : logical (dump Cython [x_end]) = [(0%nat, "from libc.math cimport *"); (0%nat, "def source_term(double[:, ::1] m, double tend):"); (4%nat, "cdef int i");
  (4%nat, "for i in range(0, nx):"); (8%nat, "m[i, 0] = 2*m[i, 0]"); (4%nat, "m[i, 1] = m[i, 0]*tend")].
Proof. vm_compute. reflexivity. Qed.

Print Assumptions C69_text.
Print Assumptions C69_unique.
Print Assumptions C69_end.
Print Assumptions C69_no_statement.
Print Assumptions C69_end_refuted.
Print Assumptions C69_empty_refuted.
