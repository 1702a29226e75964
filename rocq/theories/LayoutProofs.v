(* Specification of the block structure of a Python source, and lemmas on LayoutModel.v. *)
From Coq Require Import String Ascii ZifyBool.
From Verif Require Import PyBase LayoutModel.
Open Scope string_scope.
Open Scope Z_scope.

(* ================= specification ================= *)
(* the physical lines of a source: text.split("\n") *)
Fixpoint source_lines (s : string) : list string := match s with
  | EmptyString => [""]
  | String c r => if Ascii.eqb c "010" then "" :: source_lines r
                  else match source_lines r with l :: ls => String c l :: ls | [] => [String c ""] end
  end.
(* the number of leading spaces and the remainder of a line *)
Fixpoint lead (s : string) : nat * string := match s with
  | String c r => if Ascii.eqb c " " then (S (fst (lead r)), snd (lead r)) else (O, s)
  | EmptyString => (O, "")
  end.
(* the tokenizer ignores the lines which are blank or comments *)
Definition significant (p : nat * string) : bool := match snd p with EmptyString => false | String c _ => negb (Ascii.eqb c "#") end.
Definition logical (s : string) : list (nat * string) := filter significant (map lead (source_lines s)).

(* simple statements and compound statements with their suite *)
Inductive tree := Line (s : string) | Block (head : string) (body : list tree).
Definition opens (s : string) : Prop := exists t, s = t ++ ":".
(* Python's rule: the lines of a suite have all the same indentation, larger than the one of the
   header, and a suite is not empty *)
Inductive block : nat -> list (nat * string) -> list tree -> Prop :=
| b_nil k : block k [] []
| b_line k s rest ts : ~ opens s -> block k rest ts -> block k ((k, s) :: rest) (Line s :: ts)
| b_block k j s inner rest ts us : opens s -> (k < j)%nat -> inner <> [] -> block j inner ts -> block k rest us ->
    block k ((k, s) :: inner ++ rest) (Block s ts :: us).
Definition parses (text : string) (ts : list tree) : Prop := block 0 (logical text) ts.

(* ================= characters and suffixes ================= *)
Fixpoint has (c : ascii) (s : string) : bool := match s with EmptyString => false | String d r => Ascii.eqb d c || has c r end.
Lemma has_app : forall c s t, has c (s ++ t) = has c s || has c t.
Proof. induction s; intros; cbn; auto. rewrite IHs. destruct (Ascii.eqb a c); reflexivity. Qed.
Lemma app_nil_s : forall s, (s ++ "")%string = s.
Proof. induction s; cbn; congruence. Qed.
Lemma app_assoc_s : forall a b c : string, ((a ++ b) ++ c = a ++ (b ++ c))%string.
Proof. induction a; intros; cbn; auto. now rewrite IHa. Qed.
Lemma has_neq : forall c s t, has c s = true -> has c t = false -> String.eqb s t = false.
Proof. intros. destruct (String.eqb_spec s t); auto. subst. congruence. Qed.
Lemma endswith_has : forall c t s, has c t = true -> has c s = false -> endswith t s = false.
Proof.
  induction s; intros; cbn [endswith].
  - rewrite String.eqb_sym, (has_neq c t ""); auto.
  - rewrite String.eqb_sym, (has_neq c t (String a s)) by auto. cbn in H0. apply Bool.orb_false_iff in H0. rewrite IHs by tauto. reflexivity.
Qed.
Lemma endswith_after : forall c t a r, has c t = false -> endswith t (a ++ String c r) = endswith t r.
Proof.
  induction a; intros; cbn [append endswith].
  - rewrite (has_neq c) by (auto; cbn; now rewrite Ascii.eqb_refl). reflexivity.
  - rewrite (has_neq c) by (auto; cbn; rewrite has_app; cbn; rewrite Ascii.eqb_refl; now rewrite !Bool.orb_true_r). now apply IHa.
Qed.
Lemma endswith_spec : forall t s, endswith t s = true <-> exists p, s = p ++ t.
Proof.
  induction s; cbn [endswith].
  - rewrite Bool.orb_false_r, String.eqb_eq. split.
    + intros <-. now exists "".
    + intros [[|] H]; cbn in H; congruence.
  - rewrite Bool.orb_true_iff, String.eqb_eq, IHs. split.
    + intros [<-|[p ->]]; [now exists "" | now exists (String a p)].
    + intros [[|b p] H]; cbn in H; [left; auto|]. injection H as -> ->. right. now exists p.
Qed.
Lemma eqb_app_char : forall c x t, String.eqb (x ++ String c "") (t ++ String c "") = String.eqb x t.
Proof.
  intros. destruct (String.eqb_spec x t) as [->|H]; [apply String.eqb_refl|]. apply String.eqb_neq. intro E. apply H. clear H. revert t E.
  induction x; intros [|b t] E; cbn in E; auto.
  - injection E. intros. destruct t; discriminate.
  - injection E. intros. destruct x; discriminate.
  - injection E as -> E. f_equal. auto.
Qed.
Lemma endswith_app_char : forall c t x, endswith (t ++ String c "") (x ++ String c "") = endswith t x.
Proof.
  induction x; cbn [append endswith].
  - pose proof (eqb_app_char c "" t) as E. cbn [append] in E. rewrite E. destruct t; reflexivity.
  - pose proof (eqb_app_char c (String a x) t) as E. cbn [append] in E. rewrite E, IHx. reflexivity.
Qed.
Lemma endswith_other : forall c d x, Ascii.eqb c d = false -> endswith (String d "") (x ++ String c "") = false.
Proof.
  induction x; intros H; cbn [append endswith].
  - cbn. rewrite H. reflexivity.
  - rewrite IHx by auto. rewrite Bool.orb_false_r. apply String.eqb_neq. intro E. injection E. intros. destruct x; discriminate.
Qed.

(* ================= lines ================= *)
Notation nlfree s := (has nl s = false).
Lemma chomp_nlfree : forall s, nlfree (chomp s).
Proof. induction s; cbn; auto. destruct (Ascii.eqb a nl) eqn:E; cbn; auto. rewrite E. auto. Qed.
Lemma lines_nlfree : forall s l, In l (lines s) -> nlfree l.
Proof. intros s l H. apply in_map_iff in H. destruct H as (x & <- & _). apply chomp_nlfree. Qed.
Lemma lines_cons : forall c s, lines (String c s) = if Ascii.eqb c nl then "" :: lines s else match lines s with [] => [String c ""] | l :: ls => String c l :: ls end.
Proof.
  intros. unfold lines. cbn. destruct (Ascii.eqb c nl) eqn:E; [reflexivity|]. destruct (lines_keep s); cbn; rewrite E; reflexivity.
Qed.
Lemma lines_nl : forall a, lines (a ++ NL) <> [].
Proof.
  induction a; cbn [append]; [discriminate|]. rewrite lines_cons. destruct (Ascii.eqb a nl); [discriminate|]. destruct (lines (a0 ++ NL)); discriminate.
Qed.
Lemma lines_app : forall a b, lines (a ++ NL ++ b) = (lines (a ++ NL) ++ lines b)%list.
Proof.
  induction a; intros; [reflexivity|]. cbn [append]. rewrite !lines_cons, IHa.
  destruct (Ascii.eqb a nl); [reflexivity|]. pose proof (lines_nl a0). destruct (lines (a0 ++ NL)); [contradiction|reflexivity].
Qed.
Lemma lines_end : forall a, lines (a ++ NL) = lines a \/ lines (a ++ NL) = (lines a ++ [""])%list.
Proof.
  induction a; [right; reflexivity|]. cbn [append]. rewrite !lines_cons. destruct (Ascii.eqb a nl).
  - destruct IHa as [-> | ->]; auto.
  - destruct a0; [left; reflexivity|]. assert (lines (String a0 a1) <> []) by (rewrite lines_cons; destruct (Ascii.eqb a0 nl); [|destruct (lines a1)]; discriminate).
    destruct IHa as [-> | ->]; auto. destruct (lines (String a0 a1)); [contradiction|]. right. reflexivity.
Qed.
Lemma lines_one : forall s, nlfree s -> lines s = match s with EmptyString => [] | _ => [s] end.
Proof.
  induction s; intros H; [reflexivity|]. cbn in H. apply Bool.orb_false_iff in H. destruct H. rewrite lines_cons, IHs, H by auto. now destruct s.
Qed.

(* ================= stripped lines ================= *)
Definition core (l : string) : list string := match lstrip l with EmptyString => [] | s => [s] end.
Definition cores (ls : list string) : list string := flat_map core ls.
Lemma cores_app : forall a b, cores (a ++ b) = (cores a ++ cores b)%list.
Proof. intros. apply flat_map_app. Qed.
Lemma cores_end : forall a, cores (lines (a ++ NL)) = cores (lines a).
Proof. intros. destruct (lines_end a) as [-> | ->]; auto. rewrite cores_app. cbn. now rewrite app_nil_r. Qed.
Lemma cores_nl : forall a b, cores (lines (a ++ NL ++ b)) = (cores (lines a) ++ cores (lines b))%list.
Proof. intros. now rewrite lines_app, cores_app, cores_end. Qed.
Lemma cores_concat : forall ps, cores (lines (String.concat NL ps)) = flat_map (fun p => cores (lines p)) ps.
Proof.
  induction ps as [|p ps]; [reflexivity|]. destruct ps as [|q ps].
  - cbn. now rewrite app_nil_r.
  - change (String.concat NL (p :: q :: ps)) with (p ++ NL ++ String.concat NL (q :: ps)). rewrite cores_nl, IHps. reflexivity.
Qed.
Lemma cores_one : forall s, nlfree s -> cores (lines s) = core s.
Proof. intros. rewrite lines_one by auto. destruct s; [reflexivity|]. cbn [cores flat_map]. apply app_nil_r. Qed.
Lemma lstrip_idem : forall s, lstrip (lstrip s) = lstrip s.
Proof. induction s; cbn; auto. destruct (is_blank a) eqn:E; auto. cbn. now rewrite E. Qed.
Lemma lstrip_spaces : forall n s, lstrip (spaces n ++ s) = lstrip s.
Proof. induction n; intros; cbn; auto. Qed.
Lemma lstrip_nlfree : forall s, nlfree s -> nlfree (lstrip s).
Proof. induction s; intros; cbn; auto. cbn in H. destruct (is_blank a); [apply IHs; apply Bool.orb_false_iff in H; tauto|auto]. Qed.
Lemma spaces_nlfree : forall n, nlfree (spaces n).
Proof. induction n; cbn; auto. Qed.

Lemma core_indented : forall z l, core (tabs z ++ lstrip l) = core l.
Proof. intros. unfold core, tabs. now rewrite lstrip_spaces, lstrip_idem. Qed.
Lemma indent_cores : forall code z, (forall l, In l code -> nlfree l) ->
  flat_map (fun p => cores (lines p)) (indent_from z (map lstrip code)) = cores code.
Proof.
  induction code as [|l code]; intros z H; [reflexivity|]. cbn [map indent_from].
  assert (Hl : nlfree (lstrip l)) by (apply lstrip_nlfree, H; now left).
  destruct (String.eqb_spec (lstrip l) "") as [E|E]; cbn [orb].
  - cbn [flat_map]. rewrite IHcode by (intros; apply H; now right). rewrite E. change (cores (l :: code)) with (core l ++ cores code)%list. unfold core. rewrite E. reflexivity.
  - destruct (String.eqb_spec (lstrip l) NL) as [E2|E2]; [rewrite E2 in Hl; discriminate|]. cbn [flat_map].
    rewrite IHcode by (intros; apply H; now right). rewrite cores_one by (rewrite has_app; unfold tabs; now rewrite spaces_nlfree, Hl).
    rewrite core_indented. reflexivity.
Qed.
Lemma cores_format : forall t, cores (lines (format t)) = cores (lines t).
Proof. intros. unfold format, indent_list. rewrite cores_concat. apply indent_cores. apply lines_nlfree. Qed.

(* ================= the levels ================= *)
Definition comment (s : string) : bool := match s with String c _ => Ascii.eqb c "#" | _ => false end.
Fixpoint place (level : Z) (ls : list string) : list (nat * string) := match ls with
  | [] => []
  | l :: ls => let lv := level - level_of (endswith "end" l) in
      ((if comment l then [] else [((4 * Z.to_nat lv)%nat, l)]) ++ place (lv + level_of (endswith ":" l)) ls)%list
  end.
Lemma lines_keep_nl : forall t, lines_keep (t ++ NL) = map (fun l => l ++ NL)%string (lines (t ++ NL)).
Proof.
  induction t; [reflexivity|]. cbn [append]. rewrite lines_cons. cbn [lines_keep]. rewrite IHt. destruct (Ascii.eqb a nl); [reflexivity|].
  pose proof (lines_nl t). destruct (lines (t ++ NL)); [contradiction|reflexivity].
Qed.
Lemma lstrip_nl : forall s, lstrip (s ++ NL) = (lstrip s ++ NL)%string.
Proof. induction s; cbn; auto. destruct (is_blank a); auto. Qed.
Lemma source_nl : forall a b, nlfree a -> source_lines (a ++ NL ++ b) = a :: source_lines b.
Proof.
  induction a; intros b H; [reflexivity|]. cbn in H. apply Bool.orb_false_iff in H. destruct H as [H1 H2].
  cbn [append source_lines]. change ("010"%char) with nl. rewrite H1, IHa by auto. reflexivity.
Qed.
Lemma source_concat : forall xs, (forall x, In x xs -> nlfree x) -> source_lines (String.concat "" (map (fun x => x ++ NL)%string xs)) = (xs ++ [""])%list.
Proof.
  induction xs as [|x xs]; intros H; [reflexivity|].
  assert (E : String.concat "" (map (fun x => x ++ NL)%string (x :: xs)) = (x ++ NL ++ String.concat "" (map (fun x => x ++ NL)%string xs))%string)
    by (destruct xs; cbn [map String.concat]; [now rewrite app_nil_s|now rewrite app_assoc_s]).
  rewrite E, source_nl by (apply H; now left). rewrite IHxs by (intros; apply H; now right). reflexivity.
Qed.
Lemma lead_spaces : forall n s, lead (spaces n ++ s) = ((n + fst (lead s))%nat, snd (lead s)).
Proof. induction n; intros; cbn; [now destruct (lead s)|]. now rewrite IHn. Qed.
Lemma lead_lstrip : forall s, lead (lstrip s) = (O, lstrip s).
Proof.
  induction s; cbn; auto. destruct (is_blank a) eqn:E; auto. cbn. unfold is_blank in E. apply Bool.orb_false_iff in E. destruct E as [-> _]. reflexivity.
Qed.
Fixpoint indented (level : Z) (code : list string) : list string := match code with
  | [] => []
  | l :: code => if String.eqb l "" then "" :: indented level code
                 else let lv := level - level_of (endswith "end" l) in (tabs lv ++ l)%string :: indented (lv + level_of (endswith ":" l)) code
  end.
Lemma indent_indented : forall code z, (forall l, In l code -> nlfree l) ->
  indent_from z (map (fun l => l ++ NL)%string code) = map (fun l => l ++ NL)%string (indented z code).
Proof.
  induction code as [|l code]; intros z H; [reflexivity|]. cbn [map indent_from indented].
  assert (Hl : nlfree l) by (apply H; now left).
  assert (E1 : String.eqb (l ++ NL) "" = false) by (destruct l; reflexivity). rewrite E1. cbn [orb].
  assert (E2 : String.eqb (l ++ NL) NL = String.eqb l "") by (exact (eqb_app_char nl l "")). rewrite E2.
  destruct (String.eqb l "") eqn:E; [apply String.eqb_eq in E; subst l; cbn [map]; rewrite IHcode by (intros; apply H; now right); reflexivity|].
  assert (D : decreases (l ++ NL) = endswith "end" l) by exact (endswith_app_char nl "end" l).
  assert (I : increases (l ++ NL) = endswith ":" l).
  { unfold increases. transitivity (false || endswith ":" l); [|reflexivity]. f_equal; [exact (endswith_other nl ":" l eq_refl)|exact (endswith_app_char nl ":" l)]. }
  rewrite D, I. cbn [map]. rewrite IHcode by (intros; apply H; now right). f_equal. now rewrite app_assoc_s.
Qed.
Lemma indented_nlfree : forall code z, (forall l, In l code -> nlfree l) -> forall l, In l (indented z code) -> nlfree l.
Proof.
  induction code as [|x code]; intros z H l I; [contradiction|]. cbn [indented] in I. destruct (String.eqb x "").
  - destruct I as [<-|I]; [reflexivity|]. apply (IHcode z); auto. intros. apply H. now right.
  - destruct I as [<-|I]; [rewrite has_app; unfold tabs; rewrite spaces_nlfree; apply H; now left|]. eapply IHcode; [|exact I]. intros. apply H. now right.
Qed.
Lemma indented_place : forall code z,
  filter significant (map lead (indented z (map lstrip code))) = place z (cores code).
Proof.
  induction code as [|l code]; intros z; [reflexivity|]. cbn [map indented cores flat_map]. unfold core.
  destruct (String.eqb_spec (lstrip l) "") as [E|E].
  - rewrite E. cbn [map filter]. change (filter significant (map lead (indented z (map lstrip code))) = place z (cores code)). apply IHcode.
  - destruct (lstrip l) as [|c r] eqn:El; [contradiction|]. cbn [app place map filter]. unfold tabs. rewrite lead_spaces, <- El, lead_lstrip, El. cbn [fst snd].
    rewrite Nat.add_0_r. unfold significant at 1. cbn [snd comment]. rewrite IHcode. destruct (Ascii.eqb c "#"); reflexivity.
Qed.
Lemma logical_indent : forall t, logical (indent_text (t ++ NL)) = place 0 (cores (lines (t ++ NL))).
Proof.
  intros. unfold logical, indent_text, indent_list. rewrite lines_keep_nl. rewrite map_map.
  rewrite (map_ext (fun x => lstrip (x ++ NL)) (fun x => (fun l => l ++ NL)%string (lstrip x))) by (intros; apply lstrip_nl).
  rewrite <- (map_map lstrip (fun l => l ++ NL)%string).
  assert (H : forall l, In l (map lstrip (lines (t ++ NL))) -> nlfree l).
  { intros l I. apply in_map_iff in I. destruct I as (x & <- & I). apply lstrip_nlfree. now apply (lines_nlfree (t ++ NL)). }
  rewrite indent_indented by auto. rewrite source_concat by (now apply indented_nlfree).
  rewrite map_app, filter_app. cbn [map lead filter significant snd]. rewrite app_nil_r. apply indented_place.
Qed.
Lemma source_app : forall a b, source_lines (a ++ NL ++ b) = (source_lines a ++ source_lines b)%list.
Proof.
  induction a; intros; [reflexivity|]. cbn [append source_lines]. rewrite IHa. destruct (Ascii.eqb a "010"); [reflexivity|].
  destruct (source_lines a0) eqn:E; [|reflexivity]. exfalso. clear - E. destruct a0; cbn in E; [discriminate|]. destruct (Ascii.eqb a "010"); [discriminate|]. destruct (source_lines a0); discriminate.
Qed.
Lemma logical_app : forall a b, logical (a ++ NL ++ b) = (logical a ++ logical b)%list.
Proof. intros. unfold logical. now rewrite source_app, map_app, filter_app. Qed.

(* ================= the statements ================= *)
Section Ind.
Variable P : stmt -> Prop.
Hypothesis HA : forall l r, P (Assign l r).
Hypothesis HF : forall t b, Forall P b -> P (For t b).
Fixpoint stmt_rec' (s : stmt) : P s := match s with
  | Assign l r => HA l r
  | For t b => HF t b ((fix go (l : list stmt) : Forall P l := match l with [] => Forall_nil P | e :: l => Forall_cons e (stmt_rec' e) (go l) end) b)
  end.
End Ind.
Fixpoint flat (be : backend) (s : stmt) : list string := match s with
  | Assign l r => if String.eqb l r then [] else [l ++ " = " ++ r]%string
  | For t b => let inner := (fix go (l : list stmt) : list string := match l with [] => [] | e :: l => (flat be e ++ go l)%list end) b in
      match be with Cython => (map for_line t ++ inner ++ map (fun _ => "#end"%string) t)%list | Numpy => inner end
  end.
Lemma flat_for : forall be t b, flat be (For t b) =
  match be with Cython => (map for_line t ++ flat_map (flat be) b ++ map (fun _ => "#end"%string) t)%list | Numpy => flat_map (flat be) b end.
Proof.
  intros. cbn [flat]. assert (E : forall b, (fix go (l : list stmt) : list string := match l with [] => [] | e :: l => (flat be e ++ go l)%list end) b = flat_map (flat be) b).
  { clear. induction b; [reflexivity|]. cbn. now rewrite IHb. }
  rewrite E. reflexivity.
Qed.
Lemma print_for : forall be t b, print be (For t b) =
  String.concat NL (match be with Cython => map for_line t ++ map (fun e => format (print be e)) b ++ map (fun _ => "#end"%string) t | Numpy => map (fun e => format (print be e)) b end)%list.
Proof.
  intros. cbn [print]. assert (E : forall b, (fix go (l : list stmt) : list string := match l with [] => [] | e :: l => format (print be e) :: go l end) b = map (fun e => format (print be e)) b).
  { clear. induction b; [reflexivity|]. cbn. now rewrite IHb. }
  rewrite E. reflexivity.
Qed.
