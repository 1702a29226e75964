(* Property C82: a simulation calls the routines which it has generated. *)
From Coq Require Import String.
From Verif Require Import PyBase AutowrapModel.
Open Scope string_scope.
Open Scope Z_scope.
Arguments path_dec : simpl never.

(* ---- the routines ---- *)
Lemma odict_set_in k v d n : option_map snd (find (fun r => String.eqb (fst r) n) (odict_set k v d)) =
  if String.eqb k n then Some v else option_map snd (find (fun r => String.eqb (fst r) n) d).
Proof.
  induction d as [|[k' v'] d IH]; cbn.
  - now destruct (String.eqb k n).
  - destruct (String.eqb_spec k' k) as [->|Hk]; cbn.
    + now destruct (String.eqb k n).
    + destruct (String.eqb_spec k' n) as [->|Hn]; [|exact IH].
      destruct (String.eqb_spec k n) as [->|]; [congruence|reflexivity].
Qed.
Lemma odict_set_names k v d : forall n, In n (map fst (odict_set k v d)) <-> n = k \/ In n (map fst d).
Proof.
  induction d as [|[k' v'] d IH]; intros n; cbn; [intuition|].
  destruct (String.eqb_spec k' k) as [->|Hk]; cbn; [intuition|]. rewrite IH. intuition.
Qed.
Lemma odict_set_nodup k v d : NoDup (map fst d) -> NoDup (map fst (odict_set k v d)).
Proof.
  induction d as [|[k' v'] d IH]; intros H; cbn; [repeat constructor; auto|]. inversion H; subst.
  destruct (String.eqb_spec k' k) as [->|Hk]; cbn; constructor; auto. rewrite odict_set_names. intuition congruence.
Qed.
Lemma routines_nodup rs : NoDup (map fst (fold_left add_routine rs [])).
Proof.
  enough (H : forall d, NoDup (map fst d) -> NoDup (map fst (fold_left add_routine rs d))) by (apply H; constructor).
  induction rs as [|r rs IH]; intros d Hd; [exact Hd|]. apply IH, odict_set_nodup, Hd.
Qed.
Lemma find_app A (f : A -> bool) l1 l2 : find f (l1 ++ l2) = match find f l1 with Some a => Some a | None => find f l2 end.
Proof. induction l1 as [|a l1 IH]; cbn; [reflexivity|]. now destruct (f a). Qed.
Lemma find_rev_nodup n (d : code) : NoDup (map fst d) -> find (fun r => String.eqb (fst r) n) (rev d) = find (fun r => String.eqb (fst r) n) d.
Proof.
  induction d as [|[k v] d IH]; intros H; [reflexivity|]. inversion H; subst. cbn. rewrite find_app, IH by assumption. cbn.
  destruct (String.eqb_spec k n) as [->|]; [|now destruct (find _ d)].
  destruct (find _ d) as [[k' v']|] eqn:E; [|reflexivity]. apply find_some in E. destruct E as [Hi E]. apply String.eqb_eq in E. cbn in E. subst k'.
  destruct H2. apply (in_map fst) in Hi. exact Hi.
Qed.
(* the last routine with this name which has been added *)
Definition last_added (n : string) (rs : list (string * string)) : option string := option_map snd (find (fun r => String.eqb (fst r) n) (rev rs)).
Theorem C82_routines : forall rs n, attribute n (fold_left add_routine rs []) = last_added n rs.
Proof.
  intros rs n. unfold attribute. rewrite find_rev_nodup by apply routines_nodup. unfold last_added.
  enough (H : forall d, option_map snd (find (fun r => String.eqb (fst r) n) (fold_left add_routine rs d)) =
              match option_map snd (find (fun r => String.eqb (fst r) n) (rev rs)) with Some v => Some v | None => option_map snd (find (fun r => String.eqb (fst r) n) d) end).
  { rewrite H. now destruct (option_map _ _). }
  induction rs as [|[k v] rs IH]; intros d; cbn; [reflexivity|]. rewrite IH, find_app. unfold add_routine. rewrite odict_set_in. cbn.
  destruct (find _ (rev rs)); [reflexivity|]. cbn. now destruct (String.eqb k n).
Qed.

(* ---- the directories ---- *)
Lemma at_delete p q l : at_path q (delete p l) = if path_dec p q then None else at_path q l.
Proof.
  unfold at_path, delete. induction l as [|[r f] l IH]; cbn; [now destruct (path_dec p q)|].
  destruct (path_dec r p) as [->|Hr]; cbn.
  - rewrite IH. destruct (path_dec p q); [reflexivity|]. reflexivity.
  - destruct (path_dec r q) as [->|]; [|exact IH]. cbn. destruct (path_dec p q); [congruence|reflexivity].
Qed.
Lemma at_put p q f l : at_path q (put p f l) = if path_dec p q then Some f else at_path q l.
Proof.
  unfold put. change (at_path q ((p, f) :: delete p l)) with (option_map snd (find (fun e => if path_dec (fst e) q then true else false) ((p, f) :: delete p l))).
  cbn. destruct (path_dec p q); [reflexivity|]. fold (at_path q (delete p l)). rewrite at_delete. destruct (path_dec p q); [congruence|reflexivity].
Qed.
Lemma remove_last p l : ~ In p l -> remove_first p (l ++ [p]) = l.
Proof.
  induction l as [|q l IH]; cbn; intros H; [destruct (path_dec p p); [reflexivity|congruence]|].
  destruct (path_dec q p) as [->|]; [tauto|]. rewrite IH; tauto.
Qed.
Definition no_module (o : option folder) : Prop := forall f, o = Some f -> source f = None.
Lemma search_app l ps p : (forall q, In q ps -> q <> p -> no_module (at_path q l)) ->
  search l (ps ++ [p]) = match at_path p l with Some (mkFolder (Some _) _) => Some p | _ => None end.
Proof.
  intros H. unfold search. induction ps as [|q ps IH]; cbn.
  - destruct (at_path p l) as [[[]]|]; reflexivity.
  - destruct (path_dec q p) as [->|Hq].
    + destruct (at_path p l) as [[[]]|] eqn:E; [reflexivity|..]; rewrite IH by (intros; apply H; [now right|assumption]); reflexivity.
    + assert (Hn : no_module (at_path q l)) by (apply H; [now left|exact Hq]).
      destruct (at_path q l) as [[[]]|]; [discriminate (Hn _ eq_refl)|..]; apply IH; intros; apply H; auto; now right.
Qed.
(* the compiled file is no other module for the same second and size *)
Definition fits_cache (f : folder) (c : code) (t : Z) : Prop := forall c' t' n, cache f = Some (c', t', n) -> t' = t -> n = size c -> c' = c.
Lemma load_source f c t : source f = Some (c, t) -> fits_cache f c t ->
  exists f', load f = Some (c, f') /\ source f' = Some (c, t) /\ (cache f' = Some (c, t, size c)).
Proof.
  intros Hs Hc. unfold load. rewrite Hs. destruct (cache f) as [[[c' t'] n]|] eqn:E; [|eexists; repeat split].
  destruct (Z.eqb_spec t' t) as [->|]; [|eexists; repeat split]. destruct (Z.eqb_spec n (size c)) as [->|]; [|eexists; repeat split].
  assert (c' = c) by (apply (Hc _ _ _ E); reflexivity). subst c'. exists f. repeat split; assumption.
Qed.

Definition workdir (filepath : option path) (fresh : path) : path := match filepath with Some p => p | None => fresh end.
(* the directory of the user exists, or its parent *)
Definition available (filepath : option path) (w : world) : Prop :=
  forall p, filepath = Some p -> at_path p (folders w) <> None \/ at_path (parent p) (folders w) <> None.
Lemma directory_spec filepath fresh w : available filepath w -> exists w0, directory filepath fresh w = Some w0 /\ sys_path w0 = sys_path w /\
  (exists f, at_path (workdir filepath fresh) (folders w0) = Some f /\
     match filepath with Some p => f = match at_path p (folders w) with Some g => g | None => empty_folder end | None => f = empty_folder end) /\
  (forall q, q <> workdir filepath fresh -> at_path q (folders w0) = at_path q (folders w)).
Proof.
  intros Ha. destruct filepath as [p|]; cbn.
  - destruct (Ha p eq_refl) as [H|H]; destruct (at_path p (folders w)) as [f|] eqn:E; try congruence.
    + exists w. rewrite E. eauto 10.
    + exists w. rewrite E. eauto 10.
    + destruct (at_path (parent p) (folders w)); [|congruence]. eexists. split; [reflexivity|]. cbn. split; [reflexivity|]. split.
      * exists empty_folder. rewrite at_put. destruct (path_dec p p); [auto|congruence].
      * intros q Hq. rewrite at_put. destruct (path_dec p q); [congruence|reflexivity].
  - eexists. split; [reflexivity|]. cbn. split; [reflexivity|]. split.
    + exists empty_folder. rewrite at_put. destruct (path_dec fresh fresh); [auto|congruence].
    + intros q Hq. rewrite at_put. destruct (path_dec fresh q); [congruence|reflexivity].
Qed.
(* one module: the source of the directory once written *)
Definition new_source (filepath : option path) (now : Z) (generate : bool) (rs : code) (w : world) : option (code * Z) :=
  if generate then Some (rs, now) else match filepath with
    | Some p => match at_path p (folders w) with Some f => source f | None => None end
    | None => None
    end.
Lemma wrap_spec filepath fresh now generate rs w :
  available filepath w ->
  (forall q, In q (sys_path w) -> q <> workdir filepath fresh -> no_module (at_path q (folders w))) ->
  (forall c t, new_source filepath now generate rs w = Some (c, t) -> forall p f, filepath = Some p -> at_path p (folders w) = Some f -> fits_cache f c t) ->
  let r := wrap filepath fresh now generate rs w in
  snd r = option_map fst (new_source filepath now generate rs w) /\
  sys_path (fst r) = remove_first (workdir filepath fresh) (sys_path w ++ [workdir filepath fresh]) /\
  (forall q, q <> workdir filepath fresh -> at_path q (folders (fst r)) = at_path q (folders w)) /\
  match filepath with
  | None => at_path fresh (folders (fst r)) = None
  | Some p => exists f', at_path p (folders (fst r)) = Some f' /\ source f' = new_source filepath now generate rs w /\
      match source f' with
      | Some (c, t) => cache f' = Some (c, t, size c)
      | None => cache f' = match at_path p (folders w) with Some f => cache f | None => None end
      end
  end.
Proof.
  intros Ha Hs Hc r. destruct (directory_spec filepath fresh w Ha) as [w0 [Hd [Hp [[f [Hf Hfe]] Ho]]]].
  set (p := workdir filepath fresh) in *. subst r. unfold wrap. rewrite Hd. fold (workdir filepath fresh). fold p.
  set (fs := if generate then write p rs now (folders w0) else folders w0).
  set (f1 := mkFolder (if generate then Some (rs, now) else source f) (cache f)).
  assert (H1 : at_path p fs = Some f1).
  { subst fs f1. destruct generate; [|rewrite Hf; now destruct f]. unfold write. rewrite at_put, Hf. destruct (path_dec p p); [reflexivity|congruence]. }
  assert (H2 : forall q, q <> p -> at_path q fs = at_path q (folders w)).
  { intros q Hq. rewrite <- (Ho q Hq). subst fs. destruct generate; [|reflexivity]. unfold write. rewrite at_put. destruct (path_dec p q); [congruence|reflexivity]. }
  assert (H3 : source f1 = new_source filepath now generate rs w).
  { subst f1. unfold new_source. cbn. destruct generate; [reflexivity|]. destruct filepath as [p'|]; [subst f|subst f; reflexivity]. now destruct (at_path p' (folders w)). }
  assert (H4 : search fs (sys_path w ++ [p]) = match source f1 with Some _ => Some p | None => None end).
  { rewrite search_app.
    - rewrite H1. destruct f1 as [[]]; reflexivity.
    - intros q Hq Hqp. rewrite (H2 q Hqp). now apply Hs. }
  unfold import_module. cbn [folders sys_path loaded]. rewrite Hp, H4. destruct (source f1) as [[c t]|] eqn:E.
  - rewrite H1. assert (Hfit : fits_cache f1 c t).
    { subst f1. intros c' t' n Hc'. cbn in Hc'. destruct filepath as [p'|].
      - subst f. destruct (at_path p' (folders w)) as [g|] eqn:Eg; [|discriminate]. exact (Hc c t (eq_sym H3) p' g eq_refl Eg c' t' n Hc').
      - subst f. discriminate. }
    destruct (load_source f1 c t E Hfit) as [f' [Hl [Hs' Hc']]]. rewrite Hl, <- H3. cbn [fst snd option_map folders sys_path loaded]. split; [reflexivity|]. split; [reflexivity|]. split.
    + intros q Hq. rewrite <- (H2 q Hq). destruct filepath as [p'|].
      * rewrite at_put. destruct (path_dec p q); [congruence|reflexivity].
      * change fresh with p. rewrite at_delete, at_put. destruct (path_dec p q); [congruence|reflexivity].
    + destruct filepath as [p'|].
      * exists f'. change p' with p at 1. rewrite at_put. destruct (path_dec p p); [|congruence]. rewrite Hs'. auto.
      * rewrite at_delete. destruct (path_dec fresh fresh); [reflexivity|congruence].
  - rewrite <- H3. cbn [fst snd option_map folders sys_path loaded]. split; [reflexivity|]. split; [reflexivity|]. split.
    + intros q Hq. rewrite <- (H2 q Hq). destruct filepath as [p'|]; [reflexivity|].
      change fresh with p. rewrite at_delete. destruct (path_dec p q); [congruence|reflexivity].
    + destruct filepath as [p'|].
      * exists f1. change p' with p at 1. rewrite H1, E. subst f1. cbn. repeat split. subst f. now destruct (at_path p' (folders w)).
      * rewrite at_delete. destruct (path_dec fresh fresh); [reflexivity|congruence].
Qed.

(* A simulation which generates its code gets it, if the directory can be made, if no directory of
   sys.path has another wrapped_module_0, and if the compiled file of an earlier module is not of
   the same second and size. *)
Theorem C82_module : forall filepath fresh now rs w,
  available filepath w ->
  (forall q, In q (sys_path w) -> q <> workdir filepath fresh -> no_module (at_path q (folders w))) ->
  (forall p f, filepath = Some p -> at_path p (folders w) = Some f -> fits_cache f rs now) ->
  snd (wrap filepath fresh now true rs w) = Some rs.
Proof.
  intros filepath fresh now rs w Ha Hs Hc. apply wrap_spec; try assumption. cbn. intros c t [= <- <-]. exact Hc.
Qed.
Lemma import_sys_path w c w' : import_module w = Some (c, w') -> sys_path w' = sys_path w.
Proof.
  unfold import_module. destruct (search _ _) as [p|]; [|discriminate]. destruct (at_path _ _) as [f|]; [|discriminate].
  destruct (load f) as [[c' f']|]; [|discriminate]. now intros [= <- <-].
Qed.
Lemma directory_sys_path filepath fresh w w0 : directory filepath fresh w = Some w0 -> sys_path w0 = sys_path w.
Proof.
  destruct filepath as [p|]; cbn; [|now intros [= <-]].
  destruct (at_path p (folders w)), (at_path (parent p) (folders w)); intros [= <-]; reflexivity.
Qed.
(* sys.path is restored, also after an exception *)
Theorem C82_sys_path : forall filepath fresh now generate rs w, ~ In (workdir filepath fresh) (sys_path w) ->
  sys_path (fst (wrap filepath fresh now generate rs w)) = sys_path w.
Proof.
  intros filepath fresh now generate rs w Hn. unfold wrap. destruct (directory filepath fresh w) as [w0|] eqn:Hd; [|reflexivity].
  apply directory_sys_path in Hd. fold (workdir filepath fresh). cbn [fst sys_path].
  destruct (import_module _) as [[c w']|] eqn:E.
  - apply import_sys_path in E. rewrite E. cbn [sys_path]. rewrite Hd. now apply remove_last.
  - cbn [sys_path]. rewrite Hd. now apply remove_last.
Qed.
(* no trace of the temporary directory *)
Theorem C82_temporary : forall fresh now generate rs w, at_path fresh (folders (fst (wrap None fresh now generate rs w))) = None.
Proof.
  intros fresh now generate rs w. unfold wrap. cbn [directory fst folders]. rewrite at_delete. destruct (path_dec fresh fresh); [reflexivity|congruence].
Qed.

(* os.mkdir (not os.makedirs): a directory whose parent does not exist is not made, the simulation fails and nothing is written *)
Theorem C82_directory : forall p fresh now generate rs w, at_path p (folders w) = None -> at_path (parent p) (folders w) = None ->
  wrap (Some p) fresh now generate rs w = (w, None).
Proof. intros p fresh now generate rs w H1 H2. unfold wrap, directory. now rewrite H1, H2. Qed.
Print Assumptions C82_directory.

(* ---- several simulations ---- files p: the routines of the last simulation which has generated
   its code in p *)
Fixpoint expected (files : path -> option code) (bs : list build) : list (option code) := match bs with
  | [] => []
  | b :: bs' =>
    let rs := fold_left add_routine (b_routines b) [] in
    match b_path b with
    | None => (if b_generate b then Some rs else None) :: expected files bs'
    | Some p => if b_generate b then Some rs :: expected (fun q => if path_dec q p then Some rs else files q) bs'
                else files p :: expected files bs'
    end
  end.
(* the seconds increase *)
Fixpoint later (t : Z) (bs : list build) : Prop := match bs with [] => True | b :: bs' => t < b_now b /\ later (b_now b) bs' end.
Definition file (w : world) (p : path) : option code := match at_path p (folders w) with Some f => option_map fst (source f) | None => None end.
(* the files at the start: made before the second t, the compiled file is that of the source or is
   seen to be an old one *)
Definition settled (t : Z) (f : folder) : Prop :=
  (forall c s, source f = Some (c, s) -> s <= t /\ fits_cache f c s) /\ (forall c s n, cache f = Some (c, s, n) -> s <= t).
Lemma expected_ext bs : forall files files', (forall b p, In b bs -> b_path b = Some p -> files p = files' p) -> expected files bs = expected files' bs.
Proof.
  induction bs as [|b bs IH]; intros files files' H; [reflexivity|]. cbn. destruct (b_path b) as [p|] eqn:E.
  - destruct (b_generate b).
    + f_equal. apply IH. intros b' q Hb Hq. destruct (path_dec q p); [reflexivity|]. now apply (H b'); [right|].
    + f_equal; [apply (H b); [now left|exact E]|]. apply IH. intros b' q Hb Hq. now apply (H b'); [right|].
  - f_equal. apply IH. intros b' q Hb Hq. now apply (H b'); [right|].
Qed.
Theorem C82_simulations : forall bs w t,
  later t bs ->
  (forall p f, at_path p (folders w) = Some f -> settled t f) ->
  (forall q, In q (sys_path w) -> no_module (at_path q (folders w))) ->
  (forall b, In b bs -> ~ In (workdir (b_path b) (b_fresh b)) (sys_path w)) ->
  (forall b p, In b bs -> b_path b = Some p -> at_path p (folders w) <> None) ->
  (forall b b' p, In b bs -> In b' bs -> b_path b' = Some p -> b_fresh b <> p) ->
  snd (compiles bs w) = expected (file w) bs.
Proof.
  induction bs as [|b bs IH]; intros w t Hl Hset Hno Hin Hex Hfr; [reflexivity|]. destruct Hl as [Ht Hl].
  cbn [compiles]. unfold compile. set (rs := fold_left add_routine (b_routines b) []).
  assert (Ha : available (b_path b) w) by (intros p Hp; left; apply (Hex b p); [now left|exact Hp]).
  assert (Hs : forall q, In q (sys_path w) -> q <> workdir (b_path b) (b_fresh b) -> no_module (at_path q (folders w))) by (intros; now apply Hno).
  assert (Hc : forall c s, new_source (b_path b) (b_now b) (b_generate b) rs w = Some (c, s) -> forall p f, b_path b = Some p -> at_path p (folders w) = Some f -> fits_cache f c s).
  { intros c s Hn p f Hp Hf. destruct (Hset p f Hf) as [H1 H2]. unfold new_source in Hn. rewrite Hp, Hf in Hn. destruct (b_generate b).
    - injection Hn as <- <-. intros c' s' n Hcache -> _. specialize (H2 _ _ _ Hcache). lia.
    - now apply (H1 c s). }
  pose proof (wrap_spec _ (b_fresh b) _ _ rs w Ha Hs Hc) as [Hr [Hp [Ho Hw]]]. cbn zeta in Hr, Hp, Ho, Hw.
  destruct (wrap (b_path b) (b_fresh b) (b_now b) (b_generate b) rs w) as [w1 m] eqn:E. cbn [fst snd] in *.
  rewrite remove_last in Hp by (apply Hin; now left).
  assert (IH1 : snd (compiles bs w1) = expected (file w1) bs).
  { apply (IH w1 (b_now b)).
    - exact Hl.
    - intros p f Hf. destruct (path_dec p (workdir (b_path b) (b_fresh b))) as [->|Hne].
      + destruct (b_path b) as [p'|] eqn:Ep; cbn [workdir] in Hf; [|congruence].
        destruct Hw as [f' [Hf' [Hsrc Hca]]]. rewrite Hf in Hf'. injection Hf' as <-.
        destruct (at_path p' (folders w)) as [g|] eqn:Eg; [|now destruct (Hex b p' (or_introl eq_refl) Ep)].
        destruct (Hset p' g Eg) as [H1 H2]. rewrite Hsrc in Hca. split.
        * intros c s Hcs. rewrite Hsrc in Hcs. rewrite Hcs in Hca. split; [|intros c' s' n Hc'; congruence].
          unfold new_source in Hcs. rewrite Eg in Hcs. destruct (b_generate b); [injection Hcs as <- <-; lia|]. destruct (H1 c s Hcs). lia.
        * intros c s n Hc'. destruct (new_source (Some p') (b_now b) (b_generate b) rs w) as [[c0 s0]|] eqn:En.
          -- rewrite Hca in Hc'. injection Hc' as <- <- <-. unfold new_source in En. rewrite Eg in En. destruct (b_generate b); [injection En as <- <-; lia|]. destruct (H1 _ _ En). lia.
          -- rewrite Hca in Hc'. specialize (H2 _ _ _ Hc'). lia.
      + rewrite (Ho p Hne) in Hf. destruct (Hset p f Hf) as [H1 H2]. split.
        * intros c s Hcs. destruct (H1 c s Hcs). split; [lia|assumption].
        * intros c s n Hc'. specialize (H2 _ _ _ Hc'). lia.
    - intros q Hq. rewrite Hp in Hq. rewrite Ho; [now apply Hno|]. intros ->. apply (Hin b); [now left|exact Hq].
    - intros b' Hb'. rewrite Hp. apply Hin. now right.
    - intros b' p Hb' Hbp. destruct (path_dec p (workdir (b_path b) (b_fresh b))) as [->|Hne].
      + destruct (b_path b) as [p'|] eqn:Ep; [destruct Hw as [f' [Hf' _]]; cbn; congruence|].
        cbn in Hbp. now destruct (Hfr b b' (b_fresh b) (or_introl eq_refl) (or_intror Hb') Hbp).
      + rewrite (Ho p Hne). apply (Hex b'); [now right|exact Hbp].
    - intros b1 b2 p H1 H2. apply Hfr; now right. }
  destruct (compiles bs w1) as [w2 ms] eqn:E2. cbn [snd] in IH1 |- *. subst ms m. cbn [expected]. fold rs. unfold new_source.
  destruct (b_path b) as [p|] eqn:Ep.
  - destruct Hw as [f' [Hf' [Hsrc _]]]. unfold new_source in Hsrc. destruct (b_generate b); cbn [option_map fst].
    + f_equal. apply expected_ext. intros b' q _ _. unfold file. destruct (path_dec q p) as [->|Hq]; [rewrite Hf', Hsrc; reflexivity|]. now rewrite (Ho q Hq).
    + f_equal; [unfold file; now destruct (at_path p (folders w))|]. apply expected_ext. intros b' q _ _. unfold file.
      destruct (path_dec q p) as [->|Hq]; [rewrite Hf', Hsrc; now destruct (at_path p (folders w))|]. now rewrite (Ho q Hq).
  - f_equal; [now destruct (b_generate b)|]. apply expected_ext. intros b' q Hb' Hq. unfold file. rewrite Ho; [reflexivity|].
    cbn. intros ->. now destruct (Hfr b b' (b_fresh b) (or_introl eq_refl) (or_intror Hb') Hq).
Qed.

(* ---- examples ---- *)
Definition tmp (s : string) : path := ["tmp"; s].
Definition home : path := ["home"; "code"].
Definition w_start : world := mkWorld [(home, empty_folder); (["lib"], empty_folder); (["tmp"], empty_folder)] [["work"]; ["lib"]] None.
Definition relax (s : string) : list (string * string) := [("one_time_step", "relax " ++ s); ("f2m", "old"); ("f2m", "new")].
Example C82_example : snd (compiles [mkBuild (Some home) (tmp "a") 10 true (relax "1.5"); mkBuild None (tmp "b") 12 true (relax "1.7");
    mkBuild (Some home) (tmp "c") 14 false (relax "1.9"); mkBuild None (tmp "b") 15 false []] w_start) =
    [Some [("one_time_step", "relax 1.5"); ("f2m", "new")]; Some [("one_time_step", "relax 1.7"); ("f2m", "new")];
     Some [("one_time_step", "relax 1.5"); ("f2m", "new")]; None] /\
  snd (wrap (Some ["home"; "new"; "code"]) (tmp "a") 10 true (relax "1.5") w_start) = None.
Proof. split; reflexivity. Qed.
(* the same directory, twice in one second, texts of the same length: the second simulation runs
   the code of the first one *)
Theorem C82_second_refuted : exists b b' w, b_now b = b_now b' /\ b_generate b' = true /\
  snd (compiles [b; b'] w) = [Some (fold_left add_routine (b_routines b) []); Some (fold_left add_routine (b_routines b) [])] /\
  fold_left add_routine (b_routines b') [] <> fold_left add_routine (b_routines b) [].
Proof.
  exists (mkBuild (Some home) (tmp "a") 10 true (relax "1.5")), (mkBuild (Some home) (tmp "b") 10 true (relax "1.7")), w_start. repeat split. discriminate.
Qed.
(* an old module in a directory of sys.path, for example generated there by an earlier simulation *)
Theorem C82_shadow_refuted : exists b b' w, b_now b < b_now b' /\ b_generate b' = true /\
  snd (compiles [b; b'] w) = [Some (fold_left add_routine (b_routines b) []); Some (fold_left add_routine (b_routines b) [])] /\
  fold_left add_routine (b_routines b') [] <> fold_left add_routine (b_routines b) [].
Proof.
  exists (mkBuild (Some ["lib"]) (tmp "a") 10 true (relax "1.5")), (mkBuild None (tmp "b") 20 true (relax "1.75")), w_start. repeat split. discriminate.
Qed.
(* a directory of sys.path goes to the end of the list *)
Theorem C82_order_refuted : exists p now rs w, sys_path (fst (wrap (Some p) [] now true rs w)) <> sys_path w.
Proof. exists ["work"], 10, (relax "1.5"), (mkWorld [(["work"], empty_folder)] [["work"]; ["lib"]] None). discriminate. Qed.

Print Assumptions C82_routines.
Print Assumptions C82_module.
Print Assumptions C82_sys_path.
Print Assumptions C82_temporary.
Print Assumptions C82_simulations.
Print Assumptions C82_second_refuted.
Print Assumptions C82_shadow_refuted.
Print Assumptions C82_order_refuted.
