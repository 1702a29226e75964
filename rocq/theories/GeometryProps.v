(* C48: labels of the geometry. *)
From Verif Require Import PyBase GeometryModel.
From Coq Require Import Sorted.

Lemma uinsert_in x l y : In y (uinsert x l) <-> y = x \/ In y l.
Proof.
  induction l as [|a l IH]; cbn; [intuition|].
  destruct (Z.ltb_spec x a); [cbn; intuition|]. destruct (Z.eqb_spec x a); cbn; [intuition congruence|].
  rewrite IH. intuition.
Qed.
Lemma unique_in l y : In y (unique l) <-> In y l.
Proof. induction l as [|a l IH]; cbn; [tauto|]. rewrite uinsert_in, IH. intuition. Qed.
Lemma uinsert_sorted x l : StronglySorted Z.lt l -> StronglySorted Z.lt (uinsert x l).
Proof.
  induction 1 as [|a l Hs IH HF]; cbn; [repeat constructor|].
  destruct (Z.ltb_spec x a).
  - constructor; [constructor; assumption|]. constructor; [assumption|].
    eapply Forall_impl; [|exact HF]. cbn. lia.
  - destruct (Z.eqb_spec x a); [constructor; assumption|]. constructor; [exact IH|].
    apply Forall_forall. intros y Hy. apply uinsert_in in Hy. rewrite Forall_forall in HF.
    destruct Hy as [->|Hy]; [lia|auto].
Qed.
Lemma unique_sorted l : StronglySorted Z.lt (unique l).
Proof. induction l as [|a l IH]; cbn; [constructor|]. now apply uinsert_sorted. Qed.
Lemma sorted_nodup l : StronglySorted Z.lt l -> NoDup l.
Proof.
  induction 1 as [|a l Hs IH HF]; constructor; [|exact IH].
  intros C. rewrite Forall_forall in HF. specialize (HF a C). lia.
Qed.
Lemma elements_in es : forall acc y,
  In y (fold_left (fun labels e => union1d labels (el_label e)) es acc) <->
  In y acc \/ exists e, In e es /\ In y (el_label e).
Proof.
  induction es as [|e es IH]; intros acc y; cbn; [split; [tauto|intros [H|(e & [] & _)]; exact H]|].
  rewrite IH. unfold union1d. rewrite unique_in, in_app_iff. split.
  - intros [[H|H]|(e' & H & H')]; eauto.
  - intros [H|(e' & [->|H] & H')]; eauto.
Qed.

(* C48: list_of_labels is exactly the set of labels of the sides and elements,
   sorted, without duplicates. *)
Theorem C48_list_of_labels g :
  (forall y, In y (list_of_labels g) <-> In y (g_box_label g) \/ exists e, In e (g_elems g) /\ In y (el_label e)) /\
  NoDup (list_of_labels g) /\ StronglySorted Z.lt (list_of_labels g).
Proof.
  assert (HS : StronglySorted Z.lt (list_of_labels g)) by apply unique_sorted.
  split; [|split; [now apply sorted_nodup|exact HS]].
  intros y. unfold list_of_labels, union1d at 1. rewrite unique_in, in_app_iff, unique_in.
  unfold list_of_elements_labels. rewrite elements_in. cbn. intuition.
Qed.

(* C48: one label per side, for an integer or a list of the right size; the
   dimension and the bounds are those given. *)
Theorem C48_box_labels (I : Type) (b : box I) l es g :
  (forall ls dim bounds, l = LList ls -> get_box b = Some (dim, bounds) -> length ls = 2 * dim) ->
  geometry_init b l es = Some g ->
  length (g_box_label g) = 2 * g_dim g /\
  (forall z i, l = LInt z -> i < 2 * g_dim g -> nth_error (g_box_label g) i = Some z) /\
  (forall ls, l = LList ls -> g_box_label g = ls) /\
  g_elems g = es /\ (forall e, In e es -> el_dim e = g_dim g).
Proof.
  intros Hl. unfold geometry_init. destruct (get_box b) as [[dim bounds]|] eqn:E; [|discriminate].
  destruct (all_dim dim es) eqn:Ed; [|discriminate]. intros H. injection H as <-. cbn [g_dim g_box_label g_elems].
  split; [destruct l as [z|ls]; cbn [box_label]; [apply repeat_length|eapply Hl; eauto]|].
  split; [intros z i -> Hi; cbn [box_label]|].
  { destruct (nth_error (repeat z (2 * dim)) i) eqn:En; [|apply nth_error_None in En; rewrite repeat_length in En; lia].
    apply nth_error_In, repeat_spec in En. now rewrite En. }
  split; [intros ls ->; reflexivity|]. split; [reflexivity|].
  clear -Ed. induction es as [|e es IH]; cbn in *; [tauto|].
  apply andb_prop in Ed. destruct Ed as [E1 E2]. apply Nat.eqb_eq in E1.
  intros e' [<-|H]; auto.
Qed.

(* C48: the number of bounds is the dimension, x, y, z in this order. *)
Theorem C48_get_box (I : Type) (b : box I) dim bounds : get_box b = Some (dim, bounds) ->
  length bounds = dim /\ 1 <= dim <= 3 /\
  forall d, d < dim -> nth_error bounds d = match d with 0 => b_x b | 1 => b_y b | _ => b_z b end.
Proof.
  unfold get_box. destruct (b_x b) as [x|] eqn:Ex; [|discriminate].
  destruct (b_y b) as [y|] eqn:Ey; [destruct (b_z b) as [z|] eqn:Ez|]; intros H; injection H as <- <-;
    (split; [reflexivity|]; split; [lia|]; intros [|[|[|d]]] Hd; try lia; cbn; congruence).
Qed.
(* The interval z is dropped silently when y is missing. *)
Theorem C48_z_without_y_refuted : exists (b : box Z) bounds, b_z b <> None /\ get_box b = Some (1, bounds).
Proof. exists (mkBox (Some 0%Z) None (Some 1%Z)), [0%Z]. split; [discriminate|reflexivity]. Qed.
(* An integer given as the label of an element is the label of all its bounds and of nothing else; a list is kept. *)
Theorem C48_element_labels : forall n,
  (forall z, length (elem_label n (LInt z)) = n /\ (forall k, k < n -> nth_error (elem_label n (LInt z)) k = Some z)) /\
  forall l, elem_label n (LList l) = l.
Proof.
  intros n. split; [|reflexivity]. intros z. cbn [elem_label]. split; [apply repeat_length|]. intros k Hk.
  rewrite (nth_error_nth' _ z) by (now rewrite repeat_length). f_equal. apply nth_repeat.
Qed.
Print Assumptions C48_element_labels.
(* A list of the wrong size is accepted, for the box and for the elements. *)
Theorem C48_wrong_size_refuted : exists (b : box Z) l es g, geometry_init b l es = Some g /\
  length (g_box_label g) <> 2 * g_dim g /\ exists n, length (elem_label n l) <> n.
Proof.
  exists (mkBox (Some 0%Z) (Some 0%Z) None), (LList [1; 2; 3]%Z), [], (mkGeom 2 [1; 2; 3]%Z []).
  split; [reflexivity|]. split; [cbn; lia|]. exists 1. cbn. lia.
Qed.

(* Adding elements one by one, of the dimension of the geometry, is the same as
   giving them after the others; the order is kept. *)
Theorem C48_add_elem (I : Type) (b : box I) l es es' g : geometry_init b l es = Some g ->
  (forall e, In e es' -> el_dim e = g_dim g) ->
  geometry_init b l (es ++ es') = Some (fold_left add_elem es' g) /\
  forall k e, nth_error es' k = Some e -> nth_error (g_elems (fold_left add_elem es' g)) (length es + k) = Some e.
Proof.
  intros E H. assert (X : geometry_init b l (es ++ es') = Some (fold_left add_elem es' g)).
  { revert es g E H. induction es' as [|e es' IH]; intros es g E H; [now rewrite app_nil_r|].
    cbn [fold_left]. change (e :: es') with ([e] ++ es'). rewrite app_assoc.
    assert (A : forall dim l1, all_dim dim (l1 ++ [e]) = all_dim dim l1 && Nat.eqb (el_dim e) dim).
    { intros dim l1. induction l1 as [|e1 l1 IH1]; cbn [app all_dim]; [now rewrite andb_true_r|]. now rewrite IH1, andb_assoc. }
    apply IH; [|intros e1 H1; apply H; now right].
    unfold geometry_init in *. destruct (get_box b) as [[dim bs]|]; [|discriminate]. rewrite A.
    destruct (all_dim dim es); [|discriminate]. injection E as <-. rewrite (H e (or_introl eq_refl)). cbn. now rewrite Nat.eqb_refl. }
  split; [exact X|]. intros k e Hk. unfold geometry_init in X. destruct (get_box b) as [[dim bs]|]; [|discriminate].
  destruct (all_dim dim (es ++ es')); [|discriminate]. injection X as <-. cbn [g_elems].
  rewrite nth_error_app2 by lia. rewrite Nat.add_comm, Nat.add_sub. exact Hk.
Qed.
(* An element of another dimension is refused by the constructor but not by add_elem. *)
Theorem C48_add_dim_refuted : exists (b : box Z) l g e, geometry_init b l [] = Some g /\
  geometry_init b l [e] = None /\ In e (g_elems (add_elem g e)) /\ el_dim e <> g_dim (add_elem g e).
Proof.
  exists (mkBox (Some 0%Z) None None), (LInt 0), (mkGeom 1 [0; 0]%Z []), (mkElem 2 [5]%Z).
  split; [reflexivity|]. split; [reflexivity|]. split; [now left|]. cbn. lia.
Qed.
Example C48_add_ex : option_map (fun g => g_elems (add_elem (add_elem g (mkElem 1 [4]%Z)) (mkElem 1 [2]%Z)))
    (geometry_init (mkBox (Some 0%Z) None None) (LInt 0) [mkElem 1 [9]%Z])
  = Some [mkElem 1 [9]%Z; mkElem 1 [4]%Z; mkElem 1 [2]%Z].
Proof. reflexivity. Qed.
Print Assumptions C48_add_elem.
Print Assumptions C48_add_dim_refuted.

Example C48_ex : option_map list_of_labels
    (geometry_init (mkBox (Some 0%Z) (Some 1%Z) None) (LList [0; 3; -1; 3]%Z)
       [mkElem 2 (elem_label 1 (LInt 5)); mkElem 2 (elem_label 4 (LList [3; 7; 2; 7]%Z))])
  = Some [-1; 0; 2; 3; 5; 7]%Z.
Proof. reflexivity. Qed.

Print Assumptions C48_list_of_labels.
Print Assumptions C48_box_labels.
Print Assumptions C48_get_box.
Print Assumptions C48_z_without_y_refuted.
Print Assumptions C48_wrong_size_refuted.
