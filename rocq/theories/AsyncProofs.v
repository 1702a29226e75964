(* The invariant of the processes which run at their own pace. *)
From Verif Require Import PyBase VelocityModel GridModel GridProofs StorageModel StencilProofs ExchangeProofs AsyncModel.
From Coq Require Import ZifyBool.
Open Scope Z_scope.
Arguments proc_dec : simpl never.

Section Proofs.
Context {V M : Type}.
Variable axes : list axis.
Hypothesis Hdim : (length axes <= 3)%nat.
Hypothesis Haxes : Forall ax_ok axes.
Notation arr := (arr (V := V)). Notation memory := (memory (V := V) (M := M)). Notation item := (item (V := V) (M := M)).
Notation ok := (coords_ok axes). Notation ax := (ax axes). Notation n := (length axes).
(* the equalities of the private memories and of the contents of a cell *)
Variable eqM : M -> M -> Prop.
Hypothesis eqM_refl : forall m, eqM m m.
Variable eqV : V -> V -> Prop.
Hypothesis eqV_refl : forall v, eqV v v.
Hypothesis eqV_trans : forall u v w, eqV u v -> eqV v w -> eqV u w.
Definition eqA (a b : arr) : Prop := forall i, length i = n -> eqV (a i) (b i).
Definition eqmem (x y : memory) : Prop := eqM (fst x) (fst y) /\ eqA (snd x) (snd y).
(* the exchanges are along the axes; the computations depend on the values of the memory *)
Definition item_ok (it : item) : Prop := match it with
  | Exch d => (d < n)%nat
  | Loc g => forall c x y, eqmem x y -> eqmem (g c x) (g c y)
  end.
Variable prog : list item.
Hypothesis Hprog : Forall item_ok prog.
Variable S0 : proc -> memory.
(* after k items of the program *)
Definition after (k : nat) : proc -> memory := sync axes (firstn k prog) S0.
Lemma after_S k it : nth_error prog k = Some it -> after (S k) = sync_item axes (after k) it.
Proof.
  clear. intros H. unfold after, sync. replace (firstn (S k) prog) with (firstn k prog ++ [it]).
  - now rewrite fold_left_app.
  - revert k H. induction prog as [|a l IH]; intros [|k] H; cbn in *; try discriminate; [now injection H as ->|]. f_equal. now apply IH.
Qed.

(* ---- the messages ---- *)
Lemma ax_good d : (d < n)%nat -> ax_ok (ax d).
Proof. intros H. rewrite Forall_forall in Haxes. apply Haxes, nth_In, H. Qed.
Lemma ok_length c : ok c -> length c = n.
Proof. clear. intros H. symmetry. eapply Forall2_length, H. Qed.
Lemma ok_at c d : ok c -> (d < n)%nat -> (nth d c 0 < ax_p (ax d))%nat.
Proof. clear. intros H Hd. apply (Forall2_nth _ _ _ dax 0%nat H d Hd). Qed.
Lemma ok_upd c d x : ok c -> (d < n)%nat -> (x < ax_p (ax d))%nat -> ok (upd c d x).
Proof.
  clear. intros H Hd Hx. apply Forall2_of_nth with (a := dax) (b := 0%nat).
  - rewrite upd_length. symmetry. now apply ok_length.
  - intros k Hk. rewrite nth_upd by (rewrite (ok_length c H); lia). destruct (Nat.eqb_spec k d) as [->|]; [exact Hx|now apply ok_at].
Qed.
Lemma upd_upd {A} (l : list A) d x y : upd (upd l d x) d y = upd l d y.
Proof. clear. revert d. induction l as [|a l IH]; intros [|d]; cbn; auto. now rewrite IH. Qed.
Lemma upd_same {A} (l : list A) d z : (d < length l)%nat -> upd l d (nth d l z) = l.
Proof. clear. revert d. induction l as [|a l IH]; intros [|d] H; cbn in *; auto; try lia. rewrite IH; [reflexivity|lia]. Qed.
(* the low send of a process meets the high receive of its neighbour, and conversely *)
Definition side (j : nat) : Prop := (j < 2)%nat.
Definition other (j : nat) : nat := (1 - j)%nat.
Lemma other_side j : side j -> side (other j) /\ other (other j) = j.
Proof. clear. unfold side, other. lia. Qed.
Lemma meets d c j : (d < n)%nat -> ok c -> side j ->
  let r := recv_msg axes d c j in let p := peer d c r in let s := send_msg axes d p (other j) in
  ok p /\ peer d p s = c /\ m_tag s = m_tag r.
Proof.
  intros Hd Hc Hj r p s. assert (d < 3)%nat as Hd3 by lia. destruct (tags d Hd3) as [T1 [T2 _]].
  pose proof (ok_at c d Hc Hd) as Hcd. pose proof (ok_length c Hc) as Hl.
  destruct (nbr_low_high (ax d) (nth d c 0%nat) Hcd) as [L1 L2]. destruct (nbr_high_low (ax d) (nth d c 0%nat) Hcd) as [H1 H2].
  unfold side in Hj. assert (j = 0 \/ j = 1)%nat as [-> | ->] by lia; subst r p s; unfold peer, recv_msg, send_msg, other; cbn [recvs sends nth Nat.sub m_peer m_tag];
    (split; [now apply ok_upd|]); rewrite nth_upd by (rewrite Hl; exact Hd); rewrite Nat.eqb_refl.
  - rewrite L1, upd_upd, upd_same by (rewrite Hl; exact Hd). split; [reflexivity|exact T2].
  - rewrite H1, upd_upd, upd_same by (rewrite Hl; exact Hd). split; [reflexivity|exact T1].
Qed.
Lemma meets' d c j : (d < n)%nat -> ok c -> side j ->
  let s := send_msg axes d c j in let p := peer d c s in let r := recv_msg axes d p (other j) in
  ok p /\ peer d p r = c /\ m_tag s = m_tag r.
Proof.
  intros Hd Hc Hj s p r. assert (d < 3)%nat as Hd3 by lia. destruct (tags d Hd3) as [T1 [T2 _]].
  pose proof (ok_at c d Hc Hd) as Hcd. pose proof (ok_length c Hc) as Hl.
  destruct (nbr_low_high (ax d) (nth d c 0%nat) Hcd) as [L1 L2]. destruct (nbr_high_low (ax d) (nth d c 0%nat) Hcd) as [H1 H2].
  unfold side in Hj. assert (j = 0 \/ j = 1)%nat as [-> | ->] by lia; subst r p s; unfold peer, recv_msg, send_msg, other; cbn [recvs sends nth Nat.sub m_peer m_tag];
    (split; [now apply ok_upd|]); rewrite nth_upd by (rewrite Hl; exact Hd); rewrite Nat.eqb_refl.
  - rewrite L1, upd_upd, upd_same by (rewrite Hl; exact Hd). split; [reflexivity|exact T1].
  - rewrite H1, upd_upd, upd_same by (rewrite Hl; exact Hd). split; [reflexivity|exact T2].
Qed.
Lemma tag_inj d d' c c' j j' : (d < n)%nat -> (d' < n)%nat -> side j -> side j' ->
  m_tag (send_msg axes d c j) = m_tag (send_msg axes d' c' j') -> d = d' /\ j = j'.
Proof.
  intros Hd Hd' Hj Hj'. assert (d < 3 /\ d' < 3)%nat as [H1 H2] by lia. unfold side in *. unfold send_msg.
  assert (Ej : (j = 0 \/ j = 1)%nat) by lia. assert (Ej' : (j' = 0 \/ j' = 1)%nat) by lia.
  assert (Ed : (d = 0 \/ d = 1 \/ d = 2)%nat) by lia. assert (Ed' : (d' = 0 \/ d' = 1 \/ d' = 2)%nat) by lia.
  clear - Ej Ej' Ed Ed'.
  destruct Ej as [-> | ->], Ej' as [-> | ->], Ed as [-> | [-> | ->]], Ed' as [-> | [-> | ->]]; cbn; intros E; try discriminate; auto.
Qed.
(* the cells which are sent are not those which are received *)
Lemma slabs_apart d c j j' x : (d < n)%nat -> ok c -> side j -> side j' ->
  m_start (send_msg axes d c j) <= x < m_start (send_msg axes d c j) + ax_h (ax d) ->
  ~ (m_start (recv_msg axes d c j') <= x < m_start (recv_msg axes d c j') + ax_h (ax d)).
Proof.
  intros Hd Hc Hj Hj'. destruct (ax_good d Hd) as (_ & _ & Hh & Hr). specialize (Hr _ (ok_at c d Hc Hd)).
  unfold send_msg, recv_msg, side in *. assert (Ej : (j = 0 \/ j = 1)%nat) by lia. assert (Ej' : (j' = 0 \/ j' = 1)%nat) by lia.
  clear - Ej Ej' Hh Hr. destruct Ej as [-> | ->], Ej' as [-> | ->]; cbn [sends recvs nth m_start]; unfold ax_size; lia.
Qed.
Lemma slabs_apart' d c i : (d < n)%nat -> ok c -> in_slab axes d (recv_msg axes d c 0) i = true -> in_slab axes d (recv_msg axes d c 1) i = true -> False.
Proof.
  intros Hd Hc. destruct (ax_good d Hd) as (_ & _ & Hh & Hr). specialize (Hr _ (ok_at c d Hc Hd)).
  unfold recv_msg, in_slab. clear - Hh Hr. cbn [recvs nth m_start]. unfold ax_size. lia.
Qed.
(* what the exchange gives in a slab, and elsewhere *)
Lemma exchange_slab d (A : proc -> arr) c j i : (d < n)%nat -> ok c -> side j -> in_slab axes d (recv_msg axes d c j) i = true ->
  let r := recv_msg axes d c j in let p := peer d c r in
  exchange axes d A c i = A p (upd i d (m_start (send_msg axes d p (other j)) + (nth d i 0 - m_start r))).
Proof.
  intros Hd Hc Hj Hs r p. assert (d < 3)%nat as Hd3 by lia. destruct (tags d Hd3) as [T1 [T2 T3]].
  pose proof (ok_at c d Hc Hd) as Hcd. pose proof (ok_length c Hc) as Hl.
  destruct (nbr_low_high (ax d) (nth d c 0%nat) Hcd) as [L1 L2]. destruct (nbr_high_low (ax d) (nth d c 0%nat) Hcd) as [H1 H2].
  unfold exchange. fold (ax d).
  assert (Er : recv_of d (ax d) (nth d c 0%nat) (nth d i 0) = Some r).
  { unfold side in Hj. assert (Ej : (j = 0 \/ j = 1)%nat) by lia. unfold recv_of. cbn [recvs find].
    destruct Ej as [-> | ->].
    - unfold in_slab in Hs. subst r. unfold recv_msg in *. cbn [recvs nth] in *. now rewrite Hs.
    - destruct (in_slab axes d (recv_msg axes d c 0) i) eqn:E0; [now destruct (slabs_apart' d c i Hd Hc E0 Hs)|].
      unfold in_slab in Hs, E0. subst r. unfold recv_msg in *. cbn [recvs nth] in *. now rewrite E0, Hs. }
  rewrite Er. unfold match_send.
  assert (Es : find (fun s => (m_peer s =? nth d c 0)%nat && (m_tag s =? m_tag r)) (sends d (ax d) (m_peer r)) = Some (send_msg axes d p (other j))).
  { unfold side in Hj. assert (Ej : (j = 0 \/ j = 1)%nat) by lia. subst p. unfold send_msg, peer. rewrite nth_upd by (rewrite Hl; exact Hd). rewrite Nat.eqb_refl.
    destruct Ej as [-> | ->]; subst r; unfold recv_msg, other; cbn [recvs sends nth find m_peer m_tag Nat.sub].
    - rewrite L1, Nat.eqb_refl. destruct (Z.eqb_spec (send_tag (2 * d)) (recv_tag (2 * d))) as [E|E]; [congruence|]. rewrite andb_false_r.
      destruct (Z.eqb_spec (send_tag (2 * d + 1)) (recv_tag (2 * d))); [reflexivity|congruence].
    - rewrite H1, Nat.eqb_refl. destruct (Z.eqb_spec (send_tag (2 * d)) (recv_tag (2 * d + 1))); [reflexivity|congruence]. }
  rewrite Es. reflexivity.
Qed.
Lemma exchange_else d (A : proc -> arr) c i : in_slab axes d (recv_msg axes d c 0) i = false -> in_slab axes d (recv_msg axes d c 1) i = false ->
  exchange axes d A c i = A c i.
Proof.
  clear. unfold in_slab, recv_msg, exchange, recv_of. fold (ax d). cbn [recvs nth find]. intros -> ->. reflexivity.
Qed.

(* ---- the positions of the exchanges along an axis ---- *)
Definition is_exch (d k : nat) : bool := match nth_error prog k with Some (Exch d') => (d' =? d)%nat | _ => false end.
Definition rounds (d m : nat) : list nat := filter (is_exch d) (seq 0 m).
Lemma rounds_S d m : rounds d (S m) = rounds d m ++ (if is_exch d m then [m] else []).
Proof. clear. unfold rounds. now rewrite seq_S, filter_app. Qed.
Lemma rounds_app d k m : (k <= m)%nat -> rounds d m = rounds d k ++ filter (is_exch d) (seq k (m - k)).
Proof. clear. intros H. unfold rounds. rewrite <- filter_app. f_equal. rewrite <- seq_app. f_equal. lia. Qed.
Lemma rounds_next d k m ks : is_exch d k = true -> rounds d k ++ ks = rounds d m -> (k < m)%nat /\ (exists ks', ks = k :: ks') \/ (ks = [] /\ (m <= k)%nat).
Proof.
  clear. intros Hk E. destruct (Nat.lt_ge_cases k m) as [Hm|Hm].
  - left. split; [exact Hm|]. rewrite (rounds_app d k m) in E by lia. apply app_inv_head in E. replace (m - k)%nat with (S (m - S k)) in E by lia. cbn in E. rewrite Hk in E. eauto.
  - right. split; [|exact Hm]. rewrite (rounds_app d m k) in E by lia. rewrite <- app_assoc in E. rewrite <- (app_nil_r (rounds d m)) in E at 2. apply app_inv_head in E.
    apply app_eq_nil in E. tauto.
Qed.

(* ---- the invariant ---- *)
Definition sp (st : astate (V := V) (M := M)) (c : proc) (j : nat) : nat := (pc st c + if sent st c j then 1 else 0)%nat.
Definition rp (st : astate (V := V) (M := M)) (c : proc) (j : nat) : nat := (pc st c + if got st c j then 1 else 0)%nat.
(* the array of a process: the values of the exchange in the slabs which are received *)
Definition partial (st : astate (V := V) (M := M)) (c : proc) (i : list Z) : V :=
  match nth_error prog (pc st c) with
  | Some (Exch d) =>
    if (got st c 0%nat && in_slab axes d (recv_msg axes d c 0) i) || (got st c 1%nat && in_slab axes d (recv_msg axes d c 1) i)
    then snd (after (S (pc st c)) c) i else snd (after (pc st c) c) i
  | _ => snd (after (pc st c) c) i
  end.
(* a message is the slab of the array before the exchange k *)
Definition carries (d : nat) (src : proc) (s : msg) (k : nat) (q : arr) : Prop :=
  forall i, length i = n -> 0 <= nth d i 0 < ax_h (ax d) -> eqV (q i) (snd (after k src) (upd i d (m_start s + nth d i 0))).
Record inv (st : astate (V := V) (M := M)) : Prop := {
  inv_pc : forall c, (pc st c <= length prog)%nat;
  inv_rest : forall c, ok c -> eqM (fst (mem st c)) (fst (after (pc st c) c));
  inv_arr : forall c i, ok c -> length i = n -> eqV (snd (mem st c) i) (partial st c i);
  inv_idle : forall c, (forall d, nth_error prog (pc st c) <> Some (Exch d)) -> forall j, sent st c j = false /\ got st c j = false;
  inv_chan : forall d src j, (d < n)%nat -> ok src -> side j ->
    let s := send_msg axes d src j in let dst := peer d src s in
    exists ks, rounds d (rp st dst (other j)) ++ ks = rounds d (sp st src j) /\ Forall2 (carries d src s) ks (chan st src dst (m_tag s)) }.
Lemma inv_start : inv (start S0).
Proof.
  split; cbn.
  - intros; lia.
  - intros c _. apply eqM_refl.
  - intros c i _ _. unfold partial. cbn -[nth_error]. destruct (nth_error prog 0) as [[]|]; apply eqV_refl.
  - intros. split; reflexivity.
  - intros d src j _ _ _. exists []. split; [reflexivity|constructor].
Qed.

(* ---- the events keep the invariant ---- *)
Lemma at_same {A} (f : proc -> A) c x : at_proc f c x c = x.
Proof. clear. unfold at_proc. destruct (proc_dec c c); congruence. Qed.
Lemma at_other {A} (f : proc -> A) c c' x : c' <> c -> at_proc f c x c' = f c'.
Proof. clear. unfold at_proc. destruct (proc_dec c' c); congruence. Qed.
Lemma chan_same (f : proc -> proc -> Z -> list arr) s c t l : set_chan f s c t l s c t = l.
Proof. clear. unfold set_chan. destruct (proc_dec s s); [|congruence]. destruct (proc_dec c c); [|congruence]. now rewrite Z.eqb_refl. Qed.
Lemma chan_other (f : proc -> proc -> Z -> list arr) s c t l s' c' t' : (s' <> s \/ c' <> c \/ t' <> t) -> set_chan f s c t l s' c' t' = f s' c' t'.
Proof.
  clear. unfold set_chan. intros H. destruct (proc_dec s' s); [|reflexivity]. destruct (proc_dec c' c); [|reflexivity].
  destruct (Z.eqb_spec t' t); [|reflexivity]. tauto.
Qed.
Lemma flag_same f j : set_flag f j j = true.
Proof. clear. unfold set_flag. now rewrite Nat.eqb_refl. Qed.
Lemma flag_other f j j' : j' <> j -> set_flag f j j' = f j'.
Proof. clear. unfold set_flag. intros H. destruct (Nat.eqb_spec j' j); [congruence|reflexivity]. Qed.
Lemma exch_at k d : nth_error prog k = Some (Exch d) -> (d < n)%nat.
Proof. intros H. rewrite Forall_forall in Hprog. apply nth_error_In in H. exact (Hprog _ H). Qed.
Lemma is_exch_at k d d' : nth_error prog k = Some (Exch d) -> is_exch d' k = (d =? d')%nat.
Proof. clear. unfold is_exch. now intros ->. Qed.
Lemma pc_lt (st : astate (V := V) (M := M)) c it : nth_error prog (pc st c) = Some it -> (pc st c < length prog)%nat.
Proof. clear. intros H. apply nth_error_Some. congruence. Qed.

Lemma send_inv st c d j : inv st -> ok c -> side j -> nth_error prog (pc st c) = Some (Exch d) -> sent st c j = false ->
  let s := send_msg axes d c j in let p := peer d c s in
  inv (mkA (mem st) (pc st) (at_proc (sent st) c (set_flag (sent st c) j)) (got st)
           (set_chan (chan st) c p (m_tag s) (chan st c p (m_tag s) ++ [slab d s (snd (mem st c))]))).
Proof.
  intros [Ipc Ir Ia Ii Ic] Hc Hj Hp Hf s p. pose proof (exch_at _ _ Hp) as Hd. split; cbn [mem pc sent got chan].
  - exact Ipc.
  - exact Ir.
  - exact Ia.
  - intros c' Hn j'. destruct (proc_dec c' c) as [->|Hne]; [now destruct (Hn d)|]. rewrite at_other by exact Hne. now apply Ii.
  - intros d' src j' Hd' Hsrc Hj'. destruct (Ic d' src j' Hd' Hsrc Hj') as [ks [E F]]. cbn zeta in E, F |- *.
    unfold rp, sp in *. cbn [pc sent got] in *.
    destruct (proc_dec src c) as [->|Hne].
    + rewrite at_same. destruct (Nat.eq_dec j' j) as [->|Hjj].
      * rewrite flag_same. rewrite Hf in E. rewrite Nat.add_0_r in E. rewrite Nat.add_1_r, rounds_S, (is_exch_at _ _ _ Hp).
        destruct (Nat.eqb_spec d d') as [<-|Hdd].
        -- exists (ks ++ [pc st c]). split; [now rewrite <- E, app_assoc|]. fold s in F |- *. fold p in F |- *. rewrite chan_same. apply Forall2_app; [exact F|]. constructor; [|constructor].
           intros i Hi Hx. unfold slab. assert (Hl : length (upd i d (m_start s + nth d i 0)) = n) by (rewrite upd_length; exact Hi).
           eapply eqV_trans; [apply Ia; assumption|]. unfold partial. rewrite Hp.
           assert (Ho : forall j'', side j'' -> in_slab axes d (recv_msg axes d c j'') (upd i d (m_start s + nth d i 0)) = false).
           { intros j'' Hj''. unfold in_slab. rewrite nth_upd by (rewrite Hi; exact Hd). rewrite Nat.eqb_refl.
             pose proof (slabs_apart d c j j'' (m_start s + nth d i 0) Hd Hc Hj Hj'') as Hap. fold s in Hap. clear - Hap Hx. lia. }
           rewrite (Ho 0%nat), (Ho 1%nat) by (unfold side; lia). rewrite !andb_false_r. apply eqV_refl.
        -- exists ks. rewrite app_nil_r. split; [exact E|]. rewrite chan_other; [exact F|]. right; right. intros Et.
           destruct (tag_inj d' d c c j j Hd' Hd Hj Hj Et) as [E1 _]. congruence.
      * exists ks. rewrite flag_other by exact Hjj. split; [exact E|]. rewrite chan_other; [exact F|]. right; right. intros Et.
        destruct (tag_inj d' d c c j' j Hd' Hd Hj' Hj Et). congruence.
    + exists ks. rewrite at_other by exact Hne. split; [exact E|]. rewrite chan_other; [exact F|]. now left.
Qed.
(* the process at the other end of a channel, from its name *)
Lemma source_unique d src j : (d < n)%nat -> ok src -> side j -> let s := send_msg axes d src j in let c := peer d src s in
  src = peer d c (recv_msg axes d c (other j)).
Proof. intros Hd Hs Hj s c. destruct (meets' d src j Hd Hs Hj) as [_ [H _]]. symmetry. exact H. Qed.

Lemma recv_inv st c d j q l : inv st -> ok c -> side j -> nth_error prog (pc st c) = Some (Exch d) -> got st c j = false ->
  let r := recv_msg axes d c j in let p := peer d c r in
  chan st p c (m_tag r) = q :: l ->
  inv (mkA (at_proc (mem st) c (fst (mem st c), write_slab axes d r q (snd (mem st c)))) (pc st) (sent st)
           (at_proc (got st) c (set_flag (got st c) j)) (set_chan (chan st) p c (m_tag r) l)).
Proof.
  intros [Ipc Ir Ia Ii Ic] Hc Hj Hp Hf r p Hq. pose proof (exch_at _ _ Hp) as Hd.
  destruct (meets d c j Hd Hc Hj) as [Hpok [Hpc Htag]]. fold r in Hpok, Hpc, Htag. fold p in Hpok, Hpc, Htag.
  destruct (other_side j Hj) as [Hoj Hoo].
  (* the message is the one of this exchange *)
  destruct (Ic d p (other j) Hd Hpok Hoj) as [ks [E F]]. rewrite Hoo, Hpc, Htag, Hq in *.
  assert (Hx : is_exch d (pc st c) = true) by (rewrite (is_exch_at _ _ _ Hp); apply Nat.eqb_refl).
  unfold rp at 1 in E. rewrite Hf, Nat.add_0_r in E.
  assert (Hks : exists ks', ks = pc st c :: ks').
  { destruct (rounds_next _ _ _ _ Hx E) as [[_ H]|[-> _]]; [exact H|]. inversion F. }
  destruct Hks as [ks' ->]. assert (Hcar : carries d p (send_msg axes d p (other j)) (pc st c) q) by (now inversion F).
  assert (F' : Forall2 (carries d p (send_msg axes d p (other j))) ks' l) by (now inversion F).
  split; cbn [mem pc sent got chan].
  - exact Ipc.
  - intros c' Hc'. destruct (proc_dec c' c) as [->|Hne]; [rewrite at_same; now apply Ir|]. rewrite at_other by exact Hne. now apply Ir.
  - intros c' i Hc' Hi. destruct (proc_dec c' c) as [->|Hne].
    + rewrite at_same. cbn [snd]. unfold partial. cbn [pc got]. rewrite Hp, at_same. unfold write_slab.
      assert (Hold := Ia c i Hc Hi). unfold partial in Hold. rewrite Hp in Hold.
      destruct (in_slab axes d r i) eqn:Es.
      * assert (Hnew : eqV (q (upd i d (nth d i 0 - m_start r))) (snd (after (S (pc st c)) c) i)).
        { rewrite (after_S _ _ Hp). cbn [sync_item snd]. rewrite (exchange_slab d _ c j i Hd Hc Hj Es). fold r. fold p.
          eapply eqV_trans; [apply Hcar|].
          - now rewrite upd_length.
          - rewrite nth_upd by (rewrite Hi; exact Hd). rewrite Nat.eqb_refl. unfold in_slab in Es. clear - Es. lia.
          - rewrite nth_upd by (rewrite Hi; exact Hd). rewrite Nat.eqb_refl, upd_upd. apply eqV_refl. }
        eapply eqV_trans; [exact Hnew|]. unfold side in Hj. assert (Ej : (j = 0 \/ j = 1)%nat) by lia.
        destruct Ej as [-> | ->]; unfold r in Es; rewrite Es, flag_same; cbn [andb orb]; [apply eqV_refl|]. rewrite orb_true_r. apply eqV_refl.
      * eapply eqV_trans; [exact Hold|]. unfold side in Hj. assert (Ej : (j = 0 \/ j = 1)%nat) by lia.
        destruct Ej as [-> | ->]; unfold r in Es; rewrite Es, !andb_false_r, flag_other by discriminate; apply eqV_refl.
    + rewrite at_other by exact Hne. eapply eqV_trans; [apply (Ia c' i Hc' Hi)|]. unfold partial. cbn [pc got]. rewrite at_other by exact Hne. apply eqV_refl.
  - intros c' Hn j'. destruct (proc_dec c' c) as [->|Hne]; [now destruct (Hn d)|]. rewrite at_other by exact Hne. now apply Ii.
  - intros d' src j' Hd' Hsrc Hj'. cbn zeta. set (s' := send_msg axes d' src j'). set (dst := peer d' src s').
    unfold rp, sp in *. cbn [pc sent got] in *.
    destruct (Ic d' src j' Hd' Hsrc Hj') as [kk [EE FF]]. cbn zeta in EE, FF. fold s' in EE, FF. fold dst in EE, FF.
    destruct (proc_dec dst c) as [Hdc|Hne].
    + rewrite Hdc in *. rewrite at_same. destruct (Nat.eq_dec (other j') j) as [Hjj|Hjj].
      * rewrite Hjj, flag_same, Nat.add_1_r, rounds_S, (is_exch_at _ _ _ Hp). destruct (Nat.eqb_spec d d') as [<-|Hdd].
        -- assert (Hsp : src = p).
           { pose proof (source_unique d src j' Hd Hsrc Hj') as H. cbn zeta in H. fold s' in H. fold dst in H. rewrite Hdc, Hjj in H. exact H. }
           subst src. assert (j' = other j) by (destruct (other_side j' Hj'); congruence). subst j'.
           exists ks'. split; [rewrite <- app_assoc; exact E|]. subst s'. rewrite Htag, chan_same. exact F'.
        -- exists kk. rewrite app_nil_r. rewrite Hjj, Hf, Nat.add_0_r in EE. split; [exact EE|]. rewrite chan_other; [exact FF|]. right; right.
           intros Et. rewrite <- Htag in Et. destruct (tag_inj d' d src p j' (other j) Hd' Hd Hj' Hoj Et). congruence.
      * exists kk. rewrite flag_other by exact Hjj. split; [exact EE|]. rewrite chan_other; [exact FF|]. right; right.
        intros Et. rewrite <- Htag in Et. destruct (tag_inj d' d src p j' (other j) Hd' Hd Hj' Hoj Et) as [_ Ejj]. apply Hjj. rewrite Ejj. exact Hoo.
    + exists kk. rewrite at_other by exact Hne. split; [exact EE|]. rewrite chan_other; [exact FF|]. now right; left.
Qed.

Lemma next_inv st c d : inv st -> ok c -> nth_error prog (pc st c) = Some (Exch d) ->
  sent st c 0%nat = true -> sent st c 1%nat = true -> got st c 0%nat = true -> got st c 1%nat = true ->
  inv (mkA (mem st) (at_proc (pc st) c (S (pc st c))) (at_proc (sent st) c no_flags) (at_proc (got st) c no_flags) (chan st)).
Proof.
  intros [Ipc Ir Ia Ii Ic] Hc Hp S1 S2 G1 G2. pose proof (exch_at _ _ Hp) as Hd. split; cbn [mem pc sent got chan].
  - intros c'. destruct (proc_dec c' c) as [->|Hne]; [rewrite at_same; apply (pc_lt _ _ _ Hp)|]. rewrite at_other by exact Hne. apply Ipc.
  - intros c' Hc'. destruct (proc_dec c' c) as [->|Hne]; [|rewrite at_other by exact Hne; now apply Ir].
    rewrite at_same, (after_S _ _ Hp). cbn [sync_item fst]. now apply Ir.
  - intros c' i Hc' Hi. eapply eqV_trans; [apply (Ia c' i Hc' Hi)|]. unfold partial. cbn [pc got].
    destruct (proc_dec c' c) as [->|Hne]; [|rewrite !at_other by exact Hne; apply eqV_refl].
    match goal with |- eqV ?x ?y => enough (Exy : x = y) by (rewrite Exy; apply eqV_refl) end.
    rewrite !at_same, Hp, G1, G2. cbn [andb no_flags orb].
    assert (H : forall (x : V), x = snd (after (S (pc st c)) c) i -> x = match nth_error prog (S (pc st c)) with Some (Exch d0) => snd (after (S (pc st c)) c) i | _ => snd (after (S (pc st c)) c) i end)
      by (intros x ->; now destruct (nth_error prog (S (pc st c))) as [[]|]).
    apply H. destruct (in_slab axes d (recv_msg axes d c 0) i) eqn:E0; [reflexivity|]. destruct (in_slab axes d (recv_msg axes d c 1) i) eqn:E1; [reflexivity|]. cbn [orb].
    rewrite (after_S _ _ Hp). cbn [sync_item snd]. now rewrite exchange_else.
  - intros c' Hn j'. destruct (proc_dec c' c) as [->|Hne]; [rewrite !at_same; split; reflexivity|]. rewrite !at_other in * by exact Hne. now apply Ii.
  - intros d' src j' Hd' Hsrc Hj'. destruct (Ic d' src j' Hd' Hsrc Hj') as [ks [E F]]. cbn zeta in E, F |- *. exists ks. split; [|exact F]. rewrite <- E at 1 || idtac.
    assert (Hsp : sp (mkA (mem st) (at_proc (pc st) c (S (pc st c))) (at_proc (sent st) c no_flags) (at_proc (got st) c no_flags) (chan st)) src j' = sp st src j').
    { unfold sp. cbn [pc sent]. destruct (proc_dec src c) as [->|Hne]; [|now rewrite !at_other by exact Hne]. rewrite !at_same. unfold no_flags.
      unfold side in Hj'. assert (Ej : (j' = 0 \/ j' = 1)%nat) by lia. destruct Ej as [-> | ->]; rewrite ?S1, ?S2; clear; lia. }
    assert (Hrp : forall dst, rp (mkA (mem st) (at_proc (pc st) c (S (pc st c))) (at_proc (sent st) c no_flags) (at_proc (got st) c no_flags) (chan st)) dst (other j') = rp st dst (other j')).
    { intros dst. unfold rp. cbn [pc got]. destruct (proc_dec dst c) as [->|Hne]; [|now rewrite !at_other by exact Hne]. rewrite !at_same. unfold no_flags.
      unfold side in Hj'. assert (Ej : (j' = 0 \/ j' = 1)%nat) by lia. unfold other. destruct Ej as [-> | ->]; cbn [Nat.sub]; rewrite ?G1, ?G2; clear; lia. }
    rewrite Hrp, Hsp. exact E.
Qed.
Lemma loc_inv st c g : inv st -> ok c -> nth_error prog (pc st c) = Some (Loc g) ->
  inv (mkA (at_proc (mem st) c (g c (mem st c))) (at_proc (pc st) c (S (pc st c))) (sent st) (got st) (chan st)).
Proof.
  intros [Ipc Ir Ia Ii Ic] Hc Hp.
  assert (Hidle : forall j, sent st c j = false /\ got st c j = false) by (apply Ii; intros d; congruence).
  assert (Hg : eqmem (g c (mem st c)) (g c (after (pc st c) c))).
  { rewrite Forall_forall in Hprog. pose proof (Hprog _ (nth_error_In _ _ Hp)) as H. apply H. split; [now apply Ir|].
    intros i Hi. eapply eqV_trans; [apply (Ia c i Hc Hi)|]. unfold partial. rewrite Hp. apply eqV_refl. }
  split; cbn [mem pc sent got chan].
  - intros c'. destruct (proc_dec c' c) as [->|Hne]; [rewrite at_same; apply (pc_lt _ _ _ Hp)|]. rewrite at_other by exact Hne. apply Ipc.
  - intros c' Hc'. destruct (proc_dec c' c) as [->|Hne]; [|rewrite !at_other by exact Hne; now apply Ir].
    rewrite !at_same, (after_S _ _ Hp). exact (proj1 Hg).
  - intros c' i Hc' Hi. unfold partial. cbn [pc got].
    destruct (proc_dec c' c) as [->|Hne]; [|rewrite !at_other by exact Hne; now apply Ia].
    rewrite !at_same. destruct (Hidle 0%nat) as [_ ->]. destruct (Hidle 1%nat) as [_ ->]. cbn [andb orb].
    eapply eqV_trans; [apply (proj2 Hg i Hi)|]. rewrite (after_S _ _ Hp). cbn [sync_item]. destruct (nth_error prog (S (pc st c))) as [[]|]; apply eqV_refl.
  - intros c' Hn j'. destruct (proc_dec c' c) as [->|Hne]; [apply Hidle|]. rewrite at_other in Hn by exact Hne. now apply Ii.
  - intros d' src j' Hd' Hsrc Hj'. destruct (Ic d' src j' Hd' Hsrc Hj') as [ks [E F]]. cbn zeta in E, F |- *. exists ks. split; [|exact F].
    assert (Hno : rounds d' (S (pc st c)) = rounds d' (pc st c)) by (rewrite rounds_S; unfold is_exch; rewrite Hp; apply app_nil_r).
    unfold sp, rp in *. cbn [pc sent got].
    assert (H1 : rounds d' (at_proc (pc st) c (S (pc st c)) src + (if sent st src j' then 1 else 0)) = rounds d' (pc st src + (if sent st src j' then 1 else 0))).
    { destruct (proc_dec src c) as [->|Hne]; [|now rewrite at_other by exact Hne]. rewrite at_same. destruct (Hidle j') as [-> _]. rewrite !Nat.add_0_r. exact Hno. }
    set (dst := peer d' src (send_msg axes d' src j')) in *.
    assert (H2 : rounds d' (at_proc (pc st) c (S (pc st c)) dst + (if got st dst (other j') then 1 else 0)) = rounds d' (pc st dst + (if got st dst (other j') then 1 else 0))).
    { destruct (proc_dec dst c) as [->|Hne]; [|now rewrite at_other by exact Hne]. rewrite at_same. destruct (Hidle (other j')) as [_ ->]. rewrite !Nat.add_0_r. exact Hno. }
    rewrite H1, H2. exact E.
Qed.
Lemma step_inv st c e st' : inv st -> ok c -> step axes prog st c e = Some st' -> inv st'.
Proof.
  intros Hi Hc. unfold step. destruct (nth_error prog (pc st c)) as [[d|g]|] eqn:Hp; [| |discriminate].
  - destruct e as [j|j|].
    + destruct (Nat.ltb_spec j 2) as [Hj|]; [|discriminate]. destruct (sent st c j) eqn:Hf; [discriminate|]. cbn [andb negb]. intros [= <-]. now apply send_inv.
    + destruct (Nat.ltb_spec j 2) as [Hj|]; [|discriminate]. destruct (got st c j) eqn:Hf; [discriminate|]. cbn [andb negb].
      destruct (chan _ _ _ _) as [|q l] eqn:Hq; [discriminate|]. intros [= <-]. now apply recv_inv.
    + destruct (sent st c 0%nat) eqn:?, (sent st c 1%nat) eqn:?, (got st c 0%nat) eqn:?, (got st c 1%nat) eqn:?; try discriminate. cbn [andb]. intros [= <-]. now apply (next_inv st c d).
  - destruct e; try discriminate. intros [= <-]. now apply loc_inv.
Qed.
Lemma execution_inv es : forall st st', inv st -> Forall (fun ce => ok (fst ce)) es -> execution axes prog st es = Some st' -> inv st'.
Proof.
  induction es as [|[c e] es IH]; intros st st' Hi Ho; cbn; [now intros [= <-]|]. inversion Ho as [|x y Hc Hes]; subst. cbn in Hc.
  destruct (step axes prog st c e) as [st1|] eqn:E; [|discriminate]. apply IH; [|exact Hes]. now apply (step_inv st c e).
Qed.

(* ---- nobody waits for ever ---- *)
Definition stuck (st : astate (V := V) (M := M)) : Prop := forall c e, ok c -> step axes prog st c e = None.
Lemma stuck_end st : inv st -> stuck st -> forall c, ok c -> pc st c = length prog.
Proof.
  intros Hi Hs.
  assert (H : forall k, (k <= length prog)%nat -> forall c, ok c -> (k <= pc st c)%nat).
  { induction k as [|k IH]; intros Hk c Hc; [lia|]. specialize (IH ltac:(lia)). pose proof (IH c Hc) as Hkc.
    destruct (Nat.eq_dec k (pc st c)) as [Ek|]; [exfalso|lia].
    destruct (nth_error prog (pc st c)) as [it|] eqn:Hp; [|apply nth_error_None in Hp; lia].
    destruct it as [d|g]; [|specialize (Hs c ENext Hc); unfold step in Hs; rewrite Hp in Hs; discriminate].
    pose proof (exch_at _ _ Hp) as Hd.
    assert (Hsent : forall c' j, ok c' -> side j -> nth_error prog (pc st c') = Some (Exch d) -> sent st c' j = true).
    { intros c' j Hc' Hj Hp'. specialize (Hs c' (ESend j) Hc'). unfold step in Hs. rewrite Hp' in Hs. unfold side in Hj. apply Nat.ltb_lt in Hj. rewrite Hj in Hs.
      destruct (sent st c' j); [reflexivity|discriminate]. }
    assert (Hgot : forall j, side j -> got st c j = true).
    { intros j Hj. destruct (got st c j) eqn:Hf; [reflexivity|exfalso].
      destruct (meets d c j Hd Hc Hj) as [Hpok [Hpc Htag]]. destruct (other_side j Hj) as [Hoj Hoo].
      set (p := peer d c (recv_msg axes d c j)) in *.
      destruct (inv_chan st Hi d p (other j) Hd Hpok Hoj) as [ks [E F]]. rewrite Hoo, Hpc, Htag in *.
      assert (Hx : is_exch d (pc st c) = true) by (rewrite (is_exch_at _ _ _ Hp); apply Nat.eqb_refl).
      unfold rp in E. rewrite Hf, Nat.add_0_r in E.
      assert (Hlt : (pc st c < sp st p (other j))%nat).
      { unfold sp. pose proof (IH p Hpok) as Hge. destruct (Nat.eq_dec (pc st p) (pc st c)) as [Ep|]; [|destruct (sent st p (other j)); lia].
        rewrite (Hsent p (other j) Hpok Hoj) by (rewrite Ep; exact Hp). lia. }
      destruct (rounds_next _ _ _ _ Hx E) as [[_ [ks' ->]]|[_ Hle]]; [|lia].
      specialize (Hs c (ERecv j) Hc). unfold step in Hs. rewrite Hp, Hf in Hs. pose proof Hj as Hj2. unfold side in Hj2. apply Nat.ltb_lt in Hj2. rewrite Hj2 in Hs. cbn [andb negb] in Hs.
      fold p in Hs. destruct (chan st p c (m_tag (recv_msg axes d c j))); [inversion F|discriminate]. }
    assert (side 0 /\ side 1) as [H0 H1] by (unfold side; lia).
    specialize (Hs c ENext Hc). unfold step in Hs. rewrite Hp in Hs. rewrite (Hsent c 0%nat Hc H0 Hp), (Hsent c 1%nat Hc H1 Hp), (Hgot 0%nat H0), (Hgot 1%nat H1) in Hs. discriminate. }
  intros c Hc. pose proof (H (length prog) (Nat.le_refl _) c Hc). pose proof (inv_pc st Hi c). lia.
Qed.
Lemma at_end st c : inv st -> ok c -> pc st c = length prog -> eqmem (mem st c) (sync axes prog S0 c).
Proof.
  intros Hi Hc He. assert (Hl : sync axes prog S0 = after (length prog)) by (unfold after; now rewrite firstn_all).
  rewrite Hl. split.
  - rewrite <- He. now apply inv_rest.
  - intros i Hn. eapply eqV_trans; [apply (inv_arr st Hi c i Hc Hn)|]. unfold partial. rewrite He. destruct (nth_error prog (length prog)) eqn:E; [|apply eqV_refl].
    assert (length prog < length prog)%nat by (apply nth_error_Some; congruence). lia.
Qed.
(* at any time a process which is not in an exchange has the values of the common clock *)
Lemma at_any_time st c : inv st -> ok c -> (forall j, got st c j = false) -> eqmem (mem st c) (after (pc st c) c).
Proof.
  intros Hi Hc Hg. split; [now apply inv_rest|]. intros i Hn. eapply eqV_trans; [apply (inv_arr st Hi c i Hc Hn)|]. unfold partial. rewrite !Hg. cbn [andb orb]. destruct (nth_error _ _) as [[]|]; apply eqV_refl.
Qed.

(* ---- the number of events ---- *)
Definition b2n (b : bool) : nat := if b then 1 else 0.
Definition work (st : astate (V := V) (M := M)) (c : proc) : nat :=
  (5 * pc st c + b2n (sent st c 0%nat) + b2n (sent st c 1%nat) + b2n (got st c 0%nat) + b2n (got st c 1%nat))%nat.
Definition events_of (c : proc) (es : list (proc * event)) : nat := length (filter (fun ce => if proc_dec (fst ce) c then true else false) es).
Lemma step_work st c e st' c' : step axes prog st c e = Some st' -> ((if proc_dec c c' then 1 else 0) + work st c' <= work st' c')%nat.
Proof.
  clear. unfold step. destruct (nth_error prog (pc st c)) as [[d|g]|] eqn:Hp; [| |discriminate].
  - destruct e as [j|j|].
    + destruct (Nat.ltb_spec j 2) as [Hj|]; [|discriminate]. destruct (sent st c j) eqn:Hf; [discriminate|]. cbn [andb negb]. intros [= <-]. unfold work. cbn [pc sent got].
      destruct (proc_dec c c') as [<-|Hne]; [|rewrite at_other by congruence; lia]. rewrite at_same. assert (Ej : (j = 0 \/ j = 1)%nat) by lia.
      destruct Ej as [-> | ->]; rewrite flag_same, flag_other by discriminate; rewrite Hf; cbn; lia.
    + destruct (Nat.ltb_spec j 2) as [Hj|]; [|discriminate]. destruct (got st c j) eqn:Hf; [discriminate|]. cbn [andb negb].
      destruct (chan _ _ _ _) as [|q l]; [discriminate|]. intros [= <-]. unfold work. cbn [pc sent got].
      destruct (proc_dec c c') as [<-|Hne]; [|rewrite at_other by congruence; lia]. rewrite at_same. assert (Ej : (j = 0 \/ j = 1)%nat) by lia.
      destruct Ej as [-> | ->]; rewrite flag_same, flag_other by discriminate; rewrite Hf; cbn; lia.
    + destruct (sent st c 0%nat) eqn:E1, (sent st c 1%nat) eqn:E2, (got st c 0%nat) eqn:E3, (got st c 1%nat) eqn:E4; try discriminate. cbn [andb]. intros [= <-]. unfold work. cbn [pc sent got].
      destruct (proc_dec c c') as [<-|Hne]; [|rewrite !at_other by congruence; lia]. rewrite !at_same, E1, E2, E3, E4. cbn; lia.
  - destruct e; try discriminate. intros [= <-]. unfold work. cbn [pc sent got].
    destruct (proc_dec c c') as [<-|Hne]; [|rewrite !at_other by congruence; lia]. rewrite !at_same. cbn; lia.
Qed.
Lemma execution_work es : forall st st' c, execution axes prog st es = Some st' -> (events_of c es + work st c <= work st' c)%nat.
Proof.
  clear. induction es as [|[c0 e] es IH]; intros st st' c; cbn [execution]; [intros [= <-]; cbn; lia|].
  destruct (step axes prog st c0 e) as [st1|] eqn:E; [|discriminate]. intros H. specialize (IH st1 st' c H). pose proof (step_work st c0 e st1 c E) as Hw.
  unfold events_of in *. cbn [filter fst]. revert Hw. destruct (proc_dec c0 c); cbn [length]; lia.
Qed.
Lemma work_bound st c : inv st -> (work st c <= 5 * length prog)%nat.
Proof.
  intros Hi. unfold work. pose proof (inv_pc st Hi c) as Hpc. destruct (nth_error prog (pc st c)) as [it|] eqn:Hp.
  - apply pc_lt in Hp. assert (forall b, b2n b <= 1)%nat as Hb by (intros []; cbn; lia).
    pose proof (Hb (sent st c 0%nat)). pose proof (Hb (sent st c 1%nat)). pose proof (Hb (got st c 0%nat)). pose proof (Hb (got st c 1%nat)). lia.
  - assert (Hid : forall j, sent st c j = false /\ got st c j = false) by (apply (inv_idle st Hi); congruence).
    destruct (Hid 0%nat) as [-> ->]. destruct (Hid 1%nat) as [-> ->]. cbn [b2n]. lia.
Qed.
End Proofs.
