(* Specifications and lemmas for C64. *)
From Verif Require Import PyBase LinAlg AlgoModel AlgoProofs GlobalModel GenModel StepGenModel StepGenProps SchemeModel SchemeProofs SchemeProps BuildModel.
Require Import Lia.

Section Build.
Variable K : ring.
Notation term := (term K).
Notation sdict := (sdict K).
Implicit Types (d : sdict) (ds : list sdict).
Add Ring Kring : (rth K).

(* ---- the dictionary in the words of the user ---- *)
(* the coefficient of the velocity j in the moment i of a scheme *)
Definition entry d (i j : nat) : K :=
  match sd_M K d with
  | Some M => M i j
  | None => teval K (coord K (nth j (sd_v K d) [])) (nth i (sd_P K d) (Num 0%K))
  end.
(* the first distribution of the scheme b *)
Definition off ds (b : nat) : nat := fold_right Nat.add 0%nat (firstn b (map (nv K) ds)).
(* the moment i of the scheme b of the distributions f *)
Definition mom ds (f : vec K) (b i : nat) : K :=
  match nth_error ds b with
  | Some d => sum (nv K d) (fun j => (entry d i j * f (off ds b + j)%nat)%K)
  | None => 0%K
  end.

(* ---- blocks ---- *)
Lemma off_S d ds b : off (d :: ds) (S b) = (nv K d + off ds b)%nat.
Proof. reflexivity. Qed.
Lemma off_total ds b d i : nth_error ds b = Some d -> (i < nv K d)%nat -> (off ds b + i < total (sizes K ds))%nat.
Proof.
  revert b. induction ds as [|d0 ds IH]; intros [|b] H Hi; try discriminate.
  - injection H as ->. unfold off, sizes, total. cbn [firstn map fold_right]. lia.
  - cbn in H. specialize (IH b H Hi). rewrite off_S. unfold sizes, total in *. cbn [map fold_right]. lia.
Qed.
Lemma off_ex ds k : (k < total (sizes K ds))%nat -> exists b d i, nth_error ds b = Some d /\ (i < nv K d)%nat /\ k = (off ds b + i)%nat.
Proof.
  revert k. induction ds as [|d0 ds IH]; intros k H; [cbn in H; lia|].
  unfold sizes, total in H. cbn [map fold_right] in H. destruct (Nat.lt_ge_cases k (nv K d0)) as [L|L].
  - exists 0%nat, d0, k. cbn. auto.
  - destruct (IH (k - nv K d0)%nat) as (b & d & i & H1 & H2 & H3); [unfold sizes, total; lia|].
    exists (S b), d, i. cbn [nth_error]. split; [exact H1|]. split; [exact H2|]. rewrite off_S. lia.
Qed.
Lemma off_inj ds b b' d d' i i' : nth_error ds b = Some d -> nth_error ds b' = Some d' -> (i < nv K d)%nat -> (i' < nv K d')%nat ->
  (off ds b + i = off ds b' + i')%nat -> b = b' /\ i = i'.
Proof.
  revert b b'. induction ds as [|d0 ds IH]; intros [|b] [|b'] H H' Hi Hi' E; try discriminate; cbn in H, H'.
  - split; [reflexivity|]. unfold off in E. cbn in E. exact E.
  - injection H as ->. rewrite off_S in E. unfold off in E at 1. cbn in E. lia.
  - injection H' as ->. rewrite off_S in E. unfold off in E at 2. cbn in E. lia.
  - rewrite !off_S in E. destruct (IH b b' H H' Hi Hi') as [-> ->]; [lia|]. auto.
Qed.
Lemma nth_concat {A : Type} (g : sdict -> list A) (x : A) ds b d i : Forall (fun d => length (g d) = nv K d) ds ->
  nth_error ds b = Some d -> (i < nv K d)%nat -> nth (off ds b + i) (concat (map g ds)) x = nth i (g d) x.
Proof.
  intros HF. revert b. induction HF as [|d0 ds H0 HF IH]; intros [|b] H Hi; try discriminate; cbn in H.
  - injection H as ->. unfold off. cbn. rewrite app_nth1 by lia. reflexivity.
  - rewrite off_S. cbn [map concat]. rewrite app_nth2 by lia. rewrite <- (IH b H Hi). f_equal. lia.
Qed.

Lemma assemble_entry (B : sdict -> mat K) ds b d i j : nth_error ds b = Some d -> (i < nv K d)%nat -> (j < nv K d)%nat ->
  assemble zerom (map (fun d => (nv K d, B d)) ds) (off ds b + i) (off ds b + j) = B d i j.
Proof.
  revert b. induction ds as [|d0 ds IH]; intros [|b] H Hi Hj; try discriminate; cbn in H.
  - injection H as ->. unfold off. cbn [firstn map fold_right assemble Nat.add]. apply Nat.ltb_lt in Hi, Hj. now rewrite Hi, Hj.
  - rewrite off_S. cbn [map assemble]. destruct (Nat.ltb_spec (nv K d0 + off ds b + i) (nv K d0)); [lia|].
    destruct (Nat.ltb_spec (nv K d0 + off ds b + j) (nv K d0)); [lia|]. rewrite <- (IH b H Hi Hj). f_equal; lia.
Qed.
Lemma assemble_row (B : sdict -> mat K) (f : vec K) ds b d i : nth_error ds b = Some d -> (i < nv K d)%nat ->
  mvmul (total (sizes K ds)) (assemble zerom (map (fun d => (nv K d, B d)) ds)) f (off ds b + i)%nat =
  sum (nv K d) (fun j => (B d i j * f (off ds b + j)%nat)%K).
Proof.
  revert b f. induction ds as [|d0 ds IH]; intros [|b] f H Hi; try discriminate; cbn in H.
  - injection H as ->. unfold mvmul, sizes. cbn [map total fold_right]. rewrite sum_split.
    rewrite (sum_zero K (fold_right _ _ _)).
    + rewrite (sum_ext K (nv K d) _ (fun j => (B d i j * f (0 + j)%nat)%K)).
      * cbn. ring.
      * intros j Hj. unfold off. cbn [firstn map fold_right assemble Nat.add]. apply Nat.ltb_lt in Hi, Hj. now rewrite Hi, Hj.
    + intros j Hj. unfold off. cbn [firstn map fold_right assemble Nat.add]. pose proof Hi as Hi'. apply Nat.ltb_lt in Hi. rewrite Hi.
      destruct (Nat.ltb_spec (nv K d + j) (nv K d)); [lia|]. ring.
  - unfold mvmul, sizes. cbn [map total fold_right]. rewrite sum_split.
    rewrite (sum_zero K (nv K d0)).
    + rewrite (sum_ext K (nv K d) _ (fun j => (B d i j * (fun q => f (nv K d0 + q)%nat) (off ds b + j)%nat)%K)).
      * rewrite <- (IH b (fun q => f (nv K d0 + q)%nat) H Hi). unfold mvmul, total, sizes.
        rewrite (sum_ext K (fold_right Nat.add 0%nat (map (nv K) ds)) _ (fun j => (assemble zerom (map (fun d1 => (nv K d1, B d1)) ds) (off ds b + i) j * f (nv K d0 + j)%nat)%K)); [ring|].
        intros j Hj. rewrite off_S. cbn [assemble]. destruct (Nat.ltb_spec (nv K d0 + off ds b + i) (nv K d0)); [lia|].
        destruct (Nat.ltb_spec (nv K d0 + j) (nv K d0)); [lia|]. do 2 f_equal; lia.
      * intros j Hj. rewrite off_S. now rewrite Nat.add_assoc.
    + intros j Hj. rewrite off_S. cbn [assemble]. destruct (Nat.ltb_spec (nv K d0 + off ds b + i) (nv K d0)); [lia|].
      destruct (Nat.ltb_spec j (nv K d0)); [|lia]. ring.
Qed.

(* ---- the swaps and the names ---- *)
Lemma rows_sigma {A : Type} ps (X : nat -> A) k : rows ps X k = X (sigma ps k).
Proof. unfold rows. revert X. induction ps as [|p ps IH]; intros X; [reflexivity|]. cbn [fold_left]. rewrite IH. reflexivity. Qed.

Lemma ranks_get cs r c : NoDup cs -> nth_error cs r = Some c -> odict_get (combine cs (seq 0 (length cs))) c = Some r.
Proof.
  assert (H : forall cs s r, NoDup cs -> nth_error cs r = Some c -> odict_get (combine cs (seq s (length cs))) c = Some (s + r)%nat).
  { clear. induction cs as [|x cs IH]; intros s r ND H; [destruct r; discriminate|]. inversion ND as [|? ? Hn ND']; subst. destruct r as [|r]; cbn in H.
    - injection H as ->. cbn. rewrite Nat.eqb_refl. f_equal. lia.
    - cbn. destruct (Nat.eqb_spec c x) as [->|Ne]; [apply nth_error_In in H; contradiction|]. rewrite (IH (S s) r ND' H). f_equal. lia. }
  intros ND E. exact (H cs 0%nat r ND E).
Qed.
Lemma ranks_none cs c : ~ In c cs -> odict_get (combine cs (seq 0 (length cs))) c = None.
Proof.
  generalize 0%nat. induction cs as [|x cs IH]; intros s H; [reflexivity|]. cbn. destruct (Nat.eqb_spec c x) as [->|Ne]; [exfalso; apply H; now left|].
  apply IH. intros Hi. apply H. now right.
Qed.
Definition ranks (cs : list nat) := combine cs (seq 0 (length cs)).
(* the values m of the moments in front are those of the conserved symbols *)
Definition values (cs : list nat) (m val : vec K) : Prop := forall r c, nth_error cs r = Some c -> m r = val c.
Lemma rename_eval n cs (m val : vec K) t : NoDup cs -> values cs m val -> (forall c, In c (vars K t) -> In c cs) ->
  teval K m (rename K n (ranks cs) t) = teval K val t.
Proof.
  intros ND V. induction t as [x|c|o t IH|o t1 IH1 t2 IH2]; cbn; intros H.
  - reflexivity.
  - destruct (In_nth_error cs c (H c (or_introl eq_refl))) as [r Hr]. unfold ranks. rewrite (ranks_get cs r c ND Hr). now apply V.
  - now rewrite IH.
  - rewrite IH1, IH2; [reflexivity| |]; intros c Hc; apply H, in_or_app; tauto.
Qed.
Lemma rename_below n cs t : NoDup cs -> (forall c, In c (vars K t) -> In c cs) -> below K (length cs) (rename K n (ranks cs) t).
Proof.
  intros ND. unfold below. induction t as [x|c|o t IH|o t1 IH1 t2 IH2]; cbn; intros H i Hi.
  - contradiction.
  - destruct Hi as [<-|[]]. destruct (In_nth_error cs c (H c (or_introl eq_refl))) as [r Hr]. unfold ranks. rewrite (ranks_get cs r c ND Hr).
    apply nth_error_Some. congruence.
  - now apply IH.
  - apply in_app_iff in Hi. destruct Hi as [Hi|Hi]; [apply IH1|apply IH2]; try exact Hi; intros c Hc; apply H, in_or_app; tauto.
Qed.

(* ---- the dictionary, continued ---- *)
Variable simp : term -> term.
(* its equilibrium for given values of the conserved moments *)
Definition eqv d (i : nat) (val : vec K) : K :=
  match sd_eq K d, sd_feq K d with
  | [], Some l => sum (nv K d) (fun j => (entry d i j * teval K val (nth j l (Num 0%K)))%K)
  | meq, _ => teval K val (nth i meq (Num 0%K))
  end.
(* the expressions of the equilibria, simplified when they are given by distributions *)
Definition eqs d : list term :=
  match sd_eq K d, sd_feq K d with
  | [], Some l => map (fun i => simp (tsum K (nv K d) (fun j => tmul K (Num (entry d i j)) (nth j l (Num 0%K))))) (seq 0 (nv K d))
  | meq, _ => meq
  end.
(* the conserved moment c is the moment i of the scheme b: it is listed there and the moment i is
   the first one whose equilibrium is c *)
Definition is_moment ds (c b i : nat) : Prop := exists d,
  nth_error ds b = Some d /\ In c (sd_cons K d) /\ (i < nv K d)%nat /\ nth i (eqs d) (Num 0%K) = Var c /\
  forall j, (j < i)%nat -> nth j (eqs d) (Num 0%K) <> Var c.
Definition conserved ds : list nat := concat (map (sd_cons K) ds).
Definition closed ds (t : term) : Prop := forall c, In c (vars K t) -> In c (conserved ds).
(* the sizes *)
Definition sized d : Prop :=
  length (sd_s K d) = nv K d /\ (sd_M K d = None -> length (sd_P K d) = nv K d) /\
  match sd_eq K d, sd_feq K d with
  | [], Some l => length l = nv K d
  | [], None => nv K d = 0%nat
  | meq, None => length meq = nv K d
  | _, Some _ => False
  end.
Record dict_ok ds : Prop := {
  do_sized : Forall sized ds;
  do_M : forall d M, In d ds -> sd_M K d = Some M -> ds = [d];
  do_distinct : NoDup (conserved ds);
  do_eq : forall d t, In d ds -> In t (eqs d) -> closed ds t;
  do_s : forall d t, In d ds -> In t (sd_s K d) -> closed ds t;
  do_src : forall d c g, In d ds -> In (c, g) (sd_src K d) -> closed ds g }.
(* no conserved moment is a moment whose number is smaller than its rank *)
Definition ordered ds : Prop := forall r c b i, nth_error (conserved ds) r = Some c -> is_moment ds c b i -> (r <= off ds b + i)%nat.

(* ---- the matrices ---- *)
Variable inv : nat -> mat K -> option (mat K).
Definition pentry d : mat K := fun i j => teval K (coord K (nth j (sd_v K d) [])) (nth i (sd_P K d) (Num 0%K)).
Lemma slice_concat ds pre : Forall (fun d => length (sd_P K d) = nv K d) ds -> forall Bs,
  elementary K (pre ++ concat (map (sd_P K) ds)) (length pre) ds = Some Bs -> Bs = map (fun d => (nv K d, pentry d)) ds.
Proof.
  intros HF. revert pre. induction HF as [|d ds H0 HF IH]; intros pre Bs E; cbn [elementary map concat] in E; cbv zeta in E; [injection E as <-; reflexivity|].
  assert (ES : slice (length pre) (nv K d) (pre ++ sd_P K d ++ concat (map (sd_P K) ds)) = sd_P K d).
  { unfold slice. rewrite skipn_app, skipn_all, Nat.sub_diag. cbn. rewrite firstn_app, <- H0, firstn_all, Nat.sub_diag. cbn. apply app_nil_r. }
  rewrite ES in E. destruct (Nat.ltb (length (sd_P K d)) (nv K d)); [discriminate|].
  rewrite app_assoc in E. replace (length pre + nv K d)%nat with (length (pre ++ sd_P K d)) in E by (rewrite app_length; lia).
  destruct (elementary K ((pre ++ sd_P K d) ++ concat (map (sd_P K) ds)) (length (pre ++ sd_P K d)) ds) as [Bs'|] eqn:E'; [|discriminate].
  injection E as <-. cbn. f_equal. exact (IH (pre ++ sd_P K d) Bs' E').
Qed.
Definition inv_spec : Prop := forall n A B, inv n A = Some B -> inverse n A B.
Lemma inverses_ok Bs Cs : inv_spec -> inverses K inv Bs = Some Cs -> blocks_inverse K Bs Cs.
Proof.
  intros inv_ok. revert Cs. induction Bs as [|[n B] Bs IH]; intros Cs E; cbn in E; [injection E as <-; constructor|].
  destruct (inv n B) as [C|] eqn:E1; [|discriminate]. destruct (inverses K inv Bs) as [Cs'|]; [|discriminate]. injection E as <-.
  constructor; [split; [reflexivity|now apply inv_ok]|now apply IH].
Qed.
(* M and invM *)
Lemma matrices_ok ds M N : inv_spec -> dict_ok ds -> matrices K inv ds = Some (M, N) ->
  inverse (total (sizes K ds)) M N /\
  (forall b d i j, nth_error ds b = Some d -> (i < nv K d)%nat -> (j < nv K d)%nat -> M (off ds b + i)%nat (off ds b + j)%nat = entry d i j) /\
  (forall f b d i, nth_error ds b = Some d -> (i < nv K d)%nat -> mvmul (total (sizes K ds)) M f (off ds b + i)%nat = mom ds f b i).
Proof.
  intros inv_ok D E. unfold matrices in E. destruct (given K ds) as [G|] eqn:EG.
  - destruct ds as [|d [|d' ds]]; try discriminate. cbn in EG. destruct (inv _ G) as [N'|] eqn:EI; [|discriminate]. injection E as <- <-.
    split; [now apply inv_ok|].
    assert (EE : forall i j, G i j = entry d i j) by (intros; unfold entry; now rewrite EG).
    split; [intros [|[|b]] d' i j H Hi Hj; cbn in H; try discriminate; injection H as <-; cbn; apply EE|].
    intros f [|[|b]] d' i H Hi; cbn in H; try discriminate; injection H as <-. unfold mom, off, mvmul, sizes. cbn.
    rewrite Nat.add_0_r. apply sum_ext. intros j Hj. now rewrite EE.
  - assert (HM : Forall (fun d => sd_M K d = None) ds).
    { apply Forall_forall. intros d Hd. destruct (sd_M K d) as [G|] eqn:EM; [|reflexivity]. pose proof (do_M ds D d G Hd EM) as Ed.
      rewrite Ed in EG. cbn in EG. congruence. }
    destruct (moment_blocks K inv ds) as [[Bs Cs]|] eqn:EB; [|discriminate]. injection E as <- <-.
    unfold moment_blocks in EB. destruct (elementary K _ 0 ds) as [Bs'|] eqn:E1; [|discriminate]. destruct (inverses K inv Bs') as [Cs'|] eqn:E2; [|discriminate].
    injection EB as -> ->.
    assert (EBs : Bs = map (fun d => (nv K d, pentry d)) ds).
    { apply (slice_concat ds []); [|exact E1]. apply Forall_forall. intros d Hd.
      pose proof (proj1 (Forall_forall _ _) (do_sized ds D) d Hd) as (_ & HP & _). apply HP. now apply (proj1 (Forall_forall _ _) HM). }
    assert (ES : bsize K Bs = total (sizes K ds)).
    { rewrite EBs. unfold bsize, sizes. rewrite map_map. reflexivity. }
    assert (EE : forall d, In d ds -> forall i j, pentry d i j = entry d i j).
    { intros d Hd i j. unfold entry. now rewrite (proj1 (Forall_forall _ _) HM d Hd). }
    split; [rewrite <- ES; apply assemble_inverse; now apply inverses_ok|]. rewrite EBs. split.
    + intros b d i j H Hi Hj. rewrite (assemble_entry pentry ds b d i j H Hi Hj). apply EE. now apply nth_error_In in H.
    + intros f b d i H Hi. rewrite (assemble_row pentry f ds b d i H Hi). unfold mom. rewrite H. apply sum_ext. intros j Hj.
      rewrite EE; [reflexivity|]. now apply nth_error_In in H.
Qed.

(* ---- the equilibria ---- *)
Lemma tsum_ext n g h : (forall j, (j < n)%nat -> g j = h j) -> tsum K n g = tsum K n h.
Proof.
  intros H. unfold tsum. assert (HL : forall l, (forall j, In j l -> (j < n)%nat) -> fold_right (fun j t => tadd K (g j) t) (Num 0%K) l = fold_right (fun j t => tadd K (h j) t) (Num 0%K) l).
  { induction l as [|j l IH]; intros Hl; [reflexivity|]. cbn. rewrite H by (apply Hl; now left). f_equal. apply IH. intros; apply Hl; now right. }
  apply HL. intros j Hj. apply in_seq in Hj. lia.
Qed.
Lemma equilibrium_concat M ds0 ds ptr EQ :
  (forall b d i j, nth_error ds b = Some d -> (i < nv K d)%nat -> (j < nv K d)%nat -> M (ptr + off ds b + i)%nat (ptr + off ds b + j)%nat = entry d i j) ->
  Forall sized ds -> incl ds ds0 -> equilibrium K simp M ptr ds = Some EQ -> EQ = concat (map eqs ds).
Proof.
  revert ptr EQ. induction ds as [|d ds IH]; intros ptr EQ HM HS HI E; cbn in E; [injection E as <-; reflexivity|].
  destruct (equilibrium K simp M (ptr + nv K d) ds) as [rest|] eqn:E1; [|discriminate].
  assert (ER : rest = concat (map eqs ds)).
  { apply (IH (ptr + nv K d)%nat rest); [|now inversion HS|intros x Hx; apply HI; now right|exact E1].
    intros b d' i j H Hi Hj. rewrite <- (HM (S b) d' i j H Hi Hj). rewrite off_S. f_equal; lia. }
  inversion HS as [|? ? (_ & _ & S3) ?]; subst. cbn [map concat]. unfold eqs at 1.
  destruct (sd_eq K d) as [|e l]; [destruct (sd_feq K d) as [fe|]|].
  - destruct (Nat.eqb _ _); [|discriminate]. injection E as <-. f_equal. apply map_ext_in. intros i Hi. apply in_seq in Hi. f_equal. apply tsum_ext. intros j Hj.
    do 2 f_equal. specialize (HM 0%nat d i j eq_refl). unfold off in HM. cbn in HM. rewrite !Nat.add_0_r in HM. apply HM; lia.
  - injection E as <-. reflexivity.
  - destruct (sd_feq K d) as [fe|]; [discriminate|]. injection E as <-. reflexivity.
Qed.
Lemma eqs_length d : sized d -> length (eqs d) = nv K d.
Proof.
  intros (_ & _ & H). unfold eqs. destruct (sd_eq K d) as [|e l]; [destruct (sd_feq K d)|].
  - now rewrite map_length, seq_length.
  - now rewrite H.
  - destruct (sd_feq K d); [contradiction|exact H].
Qed.
Definition simp_spec : Prop := forall val t, teval K val (simp t) = teval K val t.
Lemma tsum_eval val n g : teval K val (tsum K n g) = sum n (fun j => teval K val (g j)).
Proof. unfold tsum, sum. induction (seq 0 n) as [|j l IH]; cbn; [reflexivity|]. now rewrite IH. Qed.
Lemma eqs_eval d i val : simp_spec -> (i < nv K d)%nat -> teval K val (nth i (eqs d) (Num 0%K)) = eqv d i val.
Proof.
  intros simp_ok Hi. unfold eqs, eqv. destruct (sd_eq K d) as [|e l]; [destruct (sd_feq K d) as [fe|]|]; try reflexivity.
  rewrite (nth_indep _ (Num 0%K) (simp (tsum K (nv K d) (fun j => tmul K (Num (entry d 0 j)) (nth j fe (Num 0%K))))) ) by (rewrite map_length, seq_length; exact Hi).
  rewrite (map_nth (fun i => simp (tsum K (nv K d) (fun j => tmul K (Num (entry d i j)) (nth j fe (Num 0%K)))))).
  rewrite seq_nth by exact Hi. rewrite simp_ok, tsum_eval. reflexivity.
Qed.

(* ---- the source terms ---- *)
Definition source ds (c : nat) : option term :=
  match find (fun p => Nat.eqb (fst p) c) (rev (concat (map (sd_src K) ds))) with Some p => Some (snd p) | None => None end.
Variable hdt : K.
(* half a time step of the sources: the conserved moments in their order *)
Definition half ds (val : vec K) : vec K :=
  fold_left (fun val c => match source ds c with
                          | Some g => fun c' => if Nat.eqb c' c then (val c + hdt * teval K val g)%K else val c'
                          | None => val
                          end) (conserved ds) val.
Lemma sources_map n consm l r : sources K n consm l = Some r ->
  Forall2 (fun p q => odict_get consm (fst p) = Some (fst q) /\ snd q = rename K n consm (snd p)) l r.
Proof.
  revert r. induction l as [|[c g] l IH]; intros r E; cbn in E; [injection E as <-; constructor|].
  destruct (odict_get consm c) as [i|] eqn:Ei; [|discriminate]. destruct (sources K n consm l) as [r'|]; [|discriminate]. injection E as <-.
  constructor; [cbn; auto|now apply IH].
Qed.
Lemma odict_combine_in cs s c i : odict_get (combine cs (seq s (length cs))) c = Some i -> (s <= i)%nat /\ nth_error cs (i - s) = Some c.
Proof.
  revert s. induction cs as [|x cs IH]; intros s H; cbn in H; [discriminate|].
  destruct (Nat.eqb_spec c x) as [->|Ne].
  - injection H as <-. split; [lia|]. now rewrite Nat.sub_diag.
  - apply IH in H as [H1 H2]. split; [lia|]. replace (i - s)%nat with (S (i - S s)) by lia. exact H2.
Qed.
Lemma ranks_iff cs c i : NoDup cs -> (odict_get (ranks cs) c = Some i <-> nth_error cs i = Some c).
Proof.
  intros ND. split; [|now apply ranks_get]. intros H. apply odict_combine_in in H as [_ H]. now rewrite Nat.sub_0_r in H.
Qed.
Lemma Forall2_rev {A B : Type} (R : A -> B -> Prop) l r : Forall2 R l r -> Forall2 R (rev l) (rev r).
Proof. induction 1; cbn; [constructor|]. apply Forall2_app; [assumption|repeat constructor; assumption]. Qed.
Lemma sources_find n cs l r i c : NoDup cs -> sources K n (ranks cs) l = Some r -> nth_error cs i = Some c ->
  match find (fun p => Nat.eqb (fst p) i) (rev r) with Some p => Some (snd p) | None => None end =
  match find (fun p => Nat.eqb (fst p) c) (rev l) with Some p => Some (rename K n (ranks cs) (snd p)) | None => None end.
Proof.
  intros ND E Hi. apply sources_map, Forall2_rev in E. induction E as [|[c' g] [i' g'] l' r' [H1 H2] _ IH]; [reflexivity|].
  cbn [fst snd find] in *. apply ranks_iff in H1; [|exact ND].
  destruct (Nat.eqb_spec i' i) as [->|Ne], (Nat.eqb_spec c' c) as [->|Nc]; [now rewrite H2|congruence| |exact IH].
  exfalso. apply Ne. rewrite NoDup_nth_error in ND. apply ND; [apply nth_error_Some; congruence|congruence].
Qed.
Lemma sources_none n cs l r i : NoDup cs -> sources K n (ranks cs) l = Some r -> nth_error cs i = None ->
  find (fun p => Nat.eqb (fst p) i) (rev r) = None.
Proof.
  intros ND E Hi. apply sources_map, Forall2_rev in E. induction E as [|[c' g] [i' g'] l' r' [H1 H2] _ IH]; [reflexivity|].
  cbn [fst snd find] in *. apply ranks_iff in H1; [|exact ND]. destruct (Nat.eqb_spec i' i) as [->|Ne]; [congruence|exact IH].
Qed.

(* ---- the algorithm which is built ---- *)
Lemma firstn_nth_S {A : Type} (l : list A) j x : nth_error l j = Some x -> firstn (S j) l = firstn j l ++ [x].
Proof. revert j. induction l as [|y l IH]; intros [|j] H; try discriminate; cbn in H; [injection H as ->; reflexivity|]. cbn [firstn app]. f_equal. now apply IH. Qed.
Lemma NoDup_app_inv {A : Type} (l m : list A) : NoDup (l ++ m) -> NoDup l /\ NoDup m /\ forall x, In x l -> ~ In x m.
Proof.
  induction l as [|x l IH]; cbn; intros H; [split; [constructor|]; split; [exact H|intros y []]|].
  inversion H as [|? ? Hx H']; subst. destruct (IH H') as (H1 & H2 & H3). rewrite in_app_iff in Hx. split; [constructor; tauto|]. split; [exact H2|].
  intros y [<-|Hy]; [tauto|now apply H3].
Qed.
Lemma eqexpr_sym t c : eqexpr_of K t = ESym c <-> t = Var c.
Proof. destruct t; cbn; split; intros E; try discriminate; congruence. Qed.
Lemma total_offset l b : offset l b = fold_right Nat.add 0%nat (firstn b l).
Proof. reflexivity. Qed.
Variables (rel : option (list term)) (dim : nat).
Record built ds (a : salgo K) (M N : mat K) (sg : nat -> nat) : Prop := {
  bu_inverse : inverse (total (sizes K ds)) M N;
  bu_moments : forall f b d i, nth_error ds b = Some d -> (i < nv K d)%nat -> mvmul (total (sizes K ds)) M f (off ds b + i)%nat = mom ds f b i;
  bu_lt : forall k, (k < total (sizes K ds))%nat -> (sg k < total (sizes K ds))%nat;
  bu_inj : forall k l, sg k = sg l -> k = l;
  bu_surj : forall k, (k < total (sizes K ds))%nat -> exists l, (l < total (sizes K ds))%nat /\ sg l = k;
  bu_sum : forall g : vec K, sum (total (sizes K ds)) (fun k => g (sg k)) = sum (total (sizes K ds)) g;
  bu_n : sa_n K a = total (sizes K ds);
  bu_nc : sa_nc K a = length (conserved ds);
  bu_le : (length (conserved ds) <= total (sizes K ds))%nat;
  bu_M : forall k c, sa_M K a k c = M (sg k) c;
  bu_invM : forall r k, sa_invM K a r k = N r (sg k);
  bu_Tu : forall k c, sa_Tu K a k c = translation K inv rel ds (sg k) (sg c);
  bu_eq : forall k, sa_eq K a k = rename K (total (sizes K ds)) (ranks (conserved ds)) (nth (sg k) (concat (map eqs ds)) (Num 0%K));
  bu_s : forall k, sa_s K a k = rename K (total (sizes K ds)) (ranks (conserved ds)) (nth (sg k) (concat (map (sd_s K) ds)) (Num 0%K));
  bu_rel : sa_relvel K a = option_map (fun l j => rename K (total (sizes K ds)) (ranks (conserved ds)) (nth j l (Num 0%K))) rel;
  bu_dim : sa_dim K a = dim;
  bu_src : sources K (total (sizes K ds)) (ranks (conserved ds)) (concat (map (sd_src K) ds)) = Some (sa_source K a);
  bu_hdt : sa_hdt K a = hdt;
  bu_found : forall c, In c (conserved ds) -> exists b i, is_moment ds c b i;
  bu_front : ordered ds -> forall r c b i, nth_error (conserved ds) r = Some c -> is_moment ds c b i -> sg r = (off ds b + i)%nat;
  bu_sizes : length (concat (map eqs ds)) = total (sizes K ds) /\ length (concat (map (sd_s K) ds)) = total (sizes K ds) }.

Lemma build_built ds a : inv_spec -> dict_ok ds -> build K inv simp rel dim hdt ds = Some a -> exists M N sg, built ds a M N sg.
Proof.
  intros inv_ok D E. unfold build, before_swap in E.
  destruct (matrices K inv ds) as [[M N]|] eqn:EM; [|discriminate].
  destruct (matrices_ok ds M N inv_ok D EM) as (HI & HE & HM).
  destruct (equilibrium K simp M 0 ds) as [EQ|] eqn:EE; [|discriminate].
  assert (EQc : EQ = concat (map eqs ds)) by (apply (equilibrium_concat M ds ds 0 EQ HE (do_sized ds D)); [intros x Hx; exact Hx|exact EE]).
  destruct (Nat.eqb (length EQ) (total (sizes K ds)) && Nat.eqb (length (concat (map (sd_s K) ds))) (total (sizes K ds)))%bool eqn:EL; [|discriminate].
  apply andb_prop in EL as [L1 L2]. apply Nat.eqb_eq in L1, L2.
  set (EF := fun k => eqexpr_of K (nth k EQ (Num 0%K))) in *.
  destruct (get_conserved EF 0 (sizes K ds) (map (sd_cons K) ds) []) as [consm|] eqn:EC; [|discriminate].
  cbn [b_consm b_n b_M b_invM b_EQ b_s] in E.
  destruct (C22_conserved_found K EF (sizes K ds) (map (sd_cons K) ds)) as [_ CF]; [unfold sizes; now rewrite !map_length|].
  destruct (CF consm EC) as [CP CK]. specialize (CK (do_distinct ds D)). fold (conserved ds) in CK.
  assert (LC : length consm = length (conserved ds)) by (rewrite <- CK; symmetry; apply map_length).
  assert (RK : combine (map fst consm) (seq 0 (length consm)) = ranks (conserved ds)) by (unfold ranks; now rewrite <- CK, map_length).
  rewrite RK in E. destruct (sources K _ (ranks (conserved ds)) _) as [src|] eqn:ES; [|discriminate]. injection E as <-.
  assert (HF : found K EF (total (sizes K ds)) consm).
  { apply (get_conserved_spec K EF (total (sizes K ds)) (sizes K ds) (map (sd_cons K) ds) 0 [] consm); [cbn; lia|split; constructor|exact EC]. }
  assert (Hok : swaps_ok (total (sizes K ds)) (permutations consm)).
  { apply permutations_ok; [|exact (found_length K EF _ consm HF)]. destruct HF as [HF _]. revert HF. apply Forall_impl. intros q [Hq _]. exact Hq. }
  (* the places *)
  assert (PL : forall c p, In (c, p) consm <-> exists b i, is_moment ds c b i /\ p = (off ds b + i)%nat).
  { assert (SZ : forall b d i, nth_error ds b = Some d -> (i < nv K d)%nat -> nth (off ds b + i) EQ (Num 0%K) = nth i (eqs d) (Num 0%K)).
    { intros b d i Hb Hi. rewrite EQc. apply nth_concat; [|exact Hb|exact Hi]. apply Forall_forall. intros x Hx. apply eqs_length. exact (proj1 (Forall_forall _ _) (do_sized ds D) x Hx). }
    intros c p. rewrite CP. split.
    - intros (b & nb & cs & i & H1 & H2 & H3 & (F1 & F2 & F3) & -> & _). unfold sizes in H1. rewrite nth_error_map in H1, H2.
      destruct (nth_error ds b) as [d|] eqn:Hb; [|discriminate]. injection H1 as <-. injection H2 as <-. exists b, i. split; [|reflexivity].
      exists d. split; [exact Hb|]. split; [exact H3|]. split; [exact F1|]. unfold EF, offset, sizes in F2, F3. fold (off ds b) in F2, F3. split.
      + rewrite <- (SZ b d i Hb F1). now apply eqexpr_sym.
      + intros j Hj Ej. apply (F3 j Hj). rewrite (SZ b d j Hb) by lia. now rewrite Ej.
    - intros (b & i & (d & Hb & Hc & Hi & E1 & E2) & ->). exists b, (nv K d), (sd_cons K d), i. unfold sizes. rewrite !nth_error_map, Hb.
      split; [reflexivity|]. split; [reflexivity|]. split; [exact Hc|]. split; [|split; [reflexivity|]].
      + split; [exact Hi|]. unfold EF, offset, sizes. fold (off ds b). split; [apply eqexpr_sym; now rewrite (SZ b d i Hb Hi)|].
        intros j Hj Ej. apply eqexpr_sym in Ej. rewrite (SZ b d j Hb) in Ej by lia. now apply (E2 j Hj).
      + intros s' cs' Hs Hcs Hin. pose proof (do_distinct ds D) as ND. unfold conserved in ND. rewrite nth_error_map in Hcs.
        destruct (nth_error ds s') as [d'|] eqn:Hb'; [|discriminate]. injection Hcs as <-.
        clear - ND Hs Hb Hb' Hc Hin. revert b s' Hs Hb Hb'. induction ds as [|d0 ds IH]; intros b s' Hs Hb Hb'; [destruct b; discriminate|].
        cbn in ND. apply NoDup_app_inv in ND as (ND1 & ND2 & ND3). destruct s' as [|s']; [lia|]. cbn in Hb'. destruct b as [|b]; cbn in Hb.
        * injection Hb as ->. apply (ND3 c Hc). apply in_concat. exists (sd_cons K d'). split; [|exact Hin]. apply in_map. now apply nth_error_In in Hb'.
        * exact (IH ND2 b s' ltac:(lia) Hb Hb'). }
  exists M, N, (sigma (permutations consm)). constructor; cbn [sa_n sa_nc sa_M sa_invM sa_Tu sa_eq sa_s sa_relvel sa_dim sa_source sa_hdt].
  - exact HI.
  - exact HM.
  - intros k Hk. now apply sigma_lt.
  - apply sigma_inj.
  - intros k Hk. now apply sigma_surj.
  - intros g. now apply sum_sigma.
  - reflexivity.
  - unfold ranks. rewrite combine_length, seq_length. apply Nat.min_id.
  - rewrite <- LC. exact (found_length K EF _ consm HF).
  - intros k c. now rewrite rows_sigma.
  - intros r k. unfold cols. now rewrite rows_sigma.
  - intros k c. unfold cols. now rewrite !rows_sigma.
  - intros k. now rewrite rows_sigma, EQc.
  - intros k. now rewrite rows_sigma.
  - reflexivity.
  - reflexivity.
  - exact ES.
  - reflexivity.
  - intros c Hc. rewrite <- CK in Hc. apply in_map_iff in Hc as ((c' & p) & Ec & Hp). cbn in Ec. subst c'.
    apply PL in Hp as (b & i & H & _). now exists b, i.
  - intros HO r c b i Hr Hm. rewrite permutations_front.
    assert (IP : forall r c p, nth_error consm r = Some (c, p) -> (r <= p)%nat).
    { intros r' c' p Hp. destruct (proj1 (PL c' p) (nth_error_In _ _ Hp)) as (b' & i' & Hm' & ->). apply (HO r' c' b' i'); [|exact Hm'].
      rewrite <- CK, nth_error_map, Hp. reflexivity. }
    apply sigma_front.
    + exact (found_NoDup_snd K EF _ consm HF).
    + rewrite <- CK, nth_error_map in Hr. destruct (nth_error consm r) as [[c' p]|] eqn:Ep; [|discriminate]. injection Hr as ->.
      rewrite nth_error_map, Ep. cbn. f_equal.
      assert (Hin : In (c, (off ds b + i)%nat) consm) by (apply PL; now exists b, i).
      pose proof (nth_error_In _ _ Ep) as Hin2. pose proof (do_distinct ds D) as ND. rewrite <- CK in ND.
      clear - ND Hin Hin2. induction consm as [|[x y] l IH]; [contradiction|]. cbn in ND. inversion ND as [|? ? Hx ND']; subst.
      destruct Hin as [E1|H1], Hin2 as [E2|H2].
      * congruence.
      * injection E1 as -> ->. exfalso. apply Hx. apply in_map_iff. now exists (c, p).
      * injection E2 as -> ->. exfalso. apply Hx. apply in_map_iff. now exists (c, (off ds b + i)%nat).
      * now apply IH.
    + intros k c' Hk. rewrite nth_error_map in Hk. destruct (nth_error consm k) as [[c'' p]|] eqn:Ep; [|discriminate]. injection Hk as <-. exact (IP k c'' p Ep).
  - split; [now rewrite <- EQc|exact L2].
Qed.

(* ---- the step of what is built ---- *)
Section Step.
Variables (ds : list sdict) (a : salgo K) (M N : mat K) (sg : nat -> nat).
Hypothesis D : dict_ok ds.
Hypothesis B : built ds a M N sg.
Notation n := (total (sizes K ds)).
Notation cs := (conserved ds).
Notation al := (algo_of K a).

Lemma source_closed c g : source ds c = Some g -> closed ds g.
Proof using D.
  unfold source. destruct (find _ _) as [[c' g']|] eqn:E; [|discriminate]. intros [= <-]. apply find_some in E as [E _].
  apply in_rev, in_concat in E as (l & Hl & E). apply in_map_iff in Hl as (d & <- & Hd). exact (do_src ds D d c' g' Hd E).
Qed.
Lemma source_of_find k : source_of al k =
  match find (fun p => Nat.eqb (fst p) k) (rev (sa_source K a)) with Some p => Some (fun m => teval K m (snd p)) | None => None end.
Proof.
  unfold source_of. cbn. rewrite <- map_rev. induction (rev (sa_source K a)) as [|[i g] l IH]; [reflexivity|]. cbn. destruct (Nat.eqb i k); [reflexivity|exact IH].
Qed.
Lemma source_front r c : nth_error cs r = Some c ->
  source_of al r = match source ds c with Some g => Some (fun m => teval K m (rename K n (ranks cs) g)) | None => None end.
Proof using D B.
  intros H. rewrite source_of_find. pose proof (sources_find n cs _ _ r c (do_distinct ds D) (bu_src ds a M N sg B) H) as E. unfold source.
  destruct (find (fun p => Nat.eqb (fst p) r) _) as [p|], (find (fun p => Nat.eqb (fst p) c) _) as [q|]; try discriminate; [|reflexivity]. injection E as ->. reflexivity.
Qed.
Lemma source_back k : (length cs <= k)%nat -> source_of al k = None.
Proof using D B.
  intros H. rewrite source_of_find, (sources_none n cs _ _ k (do_distinct ds D) (bu_src ds a M N sg B)); [reflexivity|]. now apply nth_error_None.
Qed.
Definition half_to (j : nat) (val : vec K) : vec K :=
  fold_left (fun val c => match source ds c with
                          | Some g => fun c' => if Nat.eqb c' c then (val c + hdt * teval K val g)%K else val c'
                          | None => val
                          end) (firstn j cs) val.
Lemma half_values (m val : vec K) : values cs m val ->
  values cs (half_source K al m) (half ds val) /\ forall k, (length cs <= k)%nat -> half_source K al m k = m k.
Proof using D B.
  intros V. pose proof (do_distinct ds D) as ND.
  set (e := fun k m => match source_of al k with Some g => (m k + al_hdt al * g m)%K | None => m k end).
  change (half_source K al m) with (seqf e 0 (sa_n K a) m). rewrite (bu_n ds a M N sg B).
  assert (P : forall j, (j <= length cs)%nat -> values cs (seqf e 0 j m) (half_to j val)).
  { induction j as [|j IH]; intros Hj; [rewrite seqf_nil by lia; exact V|]. specialize (IH ltac:(lia)).
    destruct (nth_error cs j) as [c|] eqn:Ec; [|apply nth_error_None in Ec; lia].
    rewrite seqf_step by lia. unfold half_to. rewrite (firstn_nth_S cs j c Ec), fold_left_app. cbn [fold_left]. fold (half_to j val).
    unfold e at 2. rewrite (source_front j c Ec). destruct (source ds c) as [g|] eqn:Eg; intros r c' Hr.
    - unfold updf. destruct (Nat.eqb_spec r j) as [->|Ne].
      + assert (c' = c) as -> by congruence. rewrite Nat.eqb_refl. rewrite (IH j c Ec).
        rewrite (rename_eval n cs _ (half_to j val) g ND IH (source_closed c g Eg)). cbn. now rewrite (bu_hdt ds a M N sg B).
      + destruct (Nat.eqb_spec c' c) as [->|Nc]; [|now apply IH].
        exfalso. apply Ne. rewrite NoDup_nth_error in ND. apply ND; [apply nth_error_Some; congruence|congruence].
    - unfold updf. destruct (Nat.eqb_spec r j) as [->|Ne]; now apply IH. }
  pose proof (bu_le ds a M N sg B) as L. split.
  - intros r c Hr. assert (Hl : (r < length cs)%nat) by (apply nth_error_Some; congruence).
    rewrite <- (seqf_prefix e 0 n (length cs)) by lia. rewrite (P (length cs) (le_n _) r c Hr). unfold half_to, half. now rewrite firstn_all.
  - intros k Hk. destruct (Nat.lt_ge_cases k n) as [Hn|Hn]; [|apply seqf_out; lia].
    rewrite seqf_in by lia. unfold e at 1. rewrite source_back by exact Hk. apply seqf_out. lia.
Qed.
End Step.
End Build.
