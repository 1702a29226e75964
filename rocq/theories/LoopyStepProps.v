(* C76: the kernel one_time_step of the loo.py back end, whose work items run at the same time. *)
From Coq Require Import Sorting.Permutation.
From Verif Require Import PyBase VelocityModel GridModel StorageModel ExchangeProofs LinAlg AlgoModel AlgoProofs RelVelProofs KernelProofs GlobalModel GlobalProofs
  TorusProofs AlgoProps GlobalProps GenModel GenProofs GenProps StepGenModel StepGenProofs StepGenProps LoopyModel LoopyProofs.
Require Import Lia.
Open Scope Z_scope.

(* ------------------------------------------------- all the kernels *)
(* Every execution ends, and it ends with all the instructions run. *)
Theorem C76_ends (V : Type) : well_founded (fun c' c : conf V => kstep c c') /\
  (forall c : conf V, (forall c', ~ kstep c c') <-> Forall idle (snd c)) /\
  (forall (k : kernel V) cells A, exists A', result k cells A A').
Proof.
  split; [apply kstep_wf|]. split; [|intros; apply has_result]. intros c. split.
  - intros H. destruct (progress V c) as [I|[c' S]]; [exact I|]. now destruct (H c').
  - intros I c' S. inversion S as [A A' pre i i' post St]. subst c c'. cbn in I. apply Forall_app in I as [_ I]. inversion I as [|? ? [I1 I2] _]. subst.
    inversion St; subst; cbn in *; try discriminate; apply Forall_app in I2 as [_ I2]; inversion I2; discriminate.
Qed.
(* Without races and with blocks which are not empty, every execution gives each place the value
   of the instructions of its item one after the other. *)
Theorem C76_sequential (V : Type) (k : kernel V) cells A A' : NoDup cells -> race_free k cells -> Forall (fun b => b <> []) k -> (forall x, In x cells -> Forall (calm x) k) ->
  result k cells A A' -> exists L0 : list Z -> nat -> V,
  (forall x n p, In x cells -> (forall y, In y cells -> y <> x -> ~ writes k y n p) -> A' n p = fst (ccell V (concat k) (A, L0 x) x) n p) /\
  (forall n p, (forall x, In x cells -> ~ writes k x n p) -> A' n p = A n p).
Proof. apply result_at. Qed.
Print Assumptions C76_ends.
Print Assumptions C76_sequential.

(* ------------------------------------------------- the statements *)
Section Sym.
Variable K : ring.
Add Ring Kring : (rth K).
(* the symbol t is in the expression *)
Fixpoint in_sym (t : target) (e : sym K) : Prop := match e with
  | YNum _ | YOld _ => False
  | YNew k => t = TFn k
  | YMom k | YMv k => t = TM k
  | YVel j => t = TU j
  | YUn _ e => in_sym t e
  | YBin _ e1 e2 => in_sym t e1 \/ in_sym t e2
  end.
Definition vget (v : view K) (t : target) : K := match t with TFn k => vfn v k | TM k => vm v k | TU j => vu v j end.
(* the right hand side is the left hand side *)
Definition self (s : sstmt K) : Prop := forall v, seval K v (snd s) = vget v (fst s).
(* a block whose statements may be run in any order *)
Definition free (b : list (sstmt K)) : Prop := NoDup (map fst b) /\ forall s t, In s b -> In t b -> fst t <> fst s -> in_sym (fst t) (snd s) -> self t.

Lemma in_sub t s u : in_sym t (tsub K s u) -> exists i, In i (vars K u) /\ in_sym t (s i).
Proof.
  induction u as [c|i|o u IH|o u1 IH1 u2 IH2]; cbn; [tauto|intros H; exists i; auto|exact IH|].
  intros [H|H]; [destruct (IH1 H) as (i & H1 & H2)|destruct (IH2 H) as (i & H1 & H2)]; exists i; rewrite in_app_iff; auto.
Qed.
Lemma in_sum t n g : in_sym t (ysum K n g) -> exists j, (j < n)%nat /\ in_sym t (g j).
Proof.
  unfold ysum. assert (H : forall l, in_sym t (fold_right (fun j acc => yadd K (g j) acc) (YNum 0%K) l) -> exists j, In j l /\ in_sym t (g j)).
  { induction l as [|j l IH]; cbn; [tauto|]. intros [H|H]; [exists j; auto|]. destruct (IH H) as (i & H1 & H2). exists i. auto. }
  intros H'. destruct (H _ H') as (j & H1 & H2). apply in_seq in H1. exists j. split; [lia|exact H2].
Qed.
Lemma in_mv t n M f i : in_sym t (ymv K n M f i) -> exists j, (j < n)%nat /\ (in_sym t (M i j) \/ in_sym t (f j)).
Proof. intros H. apply in_sum in H as (j & Hj & H). exists j. auto. Qed.
Lemma in_mm t n M N i k : in_sym t (ymm K n M N i k) -> exists j, (j < n)%nat /\ (in_sym t (M i j) \/ in_sym t (N j k)).
Proof. intros H. apply in_sum in H as (j & Hj & H). exists j. auto. Qed.
Lemma assign_in (t : nat -> target) lo hi e s : In s (sassign K t lo hi e) -> exists k, (lo <= k < hi)%nat /\ s = (t k, e k).
Proof. unfold sassign. intros H. apply in_map_iff in H as (k & <- & H). apply in_seq in H. exists k. split; [lia|reflexivity]. Qed.
Lemma assign_nodup (t : nat -> target) lo hi e : (forall i j, t i = t j -> i = j) -> NoDup (map fst (sassign K t lo hi e)).
Proof.
  intros H. unfold sassign. rewrite map_map. cbn. generalize (seq_NoDup (hi - lo) lo). generalize (seq lo (hi - lo)) as l. clear - H.
  induction l as [|i l IH]; cbn; intros N; constructor; inversion N; [|now apply IH]. intros I. apply in_map_iff in I as (j & E & Hj). apply H in E. congruence.
Qed.
Lemma free_assign (t : nat -> target) lo hi e : (forall i j, t i = t j -> i = j) ->
  (forall i k, (lo <= i < hi)%nat -> (lo <= k < hi)%nat -> i <> k -> in_sym (t i) (e k) -> self (t i, e i)) -> free (sassign K t lo hi e).
Proof.
  intros Hi H. split; [now apply assign_nodup|]. intros s u Hs Hu N U. apply assign_in in Hs as (k & Hk & ->). apply assign_in in Hu as (i & Hi' & ->). cbn in *.
  apply (H i k); try assumption. intros ->. now apply N.
Qed.
Lemma TM_inj i j : TM i = TM j -> i = j. Proof. congruence. Qed.
Lemma TFn_inj i j : TFn i = TFn j -> i = j. Proof. congruence. Qed.

Variable a : salgo K.
Notation n := (sa_n K a).
Notation nc := (sa_nc K a).
Hypothesis S : scheme_ok K a.
(* no source reads a moment which has a source, except its own *)
Definition uncoupled : Prop := forall k g i, In (k, g) (sa_source K a) -> In i (vars K g) -> i <> k -> ~ In i (map fst (sa_source K a)).
(* with a relative velocity, the conserved moments are not relaxed *)
Definition still : Prop := sa_relvel K a = None \/ forall k m, (k < nc)%nat -> teval K m (sa_s K a k) = 0%K.
Hypothesis HU : uncoupled.
Hypothesis HS : still.

Lemma in_Tu t i j : in_sym t (yTu K a i j) -> exists j', t = TU j'.
Proof. intros H. apply in_sub in H as (l & _ & H). cbn in H. eauto. Qed.
Lemma in_Tmu t i j : in_sym t (yTmu K a i j) -> exists j', t = TU j'.
Proof. intros H. apply in_sub in H as (l & _ & H). cbn in H. eauto. Qed.
Lemma in_Mu t i j : in_sym t (yMu K a i j) -> exists j', t = TU j'.
Proof. intros H. apply in_mm in H as (l & _ & [H|H]); [now apply in_Tu in H|destruct H]. Qed.
Lemma free_transport : free (stransport K a).
Proof using. apply free_assign; [exact TFn_inj|]. intros i k _ _ _ []. Qed.
Lemma free_f2m_blocks src : (forall t k, in_sym t (src k) -> exists l, t = TFn l) -> Forall free (lf2m a src).
Proof using.
  intros H. unfold lf2m. destruct (sa_relvel K a) as [rel|].
  - apply Forall_app. split; [|apply Forall_app; split].
    + constructor; [|constructor]. apply free_assign; [exact TM_inj|]. intros i k _ _ _ U. apply in_mv in U as (j & _ & [[]|U]). apply H in U as [l E]. discriminate.
    + apply Forall_forall. intros b Hb. apply in_map_iff in Hb as (j & <- & _). split; [constructor; [intros []|constructor]|].
      intros s t [<-|[]] [<-|[]] N. now destruct N.
    + constructor; [|constructor]. apply free_assign; [exact TM_inj|]. intros i k _ _ _ U. apply in_mv in U as (j & _ & [U|U]); [apply in_Mu in U as [l E]|apply H in U as [l E]]; discriminate.
  - constructor; [|constructor]. apply free_assign; [exact TM_inj|]. intros i k _ _ _ U. apply in_mv in U as (j & _ & [[]|U]). apply H in U as [l E]. discriminate.
Qed.
Lemma free_source : Forall free (lsource a).
Proof using HU.
  unfold lsource. destruct (sa_source K a) as [|p0 l0] eqn:E0; [constructor|]. constructor; [|constructor]. apply free_assign; [exact TM_inj|].
  intros i k Hi Hk N U. assert (Hs : ssource_of K a i = None); [|intros v; cbn; now rewrite Hs].
  destruct (ssource_of K a k) as [g|] eqn:Eg; [|cbn in U; congruence]. cbn in U. destruct U as [U|[[]|U]]; [congruence|].
  apply in_sub in U as (j & Hj & U). cbn in U. injection U as <-.
  unfold ssource_of in *. destruct (find _ (rev (sa_source K a))) as [[k' g']|] eqn:F; [|discriminate]. injection Eg as <-. apply find_some in F as [F1 F2].
  apply Nat.eqb_eq in F2. cbn in F2. subst k'. apply in_rev in F1.
  destruct (find (fun p => Nat.eqb (fst p) i) (rev (sa_source K a))) as [[i' g2]|] eqn:F'; [|reflexivity]. apply find_some in F' as [F3 F4]. apply Nat.eqb_eq in F4. cbn in F4. subst i'.
  exfalso. apply (HU k g' i F1 Hj N). apply in_rev in F3. change i with (fst (i, g2)). now apply in_map.
Qed.
Lemma self_relax k : (k < nc)%nat -> self (TM k, yadd K (ymul K (ysub K (YNum 1%K) (ys K a k)) (YMom k)) (ymul K (ys K a k) (match sa_relvel K a with None => yeq K a k | Some _ => ymv K n (yTu K a) (yeq K a) k end))).
Proof using S HS.
  intros Hk v. cbn [fst snd yadd ymul ysub seval vget]. rewrite !eval_s. cbn [al_s algo_of]. destruct HS as [R|R].
  - rewrite R. rewrite eval_eq. cbn [al_eq algo_of]. rewrite (so_id K a S k Hk). cbn [teval]. ring.
  - rewrite (R k (vm v) Hk). ring.
Qed.
Lemma free_relaxation : free (srelaxation K a).
Proof using S HS.
  apply free_assign; [exact TM_inj|]. intros i k Hi Hk N U. apply self_relax.
  assert (Hs : in_sym (TM i) (ys K a k) -> (i < nc)%nat).
  { intros H. apply in_sub in H as (j & Hj & H). cbn in H. injection H as <-. apply (so_s K a S k); [lia|exact Hj]. }
  assert (He : forall l, (l < n)%nat -> in_sym (TM i) (yeq K a l) -> (i < nc)%nat).
  { intros l Hl H. apply in_sub in H as (j & Hj & H). cbn in H. injection H as <-. now apply (so_eq K a S l). }
  cbn in U. destruct U as [[[[]|U]|U]|[U|U]]; [now apply Hs|congruence|now apply Hs|]. destruct (sa_relvel K a).
  - apply in_mv in U as (j & Hj & [U|U]); [apply in_Tu in U as [l E]; discriminate|now apply (He j)].
  - apply (He k); [lia|exact U].
Qed.
Lemma free_restore : free (srestore K a).
Proof using.
  apply free_assign; [exact TM_inj|]. intros i k _ _ _ U. apply in_mv in U as (j & _ & [U|[]]). apply in_Mu in U as [l E]. discriminate.
Qed.
Lemma free_m2f : free (sm2f K a).
Proof using.
  unfold sm2f. destruct (sa_relvel K a); (apply free_assign; [exact TFn_inj|]); intros i k _ _ _ U; apply in_mv in U as (j & _ & [U|U]).
  - apply in_mm in U as (l & _ & [[]|U]). apply in_Tmu in U as [l' E]. discriminate.
  - discriminate.
  - destruct U.
  - discriminate.
Qed.
Lemma free_pull : Forall free (lpull a).
Proof using S HU HS.
  unfold lpull. repeat (apply Forall_app; split).
  - apply free_f2m_blocks. intros t k [].
  - apply free_source.
  - constructor; [apply free_relaxation|constructor].
  - destruct (sa_relvel K a); constructor; [apply free_restore|constructor].
  - apply free_source.
  - constructor; [apply free_m2f|constructor].
Qed.
Lemma free_base : Forall free (lbase a).
Proof using S HU HS.
  unfold lbase. repeat (apply Forall_app; split).
  - constructor; [apply free_transport|constructor].
  - apply free_f2m_blocks. intros t k ->. eauto.
  - apply free_source.
  - constructor; [apply free_relaxation|constructor].
  - apply free_source.
  - constructor; [apply free_m2f|constructor].
Qed.
(* the blocks are the statements of StepGenModel.v *)
Lemma concat_f2m src : concat (lf2m a src) = sf2m K a src.
Proof using.
  unfold lf2m, sf2m. destruct (sa_relvel K a) as [rel|]; [|cbn; apply app_nil_r]. rewrite !concat_app. cbn. rewrite !app_nil_r. f_equal. f_equal.
  unfold sassign. rewrite Nat.sub_0_r. induction (seq 0 (sa_dim K a)) as [|j l IH]; [reflexivity|]. cbn. now rewrite IH.
Qed.
Lemma concat_source : concat (lsource a) = swith_source K a.
Proof using. unfold lsource, swith_source. destruct (sa_source K a); [reflexivity|]. cbn. apply app_nil_r. Qed.
Lemma concat_pull : concat (lpull a) = spull K a.
Proof using.
  unfold lpull, spull. rewrite !concat_app, concat_f2m, concat_source. cbn [concat]. rewrite !app_nil_r. do 4 f_equal. destruct (sa_relvel K a); [|reflexivity]. cbn. now rewrite app_nil_r.
Qed.
Lemma concat_base : concat (lbase a) = sbase K a.
Proof using. unfold lbase, sbase. rewrite !concat_app, concat_f2m, concat_source. cbn [concat]. now rewrite !app_nil_r. Qed.
End Sym.
Arguments in_sym {K}. Arguments self {K}. Arguments free {K}. Arguments vget {K}. Arguments uncoupled {K}. Arguments still {K}.

(* ------------------------------------------------- the printed kernel *)
Section Print.
Variable K : ring.
Variable drop : sstmt K -> bool.
Variables (pos d ns : nat) (vel : nat -> list Z).
Hypothesis Hvel : forall k, (k < ns)%nat -> length (vel k) = d.
Notation at_ := (at_ pos).
Notation cy := (cy_stmt K pos d ns vel).
Notation kept := (filter (fun s => negb (drop s))).
Definition tdest (x : list Z) (t : target) : dest := match t with TFn k => DArr 2 (at_ k x) | TM k => DLoc k | TU j => DLoc (ns + j) end.
Lemma dest_cy x s : length x = d -> dest_of x (cy s) = tdest x (fst s).
Proof. intros L. destruct s as [[k|k|j] e]; cbn; [|reflexivity..]. f_equal. exact (addr_here pos d x 2 k L). Qed.
Lemma rhs_cy s : rhs_of (cy s) = cy_expr K pos d ns vel (snd s).
Proof. destruct s as [[k|k|j] e]; reflexivity. Qed.
Lemma tdest_inj x t u : length x = d -> tbound ns t -> tbound ns u -> tdest x t = tdest x u -> t = u.
Proof.
  intros L. destruct t as [k|k|j], u as [k'|k'|j']; cbn; intros H1 H2 E; try discriminate; try (injection E; intros; f_equal; lia).
  - injection E as E. apply (at_inj pos d ns vel Hvel) in E as [-> _]; auto.
Qed.
Lemma reads_cy x t e : length x = d -> tbound ns t -> sbound K ns e -> In (tdest x t) (reads x (cy_expr K pos d ns vel e)) -> in_sym t e.
Proof.
  intros L Ht. induction e as [c|k|k|k|k|j|o e IH|o e1 IH1 e2 IH2]; cbn [cy_expr reads sbound in_sym]; intros Hb H; auto.
  - destruct H as [H|[]]. destruct t; discriminate.
  - destruct H as [H|[]]. change (DArr 2 (addr x (here pos d 2 k)) = tdest x t) in H. rewrite (addr_here pos d x 2 k L) in H. destruct t as [i|i|i]; try discriminate. cbn in H. injection H as H. apply (at_inj pos d ns vel Hvel) in H as [-> _]; auto.
  - destruct H as [H|[]]. destruct t as [i|i|i]; try discriminate; cbn in H; injection H as H; [now subst|cbn in Ht; lia].
  - destruct H as [H|[]]. destruct t as [i|i|i]; try discriminate; cbn in H; injection H as H; [now subst|cbn in Ht; lia].
  - destruct H as [H|[]]. destruct t as [i|i|i]; try discriminate; cbn in H; injection H as H; [cbn in Ht; lia|f_equal; lia].
  - apply in_app_or in H. destruct Hb as [B1 B2]. destruct H as [H|H]; [left; now apply IH1|right; now apply IH2].
Qed.
Definition view_of (x : list Z) (st : arrays K * (nat -> K)) : view K :=
  mkView (fun k => fst st 0%nat (at_ k (shift_cell vel k x))) (fun k => fst st 2%nat (at_ k x)) (snd st) (fun j => snd st (ns + j)%nat).
Lemma seen_view x st : seen K pos ns vel x st (view_of x st).
Proof. split; [|split; [|split]]; reflexivity. Qed.
Lemma self_silent x s : length x = d -> bounded K ns s -> self s -> silent x (cy s).
Proof using Hvel.
  intros L [B1 B2] H st. rewrite dest_cy by exact L. unfold value. rewrite rhs_cy.
  rewrite (cy_eval K pos d ns vel Hvel x st (view_of x st) (snd s) L (seen_view x st) B2). rewrite (H (view_of x st)). destruct (fst s); reflexivity.
Qed.
Lemma kept_in b s : In s (kept b) -> In s b.
Proof using. intros H. apply filter_In in H. tauto. Qed.
Lemma kept_nodup {T} (f : sstmt K -> T) b : NoDup (map f b) -> NoDup (map f (kept b)).
Proof using.
  induction b as [|s b IH]; cbn; intros N; [constructor|]. inversion N as [|? ? N1 N2]. destruct (negb (drop s)); [|now apply IH]. cbn. constructor; [|now apply IH].
  intros I. apply in_map_iff in I as (t & E & Ht). apply kept_in in Ht. apply N1. rewrite <- E. now apply in_map.
Qed.
Lemma free_calm x b : length x = d -> Forall (bounded K ns) b -> free b -> calm x (map cy (kept b)).
Proof using Hvel.
  intros L B [F1 F2]. assert (Bd : forall s, In s (kept b) -> bounded K ns s) by (intros s Hs; apply (proj1 (Forall_forall _ _) B), kept_in, Hs). split.
  - rewrite map_map. pose proof (kept_nodup fst b F1) as N. revert N Bd. induction (kept b) as [|s l IH]; cbn; intros N Bd; [constructor|]. inversion N as [|? ? N1 N2]. constructor.
    + intros I. apply in_map_iff in I as (t & E & Ht). rewrite !dest_cy in E by exact L. apply tdest_inj in E; [|exact L|apply Bd; now right|apply Bd; now left].
      apply N1. rewrite <- E. now apply in_map.
    + apply IH; [assumption|]. intros t Ht. apply Bd. now right.
  - intros s' t' Hs Ht N R. apply in_map_iff in Hs as (s & <- & Hs). apply in_map_iff in Ht as (t & <- & Ht). rewrite !dest_cy in * by exact L. rewrite rhs_cy in R.
    destruct (Bd s Hs) as [S1 S2]. destruct (Bd t Ht) as [T1 T2]. apply self_silent; [exact L|now apply Bd|].
    apply (F2 s t); [now apply kept_in|now apply kept_in|intros E; now rewrite E in N|]. now apply (reads_cy x).
Qed.
Lemma kept_cell x sp : forall p st v, length x = d -> seen K pos ns vel x st v -> Forall (bounded K ns) sp -> Forall (fun s => drop s = true -> self s) sp -> Forall2 (stmt_rel K) sp p ->
  seen K pos ns vel x (ccell K (map cy (kept sp)) st x) (run p v).
Proof using Hvel.
  induction sp as [|s sp IH]; intros p st v Lx Hs Hb Hd Hr; inversion Hr as [|? r ? p' R1 R2]; subst p; [exact Hs|]. inversion Hb. inversion Hd as [|? ? HD1 HD2]. cbn [filter run fold_left].
  destruct (drop s) eqn:E; cbn [negb map ccell fold_left].
  - apply IH; try assumption. destruct R1 as [Er Ev]. pose proof (HD1 eq_refl v) as Hv. rewrite Ev, Er in Hv. destruct r as [t g]. cbn [fst snd] in *.
    destruct Hs as (S1 & S2 & S3 & S4). destruct t as [k|k|j]; unfold exec; cbn [fst snd vget] in *; rewrite Hv; (split; [|split; [|split]]); cbn [vf vfn vm vu]; try assumption; intros i; unfold updf.
    + intros Hi. destruct (Nat.eqb_spec i k) as [->|_]; now apply S2.
    + intros Hi. destruct (Nat.eqb_spec i k) as [->|_]; now apply S3.
    + destruct (Nat.eqb_spec i j) as [->|_]; apply S4.
  - apply IH; try assumption. now apply cy_exec.
Qed.
Lemma concat_kept bs : concat (map (fun b => map cy (kept b)) bs) = map cy (kept (concat bs)).
Proof using. induction bs as [|b bs IH]; [reflexivity|]. cbn. now rewrite IH, filter_app, map_app. Qed.

Section Run.
Variables (bs : list (list (sstmt K))) (cells : list (list Z)).
Notation k := (map (fun b => map cy (kept b)) bs).
Hypothesis HB : Forall (Forall (bounded K ns)) bs.
Hypothesis HF : Forall free bs.
(* the rows which are not printed are those equal to their right hand side *)
Hypothesis HD : forall s, In s (concat bs) -> drop s = true -> self s.
(* a row of each block is printed *)
Hypothesis HP : forall b, In b bs -> exists s, In s b /\ drop s = false.
Hypothesis HN : NoDup cells.
Hypothesis HL : forall x, In x cells -> length x = d.
Lemma all_bounded : Forall (bounded K ns) (concat bs).
Proof using HB. clear - HB. induction HB; [constructor|]. cbn. apply Forall_app. auto. Qed.
Lemma kernel_in s : In s (concat k) -> exists t, In t (concat bs) /\ s = cy t.
Proof using. rewrite concat_kept. intros H. apply in_map_iff in H as (t & <- & H). exists t. split; [now apply kept_in|reflexivity]. Qed.
Lemma kernel_writes x n p : length x = d -> writes k x n p -> n = 2%nat /\ exists i, (i < ns)%nat /\ p = at_ i x.
Proof using HB.
  intros L (s & Hs & E). apply kernel_in in Hs as (t & Ht & ->). rewrite dest_cy in E by exact L. destruct (proj1 (Forall_forall _ _) all_bounded t Ht) as [B _].
  destruct (fst t) as [i|i|i]; try discriminate. cbn in E, B. injection E as <- <-. eauto.
Qed.
Lemma kernel_reads x p : length x = d -> (exists s, In s (concat k) /\ In (DArr 2 p) (reads x (rhs_of s))) -> exists i, p = at_ i x.
Proof using HB.
  intros L (s & Hs & E). apply kernel_in in Hs as (t & Ht & ->). rewrite rhs_cy in E. revert E. clear - L.
  induction (snd t) as [c|i|i|i|i|j|o e IH|o e1 IH1 e2 IH2]; cbn [cy_expr reads]; intros H.
  - destruct H.
  - destruct H as [H|[]]. discriminate.
  - destruct H as [H|[]]. injection H as <-. exists i. exact (addr_here pos d x 2 i L).
  - destruct H as [H|[]]. discriminate.
  - destruct H as [H|[]]. discriminate.
  - destruct H as [H|[]]. discriminate.
  - now apply IH.
  - apply in_app_or in H. destruct H; auto.
Qed.
Lemma kernel_race : race_free k cells.
Proof using HB HL Hvel.
  intros x y n p Hx Hy N W T. apply (kernel_writes x) in W; [|now apply HL]. destruct W as (-> & i & Hi & ->).
  assert (E : exists j, at_ i x = at_ j y).
  { destruct T as [T|T]; [apply (kernel_writes y) in T; [|now apply HL]; destruct T as (_ & j & _ & E); eauto|]. apply (kernel_reads y) in T; [exact T|now apply HL]. }
  destruct E as (j & E). apply (at_inj pos d ns vel Hvel) in E; [tauto|now apply HL|now apply HL].
Qed.
Lemma kernel_calm x : In x cells -> Forall (calm x) k.
Proof using HB HF HL Hvel.
  intros Hx. apply Forall_forall. intros b' Hb. apply in_map_iff in Hb as (b & <- & Hb). apply free_calm; [now apply HL|now apply (proj1 (Forall_forall _ _) HB)|now apply (proj1 (Forall_forall _ _) HF)].
Qed.
Lemma kernel_full : Forall (fun b => b <> []) k.
Proof using HP.
  apply Forall_forall. intros b' Hb. apply in_map_iff in Hb as (b & <- & Hb). destruct (HP b Hb) as (s & Hs & E). intros E'. apply map_eq_nil in E'.
  assert (H : In s (kept b)) by (apply filter_In; now rewrite E). now rewrite E' in H.
Qed.
Lemma kernel_result p A A' : Forall2 (stmt_rel K) (concat bs) p -> result k cells A A' ->
  (forall x, In x cells -> exists v, (forall i, (i < ns)%nat -> vf v i = A 0%nat (at_ i (shift_cell vel i x))) /\ forall i, (i < ns)%nat -> A' 2%nat (at_ i x) = vfn (run p v) i) /\
  (forall n q, (n <> 2%nat \/ forall x i, In x cells -> (i < ns)%nat -> q <> at_ i x) -> A' n q = A n q).
Proof using HD HB HF HP HN HL Hvel.
  intros Hr R. destruct (result_at K k cells A A' HN kernel_race kernel_full kernel_calm R) as (L0 & H1 & H2). split.
  - intros x Hx. set (v := view_of x (A, L0 x)). exists v. split; [reflexivity|]. intros i Hi. rewrite (H1 x).
    + rewrite concat_kept. pose proof (kept_cell x (concat bs) p (A, L0 x) v (HL x Hx) (seen_view x _) all_bounded (proj2 (Forall_forall _ _) HD) Hr) as (_ & S2 & _). now apply S2.
    + exact Hx.
    + intros y Hy N W. apply (kernel_writes y) in W; [|now apply HL]. destruct W as (_ & j & _ & E). apply (at_inj pos d ns vel Hvel) in E; [|now apply HL|now apply HL]. destruct E. congruence.
  - intros n q N. apply H2. intros x Hx W. apply (kernel_writes x) in W; [|now apply HL]. destruct W as (-> & i & Hi & ->). destruct N as [N|N]; [now apply N|now apply (N x i)].
Qed.
End Run.
End Print.

(* ------------------------------------------------- the time step *)
Section Kernels.
Variables (K : ring) (a : salgo K) (drop : sstmt K -> bool) (pos : nat) (vmax sizes : list Z) (vel : nat -> list Z) (sh : nat -> list Z).
Notation n := (sa_n K a).
Notation al := (algo_of K a).
Notation rs := (inner_ranges vmax sizes).
Hypothesis G : pull_grid pos n vmax sizes vel sh.
Hypothesis S : scheme_ok K a.
Hypothesis HU : uncoupled a.
Hypothesis HS : still a.
Notation sound bs := (forall s, In s (concat bs) -> drop s = true -> self s).
Notation printed bs := (forall b, In b bs -> exists s, In s b /\ drop s = false).
Notation kernel bs := (lblocks a drop pos (length sizes) vel bs).

Lemma bounded_blocks bs : Forall (bounded K n) (concat bs) -> Forall (Forall (bounded K n)) bs.
Proof using. induction bs as [|b bs IH]; cbn; [constructor|]. intros H. apply Forall_app in H as [H1 H2]. constructor; auto. Qed.
Lemma cells_len x : In x (nest rs) -> length x = length sizes.
Proof using G. intros H. apply nest_in, inbox_length in H. rewrite H. exact (inner_length _ _ (gr_halo _ _ _ _ _ _ G)). Qed.

(* Whatever the order of the work items and of the rows of a block, fnew is the step of the scheme. *)
Theorem C76_step A A' : sound (lpull a) -> printed (lpull a) -> result (kernel (lpull a)) (nest rs) A A' ->
  (forall x k, inbox rs x -> (k < n)%nat -> elt K pos A' 2 x k = pull_fun K al (fun j => elt K pos A 0 (from vel x j) j) k) /\
  only_changes K a pos vmax sizes [2%nat] A A'.
Proof using G S HU HS.
  intros HD P R. destruct (scheme_algo K a S) as (He & Hs & HR).
  assert (PB : Forall (bounded K n) (spull K a)) by (apply (parts_bounded K a true), parts_pull; [exact S|discriminate]).
  destruct (kernel_result K drop pos (length sizes) n vel (grid_len K a pos vmax sizes vel sh G) (lpull a) (nest rs)) with (p := pull_local al) (A := A) (A' := A') as [H1 H2].
  - apply bounded_blocks. now rewrite concat_pull.
  - now apply free_pull.
  - exact HD.
  - exact P.
  - apply nest_NoDup.
  - exact cells_len.
  - rewrite concat_pull. apply rel_pull.
  - exact R.
  - split.
    + intros x k Hx Hk. destruct (H1 x (proj2 (nest_in rs x) Hx)) as (v & V1 & V2). unfold elt. rewrite (V2 k Hk : A' 2%nat (ins pos (Z.of_nat k) x) = _). destruct v as [f fn m u]. cbn in V1.
      transitivity (pull_fun K al f k); [apply (pull_computes K al He Hs HR); exact Hk|]. apply (pull_fun_agree K al _ _ He Hs HR); [|exact Hk]. intros j Hj. apply V1. exact Hj.
    + intros nm q N. apply H2. destruct (Nat.eq_dec nm 2) as [->|Ne]; [right|now left]. intros x i Hx Hi E. apply N. split; [now left|]. exists x, i. split; [now apply nest_in|auto].
Qed.
(* The same with the base algorithm, without relative velocity. *)
Theorem C76_base A A' : sa_relvel K a = None -> sound (lbase a) -> printed (lbase a) -> result (kernel (lbase a)) (nest rs) A A' ->
  (forall x k, inbox rs x -> (k < n)%nat -> elt K pos A' 2 x k = collide K al (fun j => elt K pos A 0 (from vel x j) j) k) /\
  only_changes K a pos vmax sizes [2%nat] A A'.
Proof using G S HU HS.
  intros R0 HD P R. destruct (scheme_algo K a S) as (He & Hs & HR). assert (R' : al_relvel al = None) by (cbn; now rewrite R0).
  assert (PB : Forall (bounded K n) (sbase K a)) by (apply (parts_bounded K a true), parts_base; [exact S|discriminate]).
  destruct (kernel_result K drop pos (length sizes) n vel (grid_len K a pos vmax sizes vel sh G) (lbase a) (nest rs)) with (p := base_local al) (A := A) (A' := A') as [H1 H2].
  - apply bounded_blocks. now rewrite concat_base.
  - now apply free_base.
  - exact HD.
  - exact P.
  - apply nest_NoDup.
  - exact cells_len.
  - rewrite concat_base. apply rel_base.
  - exact R.
  - split.
    + intros x k Hx Hk. destruct (H1 x (proj2 (nest_in rs x) Hx)) as (v & V1 & V2). unfold elt. rewrite (V2 k Hk : A' 2%nat (ins pos (Z.of_nat k) x) = _).
      transitivity (collide K al (vf v) k); [apply (base_spec K al v R' He Hs); exact Hk|].
      rewrite <- (pull_fun_collide K al (vf v) He Hs R' k Hk), <- (pull_fun_collide K al _ He Hs R' k Hk).
      apply (pull_fun_agree K al _ _ He Hs HR); [|exact Hk]. intros j Hj. apply V1. exact Hj.
    + intros nm q N. apply H2. destruct (Nat.eq_dec nm 2) as [->|Ne]; [right|now left]. intros x i Hx Hi E. apply N. split; [now left|]. exists x, i. split; [now apply nest_in|auto].
Qed.
End Kernels.
Print Assumptions C76_step.
Print Assumptions C76_base.

(* ------------------------------------------------- the orders of one work item *)
Section Orders.
Variable V : Type.
Lemma lin_perm (k k' : kernel V) : Forall (fun b => b <> []) k -> Forall2 (@Permutation _) k k' -> lin V k (concat k').
Proof. intros N P. exists [[]]. split; [|now constructor]. rewrite (chains_one V k N). exact (taken_chain V [k] [] [] k k' P [] (T0 V [k])). Qed.
Lemma perms_refl (k : kernel V) : Forall2 (@Permutation _) k k.
Proof. induction k; constructor; auto. Qed.
(* the blocks after an empty one may be run first *)
Lemma lin_cut (k1 k2 : kernel V) : Forall (fun b => b <> []) k1 -> Forall (fun b => b <> []) k2 -> lin V (k1 ++ [] :: k2) (concat k2 ++ concat k1).
Proof.
  intros N1 N2. assert (E : chains (k1 ++ [] :: k2) = [k1; k2]).
  { induction N1 as [|b k H _ IH]; cbn; [now rewrite (chains_one V k2 N2)|]. destruct b; [congruence|]. now rewrite IH. }
  exists [[]; []]. split; [|repeat constructor]. rewrite E.
  pose proof (taken_chain V [k1; k2] [k1] [] k2 k2 (perms_refl k2) [] (T0 V _)) as T. cbn in T.
  exact (taken_chain V [k1; k2] [] [[]] k1 k1 (perms_refl k1) _ T).
Qed.
End Orders.

(* ------------------------------------------------- what may go wrong *)
Definition all_printed : sstmt Zring -> bool := fun _ => false.
Definition vel0 (_ : nat) : list Z := [0].
Definition one_cell (n : nat) : Prop := pull_grid 0 n [1] [3] vel0 (fun _ => ins 0 (Z.of_nat n) [3]).
Lemma one_grid n : one_cell n.
Proof. constructor; [cbn; lia|constructor; [lia|constructor]| |reflexivity]. intros l Hl. constructor; [cbn; lia|constructor]. Qed.
(* Two sources which read each other's moment are rows of one block: two runs of the kernel
   differ.  (rows exchanged in the block of the source after the relaxation) *)
Theorem C76_coupled_refuted : exists a A A1 A2 x k, scheme_ok Zring a /\ sa_relvel Zring a = None /\ one_cell (sa_n Zring a) /\
  let kn := lblocks a all_printed 0 1 vel0 (lpull a) in
  result kn (nest (inner_ranges [1] [3])) A A1 /\ result kn (nest (inner_ranges [1] [3])) A A2 /\
  inbox (inner_ranges [1] [3]) x /\ (k < sa_n Zring a)%nat /\
  elt Zring 0 A1 2 x k = pull_fun Zring (algo_of Zring a) (fun j => elt Zring 0 A 0 (from vel0 x j) j) k /\
  elt Zring 0 A2 2 x k <> elt Zring 0 A1 2 x k.
Proof.
  set (a := sch false (Num (K := Zring) 1) [(0%nat, Var 1); (1%nat, Var 0)]). set (kn := lblocks a all_printed 0 1 vel0 (lpull a)).
  assert (NE : Forall (fun b => b <> []) kn) by (repeat constructor; discriminate).
  set (k2 := firstn 3 kn ++ [rev (nth 3 kn [])] ++ skipn 4 kn).
  assert (P2 : Forall2 (@Permutation _) kn k2) by (unfold kn, k2; cbn; repeat (constructor; [first [apply Permutation_refl | apply perm_swap]|]); constructor).
  exists a, Az, (fst (fold_left (cexec Zring [1]) (concat kn) (Az, fun _ => 0))), (fst (fold_left (cexec Zring [1]) (concat k2) (Az, fun _ => 0))), [1], 1%nat.
  split; [|split; [reflexivity|split; [apply one_grid|split; [|split; [|split; [|split; [|split]]]]]]].
  - apply sch_ok; [intros i []|]. intros k g [E|[E|[]]]; injection E as <- <-; intros i [<-|[]]; lia.
  - change (nest (inner_ranges [1] [3])) with [[1]]. apply lin_result. apply lin_perm; [exact NE|apply perms_refl].
  - change (nest (inner_ranges [1] [3])) with [[1]]. apply lin_result. now apply lin_perm.
  - repeat constructor; cbn; lia.
  - cbn. lia.
  - vm_compute. reflexivity.
  - vm_compute. discriminate.
Qed.
(* A relaxation parameter of a conserved moment with a relative velocity: the row of this moment
   writes what the other rows read.  m0 = f0 + f1 + f2 and m1 conserved, the velocity m0. *)
Definition sch3 : salgo Zring :=
  mkSalgo Zring 3 2 1 (mat2 [[1; 0; 0]; [0; 1; 0]; [0; 0; 1]]) (mat2 [[1; 0; 0]; [0; 1; 0]; [0; 0; 1]])
    (fun i j => match i, j with 1%nat, 0%nat => Un zopp (Var 0) | _, _ => Num (K := Zring) (if Nat.eqb i j then 1 else 0) end)
    (fun k => match k with O => Var 0 | 1%nat => Var 1 | _ => Bin zmul (Var 1) (Var 1) end)
    (fun k => match k with O => Num (K := Zring) 0 | _ => Num (K := Zring) 1 end)
    (Some (fun _ => Bin zadd (Var 0) (Num (K := Zring) 1))) [] 1.
Lemma sch3_ok : scheme_ok Zring sch3.
Proof.
  constructor; cbn.
  - lia.
  - intros k Hk i Hi. destruct k as [|[|[|k]]]; cbn in Hi; lia.
  - intros k Hk. destruct k as [|[|k]]; [reflexivity|reflexivity|lia].
  - intros k Hk. destruct k as [|k]; intros i [].
  - intros r j E Hj. injection E as <-. intros i [<-|[]]. lia.
  - intros i j Hi Hj k Hk. destruct i as [|[|i]], j as [|j]; cbn in Hk; tauto || (destruct Hk as [<-|[]]; lia).
  - intros k g [].
Qed.
Theorem C76_moving_refuted : exists a A A1 A2 x k, scheme_ok Zring a /\ sa_source Zring a = [] /\ one_cell (sa_n Zring a) /\
  let kn := lblocks a all_printed 0 1 vel0 (lpull a) in
  result kn (nest (inner_ranges [1] [3])) A A1 /\ result kn (nest (inner_ranges [1] [3])) A A2 /\
  inbox (inner_ranges [1] [3]) x /\ (k < sa_n Zring a)%nat /\ elt Zring 0 A2 2 x k <> elt Zring 0 A1 2 x k.
Proof.
  set (a := sch3). set (kn := lblocks a all_printed 0 1 vel0 (lpull a)).
  assert (NE : Forall (fun b => b <> []) kn) by (repeat constructor; discriminate).
  set (k2 := firstn 3 kn ++ [rev (nth 3 kn [])] ++ skipn 4 kn).
  assert (P2 : Forall2 (@Permutation _) kn k2) by (unfold kn, k2; cbn; repeat (constructor; [first [apply Permutation_refl | apply Permutation_rev]|]); constructor).
  exists a, Az, (fst (fold_left (cexec Zring [1]) (concat kn) (Az, fun _ => 0))), (fst (fold_left (cexec Zring [1]) (concat k2) (Az, fun _ => 0))), [1], 2%nat.
  split; [exact sch3_ok|split; [reflexivity|split; [apply one_grid|split; [|split; [|split; [|split]]]]]].
  - change (nest (inner_ranges [1] [3])) with [[1]]. apply lin_result. apply lin_perm; [exact NE|apply perms_refl].
  - change (nest (inner_ranges [1] [3])) with [[1]]. apply lin_result. now apply lin_perm.
  - repeat constructor; cbn; lia.
  - cbn. lia.
  - vm_compute. discriminate.
Qed.
(* All the relaxation parameters are 0: the rows of the relaxation are not printed, the block is
   empty, and the distributions may be written before the moments are computed. *)
Definition drop_relaxation (s : sstmt Zring) : bool := match s with (TM _, YBin _ (YBin _ (YBin _ _ _) _) _) => true | _ => false end.
Theorem C76_empty_block_refuted : exists a drop A A' x k, scheme_ok Zring a /\ uncoupled a /\ still a /\ one_cell (sa_n Zring a) /\
  (forall s, In s (concat (lpull a)) -> drop s = true -> self s) /\
  result (lblocks a drop 0 1 vel0 (lpull a)) (nest (inner_ranges [1] [3])) A A' /\ inbox (inner_ranges [1] [3]) x /\ (k < sa_n Zring a)%nat /\
  elt Zring 0 A' 2 x k <> pull_fun Zring (algo_of Zring a) (fun j => elt Zring 0 A 0 (from vel0 x j) j) k.
Proof.
  set (a := sch false (Num (K := Zring) 0) []). set (kn := lblocks a drop_relaxation 0 1 vel0 (lpull a)).
  exists a, drop_relaxation, Az, (fst (fold_left (cexec Zring [1]) (nth 2 kn [] ++ nth 0 kn []) (Az, fun _ => 0))), [1], 0%nat.
  split; [|split; [intros k g i []|split; [now left|split; [apply one_grid|split; [|split; [|split; [|split]]]]]]].
  - apply sch_ok; [intros i []|intros k g []].
  - intros s [<-|[<-|[<-|[<-|[<-|[<-|[]]]]]]] E v; try discriminate E; destruct v as [vf' vn' m' u']; cbn; [destruct (m' 0%nat)|destruct (m' 1%nat)]; reflexivity.
  - change (nest (inner_ranges [1] [3])) with [[1]]. apply lin_result. fold kn. pose proof (lin_cut Zring [nth 0 kn []] [nth 2 kn []]) as H. cbn [app concat] in H. rewrite !app_nil_r in H.
    apply H; repeat constructor; discriminate.
  - repeat constructor; cbn; lia.
  - cbn. lia.
  - vm_compute. discriminate.
Qed.
Print Assumptions C76_coupled_refuted.
Print Assumptions C76_moving_refuted.
Print Assumptions C76_empty_block_refuted.

(* A scheme with relative velocity and a source, five cells: all the hypotheses hold, and the
   value at a cell. *)
Example C76_example :
  let a := sch true (Num (K := Zring) 2) [(1%nat, Var 0)] in
  let kn := lblocks a all_printed 0 1 velz (lpull a) in
  scheme_ok Zring a /\ uncoupled a /\ still a /\ pull_grid 0 (sa_n Zring a) [1] [5] velz (shz 0) /\
  (forall b, In b (lpull a) -> exists s, In s b /\ all_printed s = false) /\ length kn = 8%nat /\
  (exists A', result kn (nest (inner_ranges [1] [5])) Az A') /\
  forall A', result kn (nest (inner_ranges [1] [5])) Az A' -> A' 2%nat [1; 2] = 195.
Proof.
  set (a := sch true (Num (K := Zring) 2) [(1%nat, Var 0)]). cbv zeta.
  assert (S : scheme_ok Zring a) by (apply sch_ok; [intros i []|]; intros k g [E|[]]; injection E as <- <-; intros i [<-|[]]; lia).
  assert (U : uncoupled a) by (intros k g i [E|[]] Hi N; injection E as <- <-; destruct Hi as [<-|[]]; cbn; intros [|[]]; discriminate).
  assert (T : still a) by (right; intros k m Hk; cbn in Hk; assert (k = 0%nat) as -> by lia; reflexivity).
  assert (P : forall b, In b (lpull a) -> exists s, In s b /\ all_printed s = false).
  { assert (H : Forall (fun b => b <> []) (lpull a)) by (repeat constructor; discriminate). intros b Hb. pose proof (proj1 (Forall_forall _ _) H b Hb) as Hn.
    destruct b as [|s b]; [congruence|]. exists s. split; [now left|reflexivity]. }
  repeat (split; [first [assumption | exact sch_grid | reflexivity | apply has_result]|]).
  intros A' R. destruct (C76_step Zring a all_printed 0 [1] [5] velz (shz 0) sch_grid S U T Az A') as [H _]; [discriminate|exact P|exact R|].
  transitivity (elt Zring 0 A' 2 [2] 1); [reflexivity|]. rewrite H; [vm_compute; reflexivity|repeat constructor; cbn; lia|cbn; lia].
Qed.
