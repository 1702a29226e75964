(* Lemmas on the statements of the algorithms and on their printing. *)
From Verif Require Import PyBase VelocityModel GridModel StorageModel ExchangeProofs LinAlg AlgoModel AlgoProofs GlobalModel GlobalProofs GenModel GenProofs GenProps StepGenModel.
Require Import Lia.
Open Scope Z_scope.

Section StepP.
Variable K : arith.
Implicit Types (e : sym K) (v w : view K) (A : arrays K).

(* ------------------------------------------------------------------ the expressions stand for the formulas *)
Definition stmt_rel (s : sstmt K) (r : AlgoModel.stmt K) : Prop := fst s = fst r /\ forall v, seval K v (snd s) = snd r v.

Lemma seval_tsub v s t : seval K v (tsub K s t) = teval K (fun i => seval K v (s i)) t.
Proof. induction t; cbn; try congruence; reflexivity. Qed.
Lemma seval_sum v n g : seval K v (ysum K n g) = sum n (fun j => seval K v (g j)).
Proof. unfold ysum, sum, sumL. induction (seq 0 n) as [|j l IH]; cbn; [reflexivity|]. now rewrite IH. Qed.
Lemma seval_mv v n M f i : seval K v (ymv K n M f i) = mvmul n (fun i j => seval K v (M i j)) (fun j => seval K v (f j)) i.
Proof. unfold ymv. rewrite seval_sum. reflexivity. Qed.
Lemma seval_mm v n M N i k : seval K v (ymm K n M N i k) = mmul n (fun i j => seval K v (M i j)) (fun i j => seval K v (N i j)) i k.
Proof. unfold ymm. rewrite seval_sum. reflexivity. Qed.
Lemma assign_rel t lo hi (e : nat -> sym K) (e' : view K -> vec K) : (forall v k, seval K v (e k) = e' v k) ->
  Forall2 stmt_rel (sassign K t lo hi e) (assign t lo hi e').
Proof.
  intros H. unfold sassign, assign. induction (seq lo (hi - lo)) as [|k l IH]; cbn; constructor; [|exact IH].
  split; [reflexivity|]. intros v. apply H.
Qed.
Lemma mvmul_ext2 n (M N : mat K) (f g : vec K) i : (forall j, M i j = N i j) -> (forall j, f j = g j) -> mvmul n M f i = mvmul n N g i.
Proof. intros H1 H2. unfold mvmul, sum. apply sumL_ext. intros j _. now rewrite H1, H2. Qed.

Variable a : salgo K.
Notation al := (algo_of K a).

Lemma eval_Tu v i j : seval K v (yTu K a i j) = al_Tu al (vu v) i j.
Proof. unfold yTu. rewrite seval_tsub. reflexivity. Qed.
Lemma eval_Tmu v i j : seval K v (yTmu K a i j) = al_Tu al (vopp (vu v)) i j.
Proof. unfold yTmu. rewrite seval_tsub. reflexivity. Qed.
Lemma eval_Mu v i j : seval K v (yMu K a i j) = al_Mu al (vu v) i j.
Proof. unfold yMu. rewrite seval_mm. unfold al_Mu, mmul, sum. apply sumL_ext. intros k _. now rewrite eval_Tu. Qed.
Lemma eval_invMu v i j : seval K v (yinvMu K a i j) = al_invMu al (vu v) i j.
Proof. unfold yinvMu. rewrite seval_mm. unfold al_invMu, mmul, sum. apply sumL_ext. intros k _. now rewrite eval_Tmu. Qed.
Lemma eval_eq v k : seval K v (yeq K a k) = al_eq al (vm v) k.
Proof. unfold yeq. rewrite seval_tsub. reflexivity. Qed.
Lemma eval_s v k : seval K v (ys K a k) = al_s al (vm v) k.
Proof. unfold ys. rewrite seval_tsub. reflexivity. Qed.

Lemma rel_transport : Forall2 stmt_rel (stransport K a) (transport_local al).
Proof. apply assign_rel. reflexivity. Qed.
Lemma rel_f2m src (src' : view K -> vec K) : (forall v k, seval K v (src k) = src' v k) -> Forall2 stmt_rel (sf2m K a src) (f2m_local al src').
Proof.
  intros H. unfold sf2m, f2m_local. cbn [algo_of al_relvel]. destruct (sa_relvel K a) as [rel|]; cbn [option_map].
  - apply Forall2_app; [|apply Forall2_app]; apply assign_rel; intros v k.
    + rewrite seval_mv. apply mvmul_ext2; [reflexivity|intros j; apply H].
    + rewrite seval_tsub. reflexivity.
    + rewrite seval_mv. apply mvmul_ext2; [intros j; apply eval_Mu|intros j; apply H].
  - apply assign_rel. intros v k. rewrite seval_mv. apply mvmul_ext2; [reflexivity|intros j; apply H].
Qed.
Lemma rel_m2f : Forall2 stmt_rel (sm2f K a) (m2f_local al).
Proof.
  unfold sm2f, m2f_local. cbn [algo_of al_relvel]. destruct (sa_relvel K a) as [rel|]; cbn [option_map]; apply assign_rel; intros v k; rewrite seval_mv; apply mvmul_ext2; try reflexivity.
  intros j. apply eval_invMu.
Qed.
Lemma rel_equilibrium : Forall2 stmt_rel (sequilibrium K a) (equilibrium_local al).
Proof. apply assign_rel. exact eval_eq. Qed.
Lemma rel_relaxation : Forall2 stmt_rel (srelaxation K a) (relaxation_local al).
Proof.
  unfold srelaxation, relaxation_local. cbn [algo_of al_relvel]. destruct (sa_relvel K a) as [rel|]; cbn [option_map]; apply assign_rel; intros v k; cbn [seval yadd ymul ysub]; rewrite !eval_s.
  - rewrite seval_mv. do 2 f_equal. apply mvmul_ext2; [intros j; apply eval_Tu|intros j; apply eval_eq].
  - rewrite eval_eq. reflexivity.
Qed.
Lemma rel_source_of k : source_of al k = option_map (fun g m => teval K m g) (ssource_of K a k).
Proof.
  unfold source_of, ssource_of. cbn [algo_of al_source]. rewrite <- map_rev. induction (rev (sa_source K a)) as [|[i g] l IH]; [reflexivity|].
  cbn. destruct (Nat.eqb i k); [reflexivity|exact IH].
Qed.
Lemma rel_source : Forall2 stmt_rel (ssource K a) (source_term_local al).
Proof.
  apply assign_rel. intros v k. rewrite rel_source_of. destruct (ssource_of K a k) as [g|]; cbn; [|reflexivity].
  rewrite seval_tsub. reflexivity.
Qed.
Lemma rel_with_source : Forall2 stmt_rel (swith_source K a) (with_source al).
Proof. unfold swith_source, with_source. pose proof rel_source as H. cbn [algo_of al_source]. destruct (sa_source K a); cbn [map]; [constructor|exact H]. Qed.
Lemma rel_restore : Forall2 stmt_rel (srestore K a) (restore_conserved_moments al vf).
Proof. apply assign_rel. intros v k. rewrite seval_mv. apply mvmul_ext2; [intros j; apply eval_Mu|reflexivity]. Qed.
Lemma rel_pull : Forall2 stmt_rel (spull K a) (pull_local al).
Proof.
  unfold spull, pull_local. apply Forall2_app; [apply rel_f2m; reflexivity|].
  apply Forall2_app; [apply rel_with_source|]. apply Forall2_app; [apply rel_relaxation|].
  apply Forall2_app; [|apply Forall2_app; [apply rel_with_source|apply rel_m2f]].
  cbn [algo_of al_relvel]. destruct (sa_relvel K a); cbn [option_map]; [apply rel_restore|constructor].
Qed.
Lemma rel_base : Forall2 stmt_rel (sbase K a) (base_local al).
Proof.
  unfold sbase, base_local. apply Forall2_app; [apply rel_transport|]. apply Forall2_app; [apply rel_f2m; reflexivity|].
  apply Forall2_app; [apply rel_with_source|]. apply Forall2_app; [apply rel_relaxation|].
  apply Forall2_app; [apply rel_with_source|apply rel_m2f].
Qed.
End StepP.

(* ------------------------------------------------------------------ the printed statements *)
Section PrintP.
Variable K : arith.
Implicit Types (e : sym K) (v w : view K) (A B : arrays K).
Variables (pos d ns : nat) (vel : nat -> list Z).
Hypothesis Hvel : forall k, (k < ns)%nat -> length (vel k) = d.

(* the components are the ns components of the arrays *)
Fixpoint sbound e : Prop := match e with
  | YNum _ | YVel _ => True
  | YOld k | YNew k | YMom k | YMv k => (k < ns)%nat
  | YUn _ e => sbound e
  | YBin _ e1 e2 => sbound e1 /\ sbound e2
  end.
Definition tbound (t : target) : Prop := match t with TFn k | TM k => (k < ns)%nat | TU _ => True end.
Definition bounded (s : sstmt K) : Prop := tbound (fst s) /\ sbound (snd s).

Definition at_ (k : nat) (y : list Z) : list Z := ins pos (Z.of_nat k) y.
Lemma at_inj k j x y : length x = d -> length y = d -> at_ k x = at_ j y -> k = j /\ x = y.
Proof.
  intros Lx Ly E. assert (x = y) by (apply (ins_inj pos (Z.of_nat k) (Z.of_nat j)); [congruence|exact E]). subst y.
  split; [|reflexivity]. apply ins_val in E. lia.
Qed.
Lemma shifted_sub x c : length x = length c -> GenProofs.shifted x (map Z.opp c) = map2 Z.sub x c.
Proof. revert c. induction x as [|b x IH]; intros [|b' c] L; try discriminate; [reflexivity|]. cbn in *. rewrite IH by lia. f_equal. Qed.
Lemma addr_f x k : length x = d -> (k < ns)%nat -> addr x (f_at pos vel k) = at_ k (shift_cell vel k x).
Proof using Hvel.
  intros Lx Hk. unfold f_at. rewrite addr_indexed by (rewrite map_length, Hvel; assumption). rewrite shifted_sub by (rewrite Hvel; assumption). reflexivity.
Qed.
Lemma addr_here x nm k : length x = d -> addr x (here pos d nm k) = at_ k x.
Proof. intros Lx. unfold here. rewrite addr_indexed by (rewrite repeat_length; exact Lx). rewrite <- Lx, shifted_zero. reflexivity. Qed.

(* ---- Cython, one cell ---- *)
Definition seen (x : list Z) (st : arrays K * (nat -> K)) v : Prop :=
  (forall k, (k < ns)%nat -> fst st 0%nat (at_ k (shift_cell vel k x)) = vf v k) /\
  (forall k, (k < ns)%nat -> fst st 2%nat (at_ k x) = vfn v k) /\
  (forall k, (k < ns)%nat -> snd st k = vm v k) /\
  (forall j, snd st (ns + j)%nat = vu v j).
Lemma cy_eval x st v e : length x = d -> seen x st v -> sbound e -> ceval K (fst st) (snd st) x (cy_expr K pos d ns vel e) = seval K v e.
Proof using Hvel.
  intros Lx (S1 & S2 & S3 & S4). induction e; cbn [cy_expr ceval seval sbound]; intros Hb; auto.
  - unfold f_at at 1. cbn [a_name indexed_at]. rewrite addr_f by assumption. now apply S1.
  - unfold fnew_at. rewrite addr_here by exact Lx. now apply S2.
  - now rewrite IHe.
  - now rewrite IHe1, IHe2.
Qed.
Lemma cy_exec x st v s r : length x = d -> seen x st v -> bounded s -> stmt_rel K s r ->
  seen x (cexec K x st (cy_stmt K pos d ns vel s)) (exec v r).
Proof using Hvel.
  intros Lx Hs [Ht Hb] [Er Ev]. destruct s as [t e], r as [t' g]. cbn [fst snd] in *. subst t'.
  pose proof (cy_eval x st v e Lx Hs Hb) as E. rewrite Ev in E. destruct Hs as (S1 & S2 & S3 & S4).
  destruct t as [k|k|j]; cbn [cy_stmt fst snd cexec exec tbound] in *; rewrite E.
  - unfold fnew_at. rewrite addr_here by exact Lx. split; [|split; [|split; assumption]]; cbn [fst snd vf vfn].
    + intros i Hi. rewrite store_other by (cbn; intros [H _]; discriminate). now apply S1.
    + intros i Hi. unfold updf. destruct (Nat.eqb_spec i k) as [->|N].
      * now rewrite store_same.
      * rewrite store_other; [now apply S2|]. intros [_ H]. apply at_inj in H; [tauto|exact Lx|exact Lx].
  - split; [exact S1|]. split; [exact S2|]. split; cbn [fst snd vm vu].
    + intros i Hi. unfold updf. destruct (Nat.eqb i k); [reflexivity|now apply S3].
    + intros j. rewrite updf_other by lia. apply S4.
  - split; [exact S1|]. split; [exact S2|]. split; cbn [fst snd vm vu].
    + intros i Hi. rewrite updf_other by lia. now apply S3.
    + intros i. unfold updf. destruct (Nat.eqb_spec (ns + i) (ns + j)) as [H|H], (Nat.eqb_spec i j) as [H'|H']; try lia; [reflexivity|apply S4].
Qed.
Lemma cy_cell x sp : forall p st v, length x = d -> seen x st v -> Forall bounded sp -> Forall2 (stmt_rel K) sp p ->
  seen x (ccell K (map (cy_stmt K pos d ns vel) sp) st x) (run p v).
Proof using Hvel.
  induction sp as [|s sp IH]; intros p st v Lx Hs Hb Hr; inversion Hr; subst p; [exact Hs|]. inversion Hb.
  cbn [map ccell fold_left run]. apply IH; [exact Lx|now apply cy_exec|assumption|assumption].
Qed.
(* a cell writes fnew at this cell only *)
Lemma cy_frame x sp st : length x = d -> Forall bounded sp -> forall nm q, (nm <> 2%nat \/ forall k, (k < ns)%nat -> q <> at_ k x) ->
  fst (ccell K (map (cy_stmt K pos d ns vel) sp) st x) nm q = fst st nm q.
Proof.
  intros Lx Hb nm q N. apply cell_frame. intros w Hw [E1 E2]. unfold sets in Hw. apply in_flat_map in Hw as (s' & H1 & H2).
  apply in_map_iff in H1 as (s & <- & Hs). pose proof (proj1 (Forall_forall _ _) Hb s Hs) as [Ht _].
  destruct s as [[k|k|j] e]; cbn in H2; try contradiction. destruct H2 as [<-|[]]. cbn in Ht.
  assert (E3 : q = at_ k x) by (rewrite E2; exact (addr_here x 2 k Lx)). cbn in E1. destruct N as [N|N]; [now apply N|]. now apply (N k).
Qed.

(* ---- Cython, the loop ---- *)
Definition run_seen (A0 : arrays K) (st : arrays K * (nat -> K)) (gst : field K (list Z) * (vec K * vec K)) : Prop :=
  (forall q, fst st 0%nat q = A0 0%nat q) /\
  (forall y k, length y = d -> (k < ns)%nat -> fst st 2%nat (at_ k y) = fst gst y k) /\
  (forall k, (k < ns)%nat -> snd st k = fst (snd gst) k) /\
  (forall j, snd st (ns + j)%nat = snd (snd gst) j).
Lemma cy_loop A0 sp p : Forall bounded sp -> Forall2 (stmt_rel K) sp p -> forall cells, (forall x, In x cells -> length x = d) ->
  forall st gst, run_seen A0 st gst ->
  run_seen A0 (cython K (map (cy_stmt K pos d ns vel) sp) cells st)
    (cython_loop list_eqb (shift_cell vel) p cells (field_of K pos (A0 0%nat)) gst).
Proof using Hvel.
  intros Hb Hr. induction cells as [|x cells IH]; intros Hc st gst R; [exact R|]. cbn [cython cython_loop fold_left].
  apply IH; [intros y Hy; apply Hc; now right|]. assert (Lx : length x = d) by (apply Hc; now left).
  destruct gst as [fnew [m u]]. destruct R as (R0 & R1 & R2 & R3). cbn [fst snd] in *.
  assert (S : seen x st (view_at (shift_cell vel) (field_of K pos (A0 0%nat)) fnew m u x)).
  { split; [|split; [|split]]; cbn [view_at vf vfn vm vu]; try assumption.
    - intros k Hk. rewrite R0. reflexivity.
    - intros k Hk. now apply R1. }
  pose proof (cy_cell x sp p _ _ Lx S Hb Hr) as (T1 & T2 & T3 & T4). cbn [cython_cell]. split; [|split; [|split; assumption]].
  - intros q. rewrite cy_frame by (try assumption; left; discriminate). apply R0.
  - intros y k Ly Hk. cbn [fst]. destruct (list_eqb y x) eqn:E.
    + apply list_eqb_spec in E. subst y. now apply T2.
    + assert (y <> x) by (intros ->; rewrite (proj2 (list_eqb_spec x x) eq_refl) in E; discriminate).
      rewrite cy_frame; [now apply R1|exact Lx|exact Hb|]. right. intros j _ H'. apply at_inj in H'; [tauto|exact Ly|exact Lx].
Qed.
Lemma cy_loop_frame sp : Forall bounded sp -> forall cells, (forall x, In x cells -> length x = d) ->
  forall st nm q, (nm <> 2%nat \/ forall x k, In x cells -> (k < ns)%nat -> q <> at_ k x) ->
  fst (cython K (map (cy_stmt K pos d ns vel) sp) cells st) nm q = fst st nm q.
Proof.
  intros Hb. induction cells as [|x cells IH]; intros Hc st nm q N; [reflexivity|]. cbn [cython fold_left]. unfold cython in IH. rewrite IH.
  - apply cy_frame; [apply Hc; now left|exact Hb|]. destruct N as [N|N]; [now left|right]. intros k Hk. apply N; [now left|exact Hk].
  - intros y Hy. apply Hc. now right.
  - destruct N as [N|N]; [now left|right]. intros y k Hy. apply N. now right.
Qed.

(* ---- NumPy ---- *)
(* no element of mv is left *)
Fixpoint nomv e : Prop := match e with
  | YMv _ => False
  | YUn _ e => nomv e
  | YBin _ e1 e2 => nomv e1 /\ nomv e2
  | _ => True
  end.
Fixpoint vels e : list nat := match e with
  | YVel j => [j]
  | YUn _ e => vels e
  | YBin _ e1 e2 => vels e1 ++ vels e2
  | _ => []
  end.
(* the relative velocity is computed before it is used *)
Fixpoint defined (D : list nat) (p : list (sstmt K)) : Prop := match p with
  | [] => True
  | (t, e) :: p => incl (vels e) D /\ defined (match t with TU j => j :: D | _ => D end) p
  end.
(* the relative velocity is not just one moment *)
Definition not_view (s : sstmt K) : Prop := match s with
  | (TU _, YOld _) | (TU _, YNew _) | (TU _, YMom _) => False
  | _ => True
  end.

Variables (rs : ranges) (sizes : list Z) (sh : nat -> list Z) (inn : list Z -> bool).
Hypothesis HR : Forall (fun r => fst r < snd r) rs.
Hypothesis Hd : length rs = d.
Hypothesis Hf : forall k, (k < ns)%nat -> GenProofs.fits rs sizes (map Z.opp (vel k)).
Hypothesis H0 : GenProofs.fits rs sizes (repeat 0 d).
Hypothesis Hsh : forall nm, (nm <= 1)%nat -> sh nm = ins pos (Z.of_nat ns) sizes.
Hypothesis Hinn : forall x, inn x = true <-> inbox rs x.

Lemma np_ok nm k c : (nm <= 1)%nat -> (k < ns)%nat -> GenProofs.fits rs sizes c -> aligned rs (indexed_at pos nm k c) /\ in_array rs (sh nm) (indexed_at pos nm k c).
Proof using Hsh.
  intros Hn Hk F. pose proof F as (_ & _ & Lc). split; [unfold aligned; now rewrite idx_of_indexed, Lc|].
  intros x Hx. rewrite Hsh by exact Hn. rewrite addr_indexed by (rewrite Lc; now apply inbox_length).
  apply Forall2_ins; [clear - Hk; lia|]. now apply (fits_in rs).
Qed.
Lemma np_gets e b : sbound e -> nomv e -> In b (gets K (np_expr K pos d ns vel e)) ->
  exists nm k c, b = indexed_at pos nm k c /\ (nm <= 1)%nat /\ (k < ns)%nat /\ GenProofs.fits rs sizes c.
Proof using Hf H0.
  induction e; cbn [np_expr gets sbound nomv]; intros Hb Hn Hi; try contradiction; auto.
  - destruct Hi as [<-|[]]. exists 0%nat, k, (map Z.opp (vel k)). split; [reflexivity|]. split; [clear; lia|]. split; [exact Hb|now apply Hf].
  - destruct Hi as [<-|[]]. exists 0%nat, k, (repeat 0 d). split; [reflexivity|]. split; [clear; lia|]. split; [exact Hb|exact H0].
  - destruct Hi as [<-|[]]. exists 1%nat, k, (repeat 0 d). split; [reflexivity|]. split; [clear; lia|]. split; [exact Hb|exact H0].
  - apply in_app_or in Hi as [Hi|Hi]; [apply IHe1|apply IHe2]; tauto.
Qed.
Lemma np_locs e i : In i (locs K (np_expr K pos d ns vel e)) -> exists j, In j (vels e) /\ i = (ns + j)%nat.
Proof.
  induction e; cbn; try tauto; auto.
  - intros [<-|[]]. exists j. split; [now left|reflexivity].
  - rewrite in_app_iff. intros [H|H]; [destruct (IHe1 H) as (j & H1 & ->)|destruct (IHe2 H) as (j & H1 & ->)]; exists j; rewrite in_app_iff; tauto.
Qed.
Definition nfield A (nm : nat) (F : field K (list Z)) : Prop := forall y k, length y = d -> (k < ns)%nat -> A nm (at_ k y) = F y k.
Definition nst := (field K (list Z) * (field K (list Z) * field K (list Z)))%type.
Definition nseen (D : list nat) A (L : nlocals K) (g : nst) : Prop :=
  nfield A 0 (fst g) /\ nfield A 1 (fst (snd g)) /\
  forall j, In j D -> exists u, L (ns + j)%nat = Some u /\ GenProofs.fresh K u /\ value_ok K rs A u (fun x => snd (snd g) x j).
Lemma np_eval D A L (g : nst) x e : nseen D A L g -> length x = d -> sbound e -> nomv e ->
  ceval K A (fun i => snd (snd g) x (i - ns)%nat) x (np_expr K pos d ns vel e) =
  seval K (view_at (shift_cell vel) (fst g) (fst g) (fst (snd g) x) (snd (snd g) x) x) e.
Proof using Hvel.
  intros (N0 & N1 & _) Lx. induction e; cbn [np_expr ceval seval sbound nomv view_at vf vfn vm vu]; intros Hb Hn; try contradiction; auto.
  - unfold f_at at 1. cbn [a_name indexed_at]. rewrite addr_f by assumption. apply N0; [|exact Hb].
    unfold shift_cell. rewrite map2_length; [exact Lx|]. rewrite Hvel; assumption.
  - rewrite addr_here by exact Lx. now apply N0.
  - unfold m_at. rewrite addr_here by exact Lx. now apply N1.
  - f_equal. clear. lia.
  - now rewrite IHe.
  - destruct Hb, Hn. now rewrite IHe1, IHe2.
Qed.
Lemma np_value D A L (g : nst) e : nseen D A L g -> sbound e -> nomv e -> incl (vels e) D ->
  exists u, neval K rs sh A L (np_expr K pos d ns vel e) = Some u /\
    (match np_expr K pos d ns vel e with EGet _ => True | _ => GenProofs.fresh K u end) /\
    value_ok K rs A u (fun x => seval K (view_at (shift_cell vel) (fst g) (fst g) (fst (snd g) x) (snd (snd g) x) x) e).
Proof using Hvel HR Hd Hf H0 Hsh.
  intros N Hb Hn Hi.
  destruct (neval_ok K rs HR sh A L (fun _ => A) (fun x i => snd (snd g) x (i - ns)%nat) (np_expr K pos d ns vel e)) as (u & U1 & U2 & U3).
  - intros b Ib. destruct (np_gets e b Hb Hn Ib) as (nm & k & c & -> & Hm & Hk & F). now apply np_ok.
  - reflexivity.
  - intros i Ii. destruct (np_locs e i Ii) as (j & Hj & ->). destruct (proj2 (proj2 N) j (Hi j Hj)) as (u & U1 & U2 & U3 & U4).
    exists u. split; [exact U1|]. split; [exact U2|]. split; [exact U3|]. intros q Hq. rewrite U4 by exact Hq. f_equal. clear. lia.
  - exists u. split; [exact U1|]. split; [exact U2|]. destruct U3 as [O1 O2]. split; [exact O1|]. intros q Hq. rewrite O2 by exact Hq.
    apply (np_eval D A L); try assumption. rewrite <- Hd. apply inbox_length, cell_of_in, Hq.
Qed.

(* an assignment to the component k of an array *)
Lemma np_set D A L (g : nst) nm k e : nseen D A L g -> (nm <= 1)%nat -> (k < ns)%nat -> sbound e -> nomv e -> incl (vels e) D ->
  let val x := seval K (view_at (shift_cell vel) (fst g) (fst g) (fst (snd g) x) (snd (snd g) x) x) e in
  exists A', nexec K rs sh (Some (A, L)) (SSet (here pos d nm k) (np_expr K pos d ns vel e)) = Some (A', L) /\
    (forall x, inbox rs x -> A' nm (at_ k x) = val x) /\
    (forall mm q, (forall x, inbox rs x -> ~ (mm = nm /\ q = at_ k x)) -> A' mm q = A mm q).
Proof using Hvel HR Hd Hf H0 Hsh.
  intros N Hm Hk Hb Hn Hi val. destruct (np_value D A L g e N Hb Hn Hi) as (u & U1 & _ & O1 & O2).
  destruct (np_ok nm k (repeat 0 d) Hm Hk H0) as [HA HI]. destruct (resolve_ok rs HR _ _ HA HI) as (l & E1 & E2 & E3).
  assert (Hs : forall q i, sel_find l q = Some i <-> inside (box_shape rs) i /\ q = at_ k (cell_of rs i)).
  { intros q i. rewrite sel_find_spec, E2. split; intros [H ->]; split; try assumption.
    - rewrite E3 by exact H. apply addr_here. rewrite <- Hd. apply inbox_length, cell_of_in, H.
    - rewrite E3 by exact H. symmetry. apply addr_here. rewrite <- Hd. apply inbox_length, cell_of_in, H. }
  exists (fun mm q => if Nat.eqb mm nm then match sel_find l q with Some i => bget K A u i | None => A mm q end else A mm q).
  split; [|split].
  - cbn [nexec]. change (resolve rs (sh (a_name (here pos d nm k))) (a_idx (here pos d nm k))) with (resolve rs (sh nm) (a_idx (indexed_at pos nm k (repeat 0 d)))). rewrite E1, U1, E2.
    assert (bshape (box_shape rs) (nshape K u) = Some (box_shape rs)) as -> by (destruct O1 as [->| ->]; [apply bshape_nil_r|apply bshape_refl]).
    assert (shape_eqb (box_shape rs) (box_shape rs) = true) as -> by (now apply list_eqb_spec). reflexivity.
  - intros x Hx. rewrite Nat.eqb_refl. destruct (cell_of_onto rs x Hx) as (i & Hin & Ec).
    rewrite (proj2 (Hs (at_ k x) i)) by (split; [exact Hin|now rewrite Ec]). rewrite O2 by exact Hin. now rewrite Ec.
  - intros mm q Nq. destruct (Nat.eqb_spec mm nm) as [->|Nm]; [|reflexivity]. destruct (sel_find l q) as [i|] eqn:Ei; [|reflexivity].
    apply Hs in Ei as [Hin Eq]. exfalso. apply (Nq (cell_of rs i)); [now apply cell_of_in|tauto].
Qed.

Lemma np_upd A A' nm k (F : field K (list Z)) (val : list Z -> K) : nfield A nm F ->
  (forall x, inbox rs x -> A' nm (at_ k x) = val x) -> (forall mm q, (forall x, inbox rs x -> ~ (mm = nm /\ q = at_ k x)) -> A' mm q = A mm q) ->
  nfield A' nm (fun x => if inn x then updf (F x) k (val x) else F x).
Proof using Hinn Hd Hvel.
  intros N S1 S2 y j Ly Hj. destruct (inn y) eqn:Ey.
  - apply Hinn in Ey. unfold updf. destruct (Nat.eqb_spec j k) as [->|Nj]; [now apply S1|].
    rewrite S2; [now apply N|]. intros x Hx [_ E]. apply at_inj in E; [tauto|exact Ly|rewrite <- Hd; now apply inbox_length].
  - rewrite S2; [now apply N|]. intros x Hx [_ E]. apply at_inj in E; [|exact Ly|rewrite <- Hd; now apply inbox_length].
    destruct E as [_ ->]. apply Hinn in Hx. congruence.
Qed.
Lemma np_keep A A' nm nm' k (F : field K (list Z)) : nm <> nm' -> nfield A nm F ->
  (forall mm q, (forall x, inbox rs x -> ~ (mm = nm' /\ q = at_ k x)) -> A' mm q = A mm q) -> nfield A' nm F.
Proof. intros Ne N S y j Ly Hj. rewrite S; [now apply N|]. intros x _ [E _]. now apply Ne. Qed.

Lemma np_exec D A L (g : nst) s r : nseen D A L g -> bounded s -> nomv (snd s) -> incl (vels (snd s)) D -> not_view s -> stmt_rel K s r ->
  exists A' L', nexec K rs sh (Some (A, L)) (np_stmt K pos d ns vel s) = Some (A', L') /\
    nseen (match fst s with TU j => j :: D | _ => D end) A' L' (numpy_stmt (shift_cell vel) inn g r) /\
    (forall nm q, (forall x k, inbox rs x -> (k < ns)%nat -> ~ ((nm <= 1)%nat /\ q = at_ k x)) -> A' nm q = A nm q).
Proof using Hvel HR Hd Hf H0 Hsh Hinn.
  intros N [Ht Hb] Hn Hi Hw [Er Ev]. destruct s as [t e], r as [t' h]. cbn [fst snd] in *. subst t'. destruct g as [F [m u]].
  pose proof N as (N0 & N1 & N2). cbn [fst snd] in *.
  destruct t as [k|k|j]; cbn [np_stmt fst snd tbound] in *.
  - destruct (np_set D A L (F, (m, u)) 0 k e N ltac:(clear; lia) Ht Hb Hn Hi) as (A' & S1 & S2 & S3). cbn [fst snd] in S2.
    exists A', L. split; [exact S1|]. split.
    + cbn [numpy_stmt fst snd]. split; [|split].
      * cbn [fst]. apply (np_upd A A' 0 k F); [exact N0| |exact S3]. intros x Hx. rewrite S2 by exact Hx. apply Ev.
      * cbn [fst snd]. apply (np_keep A A' 1 0 k m); [clear; lia|exact N1|exact S3].
      * cbn [fst snd]. intros i Ii. destruct (N2 i Ii) as (w & W1 & W2 & W3). exists w. split; [exact W1|]. split; [exact W2|]. now apply (fresh_ok K rs A).
    + intros nm q Nq. apply S3. intros x Hx [-> Eq]. apply (Nq x k); [exact Hx|exact Ht|split; [clear; lia|exact Eq]].
  - destruct (np_set D A L (F, (m, u)) 1 k e N ltac:(clear; lia) Ht Hb Hn Hi) as (A' & S1 & S2 & S3). cbn [fst snd] in S2.
    exists A', L. split; [exact S1|]. split.
    + cbn [numpy_stmt fst snd]. split; [|split].
      * cbn [fst snd]. apply (np_keep A A' 0 1 k F); [clear; lia|exact N0|exact S3].
      * cbn [fst snd]. apply (np_upd A A' 1 k m); [exact N1| |exact S3]. intros x Hx. rewrite S2 by exact Hx. apply Ev.
      * cbn [fst snd]. intros i Ii. destruct (N2 i Ii) as (w & W1 & W2 & W3). exists w. split; [exact W1|]. split; [exact W2|]. now apply (fresh_ok K rs A).
    + intros nm q Nq. apply S3. intros x Hx [-> Eq]. apply (Nq x k); [exact Hx|exact Ht|split; [clear; lia|exact Eq]].
  - destruct (np_value D A L (F, (m, u)) e N Hb Hn Hi) as (w & U1 & U2 & O1 & O2). cbn [fst snd] in O2.
    exists A, (updf L (ns + j)%nat (Some w)). cbn [nexec]. rewrite U1. split; [reflexivity|]. split; [|reflexivity].
    assert (Fw : GenProofs.fresh K w) by (destruct e; cbn in Hw, U2, Hn; tauto).
    cbn [numpy_stmt fst snd]. split; [exact N0|]. split; [exact N1|]. cbn [fst snd]. intros i Ii.
    destruct (Nat.eq_dec i j) as [->|Ni].
    + exists w. rewrite updf_same. split; [reflexivity|]. split; [exact Fw|]. split; [exact O1|]. intros q Hq. rewrite O2 by exact Hq.
      rewrite (proj2 (Hinn _) (cell_of_in rs q Hq)), updf_same. apply Ev.
    + destruct Ii as [->|Ii]; [congruence|]. destruct (N2 i Ii) as (y & W1 & W2 & W3 & W4). exists y. rewrite updf_other by (clear - Ni; lia).
      split; [exact W1|]. split; [exact W2|]. split; [exact W3|]. intros q Hq. rewrite W4 by exact Hq.
      rewrite (proj2 (Hinn _) (cell_of_in rs q Hq)). now rewrite updf_other by exact Ni.
Qed.

Lemma np_run sp : Forall bounded sp -> Forall (fun s => nomv (snd s)) sp -> Forall not_view sp -> forall p, Forall2 (stmt_rel K) sp p ->
  forall D A L (g : nst), defined D sp -> nseen D A L g ->
  exists A' L', fold_left (nexec K rs sh) (map (np_stmt K pos d ns vel) sp) (Some (A, L)) = Some (A', L') /\
    nfield A' 0 (fst (numpy_run (shift_cell vel) inn p g)) /\ nfield A' 1 (fst (snd (numpy_run (shift_cell vel) inn p g))) /\
    (forall nm q, (forall x k, inbox rs x -> (k < ns)%nat -> ~ ((nm <= 1)%nat /\ q = at_ k x)) -> A' nm q = A nm q).
Proof using Hvel HR Hd Hf H0 Hsh Hinn.
  induction sp as [|s sp IH]; intros B1 B2 B3 p Hr D A L g HD N.
  { inversion Hr. exists A, L. split; [reflexivity|]. split; [exact (proj1 N)|]. split; [exact (proj1 (proj2 N))|reflexivity]. }
  inversion Hr as [|s0 r sp0 p' R1 R2 E1 E2]. subst p. inversion B1. inversion B2. inversion B3.
  destruct s as [t e]. cbn [defined] in HD. destruct HD as [Hi HD].
  destruct (np_exec D A L g (t, e) r) as (A1 & L1 & X1 & X2 & X3); try assumption.
  cbn [map fold_left]. rewrite X1.
  match type of X2 with nseen ?D' _ _ _ => destruct (IH ltac:(assumption) ltac:(assumption) ltac:(assumption) p' R2 D' A1 L1 (numpy_stmt (shift_cell vel) inn g r)) as (A' & L' & Y1 & Y2 & Y3 & Y4) end; try assumption.
  exists A', L'. split; [exact Y1|]. split; [exact Y2|]. split; [exact Y3|]. intros nm q Nq. rewrite Y4 by exact Nq. now apply X3.
Qed.
End PrintP.
