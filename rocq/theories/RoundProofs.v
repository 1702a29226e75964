(* Lemmas on lists of statements which write a value before they read it, for an arithmetic
   without laws. *)
From Verif Require Import PyBase VelocityModel GridModel StorageModel LinAlg AlgoModel AlgoProofs GlobalModel GenModel StepGenModel StepGenProofs.
Require Import Lia.
Open Scope Z_scope.

Section Scope.
Variable K : arith.
Implicit Types (e : sym K) (v w : view K) (sp : list (sstmt K)).

(* W: what is written by the previous statements, the last one first.  m, fnew and the relative
   velocity are read after they are written, f[k] before fnew[k] is written. *)
Fixpoint reads (W : list target) e : Prop := match e with
  | YNum _ => True
  | YOld k => ~ In (TFn k) W
  | YNew k => In (TFn k) W
  | YMom k | YMv k => In (TM k) W
  | YVel j => In (TU j) W
  | YUn _ e => reads W e
  | YBin _ e1 e2 => reads W e1 /\ reads W e2
  end.
Fixpoint scoped (W : list target) sp : Prop := match sp with
  | [] => True
  | s :: sp => reads W (snd s) /\ scoped (fst s :: W) sp
  end.

Definition sem (s : sstmt K) : AlgoModel.stmt K := (fst s, fun v => seval K v (snd s)).
Lemma sem_rel sp : Forall2 (stmt_rel K) sp (map sem sp).
Proof. induction sp; constructor; [split; reflexivity|assumption]. Qed.
(* the values of fnew after the statements in a cell where f has the values f *)
Definition step_of sp (f : vec K) : vec K :=
  vfn (run (map sem sp) (mkView f (fun _ => 0%K) (fun _ => 0%K) (fun _ => 0%K))).

Variable n : nat.
Definition same (W : list target) v w : Prop :=
  (forall k, (k < n)%nat -> vf v k = vf w k) /\ (forall k, In (TFn k) W -> vfn v k = vfn w k) /\
  (forall k, In (TM k) W -> vm v k = vm w k) /\ (forall j, In (TU j) W -> vu v j = vu w j).
Lemma seval_same W v w e : same W v w -> sbound K n e -> reads W e -> seval K v e = seval K w e.
Proof.
  intros (H1 & H2 & H3 & H4). induction e; cbn; intros B R; auto.
  - now rewrite IHe.
  - destruct B, R. now rewrite IHe1, IHe2.
Qed.
Lemma upd_same (f g : vec K) k j x : (k <> j -> f j = g j) -> updf f k x j = updf g k x j.
Proof. unfold updf. intros H. destruct (Nat.eqb_spec j k) as [->|Ne]; [reflexivity|]. apply H. congruence. Qed.
Lemma exec_same W v w s : same W v w -> bounded K n s -> reads W (snd s) -> same (fst s :: W) (exec v (sem s)) (exec w (sem s)).
Proof.
  intros HS [_ B] R. pose proof (seval_same W v w (snd s) HS B R) as E. destruct HS as (H1 & H2 & H3 & H4).
  destruct s as [t e]. cbn [fst snd] in *. unfold exec, sem. cbn [fst snd]. rewrite E.
  destruct t as [k|k|j]; (split; [exact H1|split; [|split]]); cbn [vf vfn vm vu]; intros i Hi;
    try (apply upd_same; intros Ne); (destruct Hi as [X|Hi]; [try discriminate X; try congruence|auto]).
Qed.
Lemma run_same sp : forall W v w, scoped W sp -> Forall (bounded K n) sp -> same W v w ->
  same (rev (map fst sp) ++ W) (run (map sem sp) v) (run (map sem sp) w).
Proof.
  induction sp as [|s sp IH]; intros W v w Sc B H; [exact H|]. destruct Sc as [S1 S2]. inversion B as [|? ? B1 B2]; subst.
  cbn [map rev]. rewrite <- app_assoc. cbn [app]. unfold run. cbn [fold_left]. apply IH; [exact S2|exact B2|]. now apply exec_same.
Qed.

Definition complete sp : Prop := forall k, (k < n)%nat -> In (TFn k) (map fst sp).
Lemma run_step sp v (f : vec K) k : scoped [] sp -> Forall (bounded K n) sp -> complete sp -> (forall j, (j < n)%nat -> vf v j = f j) -> (k < n)%nat ->
  vfn (run (map sem sp) v) k = step_of sp f k.
Proof.
  intros S B C H Hk. destruct (run_same sp [] v (mkView f (fun _ => 0%K) (fun _ => 0%K) (fun _ => 0%K)) S B) as (_ & R & _ & _).
  - split; [exact H|]. split; [|split]; intros i [].
  - apply R. rewrite app_nil_r, <- in_rev. now apply C.
Qed.
Lemma step_agree sp (f g : vec K) : scoped [] sp -> Forall (bounded K n) sp -> complete sp -> agree K n f g -> agree K n (step_of sp f) (step_of sp g).
Proof. intros S B C H k Hk. now apply (run_step sp (mkView f (fun _ => 0%K) (fun _ => 0%K) (fun _ => 0%K)) g). Qed.

(* NumPy: statement after statement, over all the cells, with one array for f and fnew. *)
Section OneArray.
Variables (cell : Type) (nb : nat -> cell -> cell) (inn : cell -> bool) (F m u : field K cell).
Definition lview (x : cell) : view K := mkView (fun k => F (nb k x) k) (F x) (m x) (u x).
Definition tracks (W : list target) (st : field K cell * (field K cell * field K cell)) (V : cell -> view K) : Prop :=
  (forall x, inn x = true -> (forall k, fst st x k = vfn (V x) k) /\ (forall k, fst (snd st) x k = vm (V x) k) /\
     (forall j, snd (snd st) x j = vu (V x) j) /\ forall k, vf (V x) k = F (nb k x) k) /\
  (forall y k, ~ In (TFn k) W -> fst st y k = F y k).
Lemma tracks_value W st V x e : tracks W st V -> inn x = true -> reads W e ->
  seval K (view_at nb (fst st) (fst st) (fst (snd st) x) (snd (snd st) x) x) e = seval K (V x) e.
Proof.
  intros [T1 T2] Hx. destruct (T1 x Hx) as (A1 & A2 & A3 & A4). induction e; cbn; intros R; auto.
  - rewrite A4. now apply T2.
  - now rewrite IHe.
  - destruct R. now rewrite IHe1, IHe2.
Qed.
Lemma tracks_step W st V s : tracks W st V -> reads W (snd s) ->
  tracks (fst s :: W) (numpy_stmt nb inn st (sem s)) (fun x => exec (V x) (sem s)).
Proof.
  intros T R. pose proof (fun x => tracks_value W st V x (snd s) T) as E. destruct T as [T1 T2].
  destruct st as [Ft [mt ut]]. cbn [fst snd] in *. destruct s as [t e]. cbn [fst snd] in *. split.
  - intros x Hx. destruct (T1 x Hx) as (A1 & A2 & A3 & A4). unfold numpy_stmt, exec, sem. cbn [fst snd].
    destruct t as [k|k|j]; cbn [fst snd vf vfn vm vu]; rewrite ?Hx; repeat split; auto; intros i; rewrite (E x Hx R); now apply upd_same.
  - intros y k Hk. unfold numpy_stmt, sem. cbn [fst snd].
    assert (Hk' : ~ In (TFn k) W) by (intros H; apply Hk; now right).
    destruct t as [k'|k'|j]; cbn [fst]; auto. destruct (inn y); [|now apply T2]. unfold updf.
    destruct (Nat.eqb_spec k k') as [->|Ne]; [|now apply T2]. destruct Hk. now left.
Qed.
Lemma tracks_run sp : forall W st V, tracks W st V -> scoped W sp ->
  tracks (rev (map fst sp) ++ W) (numpy_run nb inn (map sem sp) st) (fun x => run (map sem sp) (V x)).
Proof.
  induction sp as [|s sp IH]; intros W st V T Sc; [exact T|]. destruct Sc as [S1 S2].
  cbn [map rev]. rewrite <- app_assoc. cbn [app]. unfold numpy_run, run. cbn [fold_left].
  apply (IH _ _ (fun x => exec (V x) (sem s))); [|exact S2]. now apply tracks_step.
Qed.
Lemma numpy_step_of sp x k : scoped [] sp -> Forall (bounded K n) sp -> complete sp -> inn x = true -> (k < n)%nat ->
  fst (numpy_run nb inn (map sem sp) (F, (m, u))) x k = step_of sp (fun j => F (nb j x) j) k.
Proof.
  intros Sc B C Hx Hk. assert (T : tracks [] (F, (m, u)) lview) by (split; [intros y _; repeat split|reflexivity]).
  destruct (tracks_run sp [] (F, (m, u)) lview T Sc) as [T1 _]. destruct (T1 x Hx) as (A1 & _). rewrite A1. now apply run_step.
Qed.
End OneArray.

Lemma scoped_defined sp : forall W D, (forall j, In (TU j) W -> In j D) -> scoped W sp -> defined K D sp.
Proof.
  induction sp as [|[t e] sp IH]; intros W D H S; [exact I|]. destruct S as [S1 S2]. cbn [fst snd] in *. split.
  - clear - H S1. intros j Hj. induction e; cbn in *; try tauto; [destruct Hj as [<-|[]]; now apply H|].
    apply in_app_iff in Hj. tauto.
  - eapply IH; [|exact S2]. intros j [E|Hj]; [subst t; now left|]. destruct t; try now apply H. right. now apply H.
Qed.
End Scope.
