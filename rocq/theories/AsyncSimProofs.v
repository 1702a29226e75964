(* Lemmas for C83_simulation: the steps depend on the values of the arrays only, and a step in lock
   step is that of C65. *)
From Coq Require Import QArith.
From Verif Require Import PyBase VelocityModel StencilModel StencilProofs GridModel GridProofs StorageModel ExchangeProofs LinAlg AlgoModel GlobalModel DomainModel
  GeometryModel BoundaryModel ParallelModel GenModel GenProofs StepGenModel WholeModel AsyncModel AsyncProofs AsyncSimModel.
Require Import Lia.
Open Scope Z_scope.

(* ---- the boundary methods ---- *)
Section Bc.
Variables (K : ring) (qk : Q -> K) (g : grid) (vel : nat -> list Z) (sym : nat -> nat) (feq : blink -> nat -> K).
Definition feqd (F F' : dfield K) : Prop := forall k x, F k x = F' k x.
Lemma bvalue_ext m F F' b : feqd F F' -> bvalue K qk g vel sym feq m F b = bvalue K qk g vel sym feq m F' b.
Proof. intros H. unfold bvalue, at_. destruct m; cbv zeta; rewrite ?H; reflexivity. Qed.
Lemma bupdate_ext be m l F F' : feqd F F' -> feqd (bupdate K qk g vel sym feq be m l F) (bupdate K qk g vel sym feq be m l F').
Proof.
  intros H. unfold bupdate.
  enough (G : forall F1 F1', feqd F1 F1' -> feqd
    (fold_left (fun F2 b => dupd K F2 (b_k b) (b_cell b) (bvalue K qk g vel sym feq m (if reads_copy be m then F else F2) b)) l F1)
    (fold_left (fun F2 b => dupd K F2 (b_k b) (b_cell b) (bvalue K qk g vel sym feq m (if reads_copy be m then F' else F2) b)) l F1')) by now apply G.
  induction l as [|b l IH]; intros F1 F1' H1; cbn [fold_left]; [exact H1|]. apply IH. intros k x. unfold dupd.
  destruct (_ && _); [|apply H1]. destruct (reads_copy be m); now apply bvalue_ext.
Qed.
Lemma bc_ext be ms : forall F F', feqd F F' -> feqd (boundary_condition K qk g vel sym feq be ms F) (boundary_condition K qk g vel sym feq be ms F').
Proof.
  unfold boundary_condition. induction ms as [|[m l] ms IH]; intros F F' H; cbn [fold_left]; [exact H|]. apply IH. now apply bupdate_ext.
Qed.
End Bc.

(* ---- the kernels ---- *)
Section Kernel.
Variable V : Type.
Definition aeq (A A' : arrays V) : Prop := forall m q, A m q = A' m q.
Lemma ccell_ext p x : forall A A' L L', aeq A A' -> (forall k, L k = L' k) ->
  aeq (fst (ccell V p (A, L) x)) (fst (ccell V p (A', L') x)) /\ (forall k, snd (ccell V p (A, L) x) k = snd (ccell V p (A', L') x) k).
Proof.
  unfold ccell. induction p as [|s p IH]; intros A A' L L' HA HL; cbn [fold_left]; [now split|].
  destruct s as [a e|k e]; cbn [cexec fst snd]; apply IH; try assumption.
  - intros m q. unfold store. rewrite (ceval_ext V A A' L L' x e) by (intros; first [apply HA|apply HL]). now rewrite HA.
  - intros j. unfold updf. rewrite (ceval_ext V A A' L L' x e) by (intros; first [apply HA|apply HL]). now rewrite HL.
Qed.
Lemma cython_ext p cells : forall A A' L L', aeq A A' -> (forall k, L k = L' k) -> aeq (fst (cython V p cells (A, L))) (fst (cython V p cells (A', L'))).
Proof.
  unfold cython. induction cells as [|x cells IH]; intros A A' L L' HA HL; cbn [fold_left]; [exact HA|].
  destruct (ccell_ext p x A A' L L' HA HL) as [H1 H2]. destruct (ccell V p (A, L) x) as [B M]. destruct (ccell V p (A', L') x) as [B' M']. now apply IH.
Qed.
(* NumPy: equal errors, equal shapes, equal values *)
Definition nveq (v v' : nval V) : Prop := match v, v' with
  | NView n l, NView n' l' => n = n' /\ l = l'
  | NVal s f, NVal s' f' => s = s' /\ forall i, f i = f' i
  | _, _ => False
  end.
Definition noeq (v v' : option (nval V)) : Prop := match v, v' with Some v, Some v' => nveq v v' | None, None => True | _, _ => False end.
Lemma nveq_shape v v' : nveq v v' -> nshape V v = nshape V v'.
Proof. destruct v, v'; cbn; intuition congruence. Qed.
Lemma nveq_get A A' v v' i : aeq A A' -> nveq v v' -> nget V A v i = nget V A' v' i.
Proof. intros HA. destruct v, v'; cbn; try tauto; intros [<- H]; [subst; apply HA|apply H]. Qed.
Lemma nveq_bget A A' v v' i : aeq A A' -> nveq v v' -> bget V A v i = bget V A' v' i.
Proof. intros HA Hv. unfold bget. rewrite <- (nveq_shape _ _ Hv). now apply nveq_get. Qed.
Lemma neval_ext rs sh A A' L L' e : aeq A A' -> (forall k, noeq (L k) (L' k)) -> noeq (neval V rs sh A L e) (neval V rs sh A' L' e).
Proof.
  intros HA HL. induction e as [v|k|a|o e IH|o e1 IH1 e2 IH2]; cbn [neval].
  - now split.
  - apply HL.
  - destruct (resolve rs _ _) as [l|]; [|exact I]. destruct (sel_shape l); [split; [reflexivity|intros; apply HA]|now split].
  - destruct (neval V rs sh A L e) as [v|], (neval V rs sh A' L' e) as [v'|]; try exact IH. cbn in IH |- *. rewrite (nveq_shape _ _ IH). split; [reflexivity|].
    intros i. f_equal. now apply nveq_get.
  - destruct (neval V rs sh A L e1) as [v|], (neval V rs sh A' L' e1) as [v'|]; try contradiction; [|exact I].
    destruct (neval V rs sh A L e2) as [w|], (neval V rs sh A' L' e2) as [w'|]; try contradiction; [|exact I]. cbn in IH1, IH2.
    rewrite (nveq_shape _ _ IH1), (nveq_shape _ _ IH2). destruct (bshape _ _) as [s|]; [|exact I]. split; [reflexivity|].
    intros i. f_equal; now apply nveq_bget.
Qed.
Definition nseq (s s' : option (arrays V * nlocals V)) : Prop := match s, s' with
  | Some (A, L), Some (A', L') => aeq A A' /\ forall k, noeq (L k) (L' k) | None, None => True | _, _ => False end.
Lemma nexec_ext rs sh s s' x : nseq s s' -> nseq (nexec V rs sh s x) (nexec V rs sh s' x).
Proof.
  destruct s as [[A L]|], s' as [[A' L']|]; [|intros []|intros []|exact (fun h => h)]. intros [HA HL]. destruct x as [a e|k e]; cbn [nexec];
    pose proof (neval_ext rs sh A A' L L' e HA HL) as He.
  - destruct (resolve rs _ _) as [l|]; [|exact I]. destruct (neval V rs sh A L e) as [v|], (neval V rs sh A' L' e) as [v'|]; try contradiction; [|exact I]. cbn in He.
    rewrite (nveq_shape _ _ He). destruct (bshape _ _) as [t|]; [|exact I]. destruct (shape_eqb t _); [|exact I]. split; [|exact HL].
    intros m q. destruct (Nat.eqb m _); [|apply HA]. destruct (sel_find l q); [now apply nveq_bget|apply HA].
  - destruct (neval V rs sh A L e) as [v|], (neval V rs sh A' L' e) as [v'|]; try contradiction; [|exact I]. split; [exact HA|]. intros j. unfold updf. destruct (Nat.eqb _ _); [exact He|apply HL].
Qed.
Lemma numpy_ext rs sh p A A' : aeq A A' -> nseq (numpy V rs sh p A) (numpy V rs sh p A').
Proof.
  intros HA. unfold numpy. enough (H : forall s s', nseq s s' -> nseq (fold_left (nexec V rs sh) p s) (fold_left (nexec V rs sh) p s')) by (apply H; split; [exact HA|intros; exact I]).
  induction p as [|x p IH]; intros s s' H; cbn [fold_left]; [exact H|]. apply IH. now apply nexec_ext.
Qed.
End Kernel.

(* ---- one step ---- *)
Section Step.
Variables (K : ring) (pos : nat) (axes : list axis).
Notation fld := (list Z -> vec K).
Definition veq (u v : vec K) : Prop := forall k, u k = v k.
Definition fleq (F F' : fld) : Prop := forall i, veq (F i) (F' i).
(* equal on the cells *)
Definition celleq (F F' : fld) : Prop := forall i, length i = length axes -> veq (F i) (F' i).
Lemma clip_eq F F' : celleq F F' -> fleq (clip axes F) (clip axes F').
Proof. intros H i k. unfold clip. destruct (Nat.eqb_spec (length i) (length axes)) as [E|]; [now apply H|reflexivity]. Qed.
Lemma arrays3_ext f f' m m' h h' : fleq f f' -> fleq m m' -> fleq h h' -> aeq K (arrays3 K pos f m h) (arrays3 K pos f' m' h').
Proof. intros H1 H2 H3 [|[|k]] q; cbn; unfold array_of; [apply H1|apply H2|apply H3]. Qed.
Lemma fleq_refl F : fleq F F.
Proof. intros i k. reflexivity. Qed.
Variable B : proc -> fld -> fld.
Hypothesis HB : forall c F F', fleq F F' -> fleq (B c F) (B c F').
Lemma local_two_ext p L0 c x y : celleq (fst x) (fst y) -> celleq (snd x) (snd y) ->
  fleq (fst (local_two pos axes B p L0 c x)) (fst (local_two pos axes B p L0 c y)) /\ fleq (snd (local_two pos axes B p L0 c x)) (snd (local_two pos axes B p L0 c y)).
Proof using HB.
  intros H1 H2. assert (H : fleq (B c (clip axes (snd x))) (B c (clip axes (snd y)))) by now apply HB, clip_eq.
  split; [exact H|]. intros i k. cbn [local_two snd]. unfold local_two, field_of. cbn [snd].
  apply cython_ext; [|reflexivity]. apply arrays3_ext; [exact H|apply fleq_refl|now apply clip_eq].
Qed.
Lemma one_run_ext ns p c A A' m i k : aeq K A A' ->
  let run A := match numpy K (ranges_of axes c) (fun _ => ins pos (Z.of_nat ns) (sizes_of axes c)) p A with Some (A, _) => A | None => A end in
  field_of K pos (run A m) i k = field_of K pos (run A' m) i k.
Proof using.
  intros HA run. subst run. cbv beta. pose proof (numpy_ext K (ranges_of axes c) (fun _ => ins pos (Z.of_nat ns) (sizes_of axes c)) p A A' HA) as Hn.
  destruct (numpy K _ _ p A) as [[A1 L1]|], (numpy K _ _ p A') as [[A1' L1']|]; [|destruct Hn|destruct Hn|]; unfold field_of; [destruct Hn as [Hn _]; apply Hn|apply HA].
Qed.
Lemma local_one_ext ns p c x y : celleq (fst x) (fst y) -> celleq (snd x) (snd y) ->
  fleq (fst (local_one pos axes B ns p c x)) (fst (local_one pos axes B ns p c y)) /\ fleq (snd (local_one pos axes B ns p c x)) (snd (local_one pos axes B ns p c y)).
Proof using HB.
  intros H1 H2.
  assert (HA : aeq K (arrays3 K pos (B c (clip axes (snd x))) (clip axes (fst x)) (zero_field K)) (arrays3 K pos (B c (clip axes (snd y))) (clip axes (fst y)) (zero_field K)))
    by (apply arrays3_ext; [now apply HB, clip_eq|now apply clip_eq|apply fleq_refl]).
  split; intros i k; [exact (one_run_ext ns p c _ _ 1%nat i k HA)|exact (one_run_ext ns p c _ _ 0%nat i k HA)].
Qed.
(* in lock step *)
Lemma exchange_clip d (F : list nat -> fld) c i : exchange axes d (fun c => clip axes (F c)) c i = clip axes (exchange axes d F c) i.
Proof using.
  unfold clip at 2. unfold exchange. destruct (recv_of _ _ _ _) as [r|]; [|reflexivity]. destruct (match_send _ _ _ _ _) as [s|]; [|reflexivity].
  unfold clip. now rewrite upd_length.
Qed.
Lemma exchange_pt d F F' : (forall c i, F c i = F' c i :> vec K) -> forall c i, exchange axes d F c i = exchange axes d F' c i.
Proof using. intros H c i. unfold exchange. destruct (recv_of _ _ _ _) as [r|]; [|apply H]. destruct (match_send _ _ _ _ _); apply H. Qed.
Lemma exchanges_pt ds : forall F F', (forall c i, F c i = F' c i :> vec K) -> forall c i,
  fold_left (fun A d => exchange axes d A) ds F c i = fold_left (fun A d => exchange axes d A) ds F' c i.
Proof using. induction ds as [|d ds IH]; intros F F' H c i; cbn [fold_left]; [apply H|]. apply IH. now apply exchange_pt. Qed.
Lemma update_clip (F : list nat -> fld) c i : update axes (fun c => clip axes (F c)) c i = clip axes (update axes F c) i.
Proof using.
  unfold update. generalize (seq 0 (length axes)). intros ds. revert F. induction ds as [|d ds IH]; intros F; cbn [fold_left]; [reflexivity|].
  rewrite <- IH. apply exchanges_pt. intros c' i'. apply exchange_clip.
Qed.
Lemma sync_step {M : Type} l (S : proc -> memory (V := vec K) (M := M)) c :
  sync axes (step_program axes l) S c = l c (fst (S c), update axes (fun c => snd (S c)) c).
Proof using.
  unfold step_program, sync, update. rewrite fold_left_app. cbn [fold_left sync_item]. f_equal. generalize (seq 0 (length axes)). intros ds.
  revert S. induction ds as [|d ds IH]; intros S; cbn [map fold_left]; [now destruct (S c)|]. rewrite IH. reflexivity.
Qed.
Lemma sync_app {M : Type} p q (S : proc -> memory (V := vec K) (M := M)) : sync axes (p ++ q) S = sync axes q (sync axes p S).
Proof using. apply fold_left_app. Qed.
End Step.
