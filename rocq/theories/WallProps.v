(* C60: the equilibria of the walls are those of the values prescribed by the user. *)
From Coq Require Import Sorted QArith.
From Verif Require Import PyBase LinAlg VelocityModel StencilModel GridModel AlgoModel AlgoProofs RelVelProofs AlgoProps DomainModel
  GeometryModel GeometryProps BoundaryModel ParallelModel WallModel.
Open Scope Z_scope.

Section Lemmas.
Variable K : ring.
Variable a : algo K.
Variable point : Type.
Variable value : Z -> bvalue K point.
Variable ilabel : list Z.
Variable pts : list point.
Variable p0 : point.
Notation cols := (cols K).
Notation user := (user K point).
Notation evaluate := (evaluate K a point ilabel pts p0).
Notation indices_of := (indices_of ilabel).
Notation prepare_key := (prepare_key K a point value ilabel pts p0).
Notation update_entry := (update_entry K a point ilabel pts p0).
Notation update_feq := (update_feq K a point ilabel pts p0).
Notation data := (method_data K point).

Lemma indices_in key i : In i (indices_of key) <-> (i < length ilabel)%nat /\ nth i ilabel 0 = key.
Proof using. clear value. unfold WallModel.indices_of. rewrite filter_In, in_seq, Z.eqb_eq. split; intros [A B]; split; auto; lia. Qed.

Lemma position_some i l : In i l -> exists j, position i l = Some j /\ nth_error l j = Some i.
Proof.
  induction l as [|x l IH]; intros H; [contradiction|]. cbn [position].
  destruct (Nat.eqb_spec i x) as [->|N]; [exists 0%nat; auto|].
  destruct H as [->|H]; [contradiction|]. destruct (IH H) as (j & E & F). exists (S j). rewrite E. auto.
Qed.
Lemma position_none i l : ~ In i l -> position i l = None.
Proof.
  induction l as [|x l IH]; intros H; [reflexivity|]. cbn [position].
  destruct (Nat.eqb_spec i x) as [->|N]; [exfalso; apply H; left; reflexivity|].
  rewrite IH; [reflexivity|]. intros C. apply H. right. exact C.
Qed.

Lemma nth_args (idx : list nat) j : (j < length idx)%nat ->
  nth j (map (fun i => nth i pts p0) idx) p0 = nth (nth j idx 0%nat) pts p0.
Proof.
  intros H. rewrite nth_indep with (d' := nth 0 pts p0) by (rewrite map_length; exact H).
  apply (map_nth (fun i => nth i pts p0)).
Qed.

Lemma set_cols_other feq idx f i : ~ In i idx -> set_cols K feq idx f i = feq i.
Proof. intros H. unfold set_cols. rewrite position_none by exact H. reflexivity. Qed.

(* The function of the user sets all the conserved moments of each point from the time
   and from the coordinates of this point, whatever the arrays contain. *)
Definition prescribes (u : user) (w : option K -> point -> vec K) : Prop :=
  forall t ps mf j, (j < length ps)%nat -> agree K (al_nc a) (fst (u t ps mf) j) (w t (nth j ps p0)).
(* The column is the one of the equilibrium with the conserved moments w. *)
Definition equilibrium_column (f w : vec K) : Prop :=
  agree K (al_n a) f (mvmul (al_n a) (al_invM a) (al_eq a w)).

Lemma evaluate_col u w t key mf j : eq_ok K a -> prescribes u w -> (j < length (indices_of key))%nat ->
  equilibrium_column (snd (evaluate u t key mf) j) (w t (nth (nth j (indices_of key) 0%nat) pts p0)).
Proof.
  intros He P Hj. unfold WallModel.evaluate, equilibrium_column. cbn [snd]. unfold w_m2f.
  set (m2 := w_equilibrium K a _). destruct (m2f_spec K (fixed_frame K a)
    (mkView (snd (u t (args point ilabel pts p0 key) mf) j) (snd (u t (args point ilabel pts p0 key) mf) j) (m2 j) (fun _ => 0%K)) eq_refl)
    as (_ & _ & H).
  eapply agree_trans; [exact H|]. cbn [vm fixed_frame al_n al_invM].
  intros k Hk. unfold mvmul. apply (sum_ext K). intros l Hl. f_equal. unfold m2, w_equilibrium.
  assert (He' : eq_ok K (fixed_frame K a)) by exact He.
  destruct (equilibrium_spec K (fixed_frame K a) (mkView (fun _ => 0%K) (fun _ => 0%K) (fst (u t (args point ilabel pts p0 key) mf) j) (fun _ => 0%K)) He') as (_ & _ & E).
  rewrite E by exact Hl. cbn [vm fixed_frame al_eq]. apply (proj1 (proj2 He)); [|exact Hl].
  assert (L : (j < length (args point ilabel pts p0 key))%nat) by (unfold args; rewrite map_length; exact Hj).
  pose proof (P t (args point ilabel pts p0 key) mf j L) as A.
  unfold args in A at 2. rewrite nth_args in A by exact Hj. exact A.
Qed.

Lemma evaluate_set u w t key mf feq i : eq_ok K a -> prescribes u w -> In i (indices_of key) ->
  equilibrium_column (set_cols K feq (indices_of key) (snd (evaluate u t key mf)) i) (w t (nth i pts p0)).
Proof.
  intros He P Hi. destruct (position_some _ _ Hi) as (j & E & F). unfold set_cols. rewrite E.
  assert (L : (j < length (indices_of key))%nat) by (apply nth_error_Some; rewrite F; discriminate).
  pose proof (evaluate_col u w t key mf j He P L) as H.
  rewrite (nth_error_nth _ _ _ F) in H. exact H.
Qed.

(* prepare_rhs: the columns of the keys done so far *)
Lemma prepare_fold keys : forall d,
  (forall i, ~ In (nth i ilabel 0) keys -> d_feq (fold_left prepare_key keys d) i = d_feq d i) /\
  (forall key, (exists m, In m (d_timed (fold_left prepare_key keys d)) /\ fst (fst m) = key) <->
     (exists m, In m (d_timed d) /\ fst (fst m) = key) \/ In key keys /\ v_user (value key) <> None /\ v_time (value key) = true) /\
  (forall m, In m (d_timed (fold_left prepare_key keys d)) -> In m (d_timed d) \/ v_user (value (fst (fst m))) = Some (snd (fst m)) /\ v_time (value (fst (fst m))) = true).
Proof.
  induction keys as [|key keys IH]; intros d; cbn [fold_left].
  - split; [reflexivity|]. split; [|auto]. intros key. split; [auto|]. intros [H|[[] _]]. exact H.
  - destruct (IH (prepare_key d key)) as (A & B & C). clear IH. split; [|split].
    + intros i Hi. rewrite A by (intros C'; apply Hi; right; exact C').
      unfold WallModel.prepare_key. destruct (v_user (value key)) as [u|]; [|reflexivity]. cbn [d_feq].
      apply set_cols_other. rewrite indices_in. intros [_ E]. apply Hi. left. auto.
    + intros k. rewrite B. unfold WallModel.prepare_key. destruct (v_user (value key)) as [u|] eqn:U; [cbn [d_timed]; destruct (v_time (value key)) eqn:T|].
      * split.
        { intros [(m & Hm & E)|(H & H1 & H2)]; [|right; split; [right; exact H|split; assumption]].
          rewrite in_app_iff in Hm. destruct Hm as [Hm|[<-|[]]]; [left; exists m; auto|]. cbn in E. subst k.
          right. split; [left; reflexivity|]. rewrite U. split; [discriminate|exact T]. }
        { intros [(m & Hm & E)|([<-|H] & H1 & H2)].
          - left. exists m. rewrite in_app_iff. auto.
          - left. eexists. rewrite in_app_iff. split; [right; left; reflexivity|reflexivity].
          - right. auto. }
      * split; [intros [H|(H & H1 & H2)]; [left; exact H|right; split; [right; exact H|auto]]|].
        intros [H|([<-|H] & H1 & H2)]; [left; exact H|congruence|right; auto].
      * split; [intros [H|(H & H1 & H2)]; [left; exact H|right; split; [right; exact H|auto]]|].
        intros [H|([<-|H] & H1 & H2)]; [left; exact H|congruence|right; auto].
    + intros m Hm. destruct (C m Hm) as [H|H]; [|right; exact H].
      unfold WallModel.prepare_key in H. destruct (v_user (value key)) as [u|] eqn:U; [|left; exact H].
      cbn [d_timed] in H. destruct (v_time (value key)) eqn:T; [|left; exact H].
      rewrite in_app_iff in H. destruct H as [H|[<-|[]]]; [left; exact H|]. right. cbn. auto.
Qed.

Lemma prepare_value keys u w : forall d i, eq_ok K a -> (i < length ilabel)%nat -> In (nth i ilabel 0) keys ->
  v_user (value (nth i ilabel 0)) = Some u -> prescribes u w ->
  equilibrium_column (d_feq (fold_left prepare_key keys d) i)
    (w (if v_time (value (nth i ilabel 0)) then Some 0%K else None) (nth i pts p0)).
Proof.
  induction keys as [|key keys IH]; intros d i He Hi Hin U P; [contradiction|]. cbn [fold_left].
  destruct (in_dec Z.eq_dec (nth i ilabel 0) keys) as [H|H]; [apply IH; assumption|].
  destruct Hin as [->|Hin]; [|contradiction].
  destruct (prepare_fold keys (prepare_key d (nth i ilabel 0))) as (A & _). rewrite A by exact H.
  unfold WallModel.prepare_key. rewrite U. cbn [d_feq]. apply evaluate_set; [exact He|exact P|].
  apply indices_in. split; [exact Hi|reflexivity].
Qed.

Lemma prepare_none keys : forall d i, v_user (value (nth i ilabel 0)) = None ->
  d_feq (fold_left prepare_key keys d) i = d_feq d i.
Proof.
  induction keys as [|key keys IH]; intros d i U; [reflexivity|]. cbn [fold_left]. rewrite IH by exact U.
  unfold WallModel.prepare_key. destruct (v_user (value key)) as [u|] eqn:V; [|reflexivity]. cbn [d_feq].
  apply set_cols_other. rewrite indices_in. intros [_ E]. congruence.
Qed.

(* update_feq *)
Lemma update_fold t l : forall st,
  (forall i, ~ In (nth i ilabel 0) (map (fun e => fst (fst e)) l) -> fst (fold_left (update_entry t) l st) i = fst st i) /\
  map fst (snd (fold_left (update_entry t) l st)) = map fst (snd st) ++ map fst l.
Proof.
  induction l as [|[[key u] mf] l IH]; intros st; cbn [fold_left map].
  - rewrite app_nil_r. auto.
  - destruct (IH (update_entry t st (key, u, mf))) as (A & B). split.
    + intros i Hi. rewrite A by (intros C; apply Hi; right; exact C). cbn [WallModel.update_entry fst].
      apply set_cols_other. rewrite indices_in. intros [_ E]. apply Hi. left. auto.
    + rewrite B. cbn [WallModel.update_entry snd fst]. rewrite map_app, <- app_assoc. reflexivity.
Qed.
Lemma update_value t l u w : forall st i, eq_ok K a -> (i < length ilabel)%nat ->
  (forall e, In e l -> fst (fst e) = nth i ilabel 0 -> snd (fst e) = u) ->
  In (nth i ilabel 0) (map (fun e => fst (fst e)) l) -> prescribes u w ->
  equilibrium_column (fst (fold_left (update_entry t) l st) i) (w (Some t) (nth i pts p0)).
Proof.
  induction l as [|[[key u'] mf] l IH]; intros st i He Hi Hu Hin P; [contradiction|]. cbn [fold_left].
  destruct (in_dec Z.eq_dec (nth i ilabel 0) (map (fun e => fst (fst e)) l)) as [H|H].
  - apply IH; try assumption. intros e E1 E2. apply Hu; [right; exact E1|exact E2].
  - destruct Hin as [E|Hin]; [|contradiction]. cbn in E.
    destruct (update_fold t l (update_entry t st (key, u', mf))) as (A & _). rewrite A by exact H.
    cbn [WallModel.update_entry fst]. assert (u' = u) as -> by (apply (Hu (key, u', mf)); [left; reflexivity|exact E]).
    apply evaluate_set; [exact He|exact P|]. apply indices_in. auto.
Qed.
End Lemmas.

Section Run.
Variable K : ring.
Variable a : algo K.
Variable point : Type.
Variable value : Z -> bvalue K point.
Variable ilabel : list Z.
Variable pts : list point.
Variable p0 : point.
Notation wall_run := (wall_run K a point value ilabel pts p0).
Notation prepared := (prepare_rhs K a point value ilabel pts p0 (new_method K point)).

Lemma run_app ts t : wall_run (ts ++ [t]) = update_feq K a point ilabel pts p0 t (wall_run ts).
Proof. unfold WallModel.wall_run. rewrite fold_left_app. reflexivity. Qed.

Lemma run_timed ts : map fst (d_timed (wall_run ts)) = map fst (d_timed prepared).
Proof.
  induction ts as [|t ts IH] using rev_ind; [reflexivity|]. rewrite run_app, <- IH. unfold update_feq. cbn [d_timed].
  destruct (update_fold K a point ilabel pts p0 t (d_timed (wall_run ts)) (d_feq (wall_run ts), [])) as (_ & B).
  rewrite B. reflexivity.
Qed.
Lemma timed_keys ts key : In key (map (fun e => fst (fst e)) (d_timed (wall_run ts))) <->
  In key ilabel /\ v_user (value key) <> None /\ v_time (value key) = true.
Proof.
  transitivity (In key (map fst (map fst (d_timed (wall_run ts))))); [rewrite map_map; reflexivity|].
  rewrite run_timed, map_map, in_map_iff.
  destruct (prepare_fold K a point value ilabel pts p0 (unique ilabel) (new_method K point)) as (_ & B & _).
  specialize (B key). rewrite unique_in in B. cbn [d_timed new_method] in B. unfold prepare_rhs. split.
  - intros (m & E & H). destruct B as [B _]. destruct B as [(m' & [] & _)|B]; [exists m; auto|exact B].
  - intros H. destruct B as [_ B]. destruct B as (m & H1 & H2); [right; exact H|exists m; auto].
Qed.
Lemma timed_user ts e : In e (d_timed (wall_run ts)) -> v_user (value (fst (fst e))) = Some (snd (fst e)).
Proof.
  intros H. assert (I : In (fst e) (map fst (d_timed (wall_run ts)))) by (apply in_map; exact H).
  rewrite run_timed in I. apply in_map_iff in I. destruct I as (e' & E & H').
  destruct (prepare_fold K a point value ilabel pts p0 (unique ilabel) (new_method K point)) as (_ & _ & C).
  destruct (C e' H') as [[]|[C' _]]. rewrite E in C'. exact C'.
Qed.

Lemma run_untimed ts i : v_user (value (nth i ilabel 0)) = None \/ v_time (value (nth i ilabel 0)) = false ->
  d_feq (wall_run ts) i = d_feq prepared i.
Proof.
  intros H. induction ts as [|t ts IH] using rev_ind; [reflexivity|]. rewrite run_app, <- IH. unfold update_feq. cbn [d_feq].
  destruct (update_fold K a point ilabel pts p0 t (d_timed (wall_run ts)) (d_feq (wall_run ts), [])) as (A & _).
  rewrite A; [reflexivity|]. rewrite timed_keys. intros (_ & H1 & H2). destruct H; congruence.
Qed.
End Run.

(* The time given to the function of a label at the last of the times ts. *)
Definition wall_time {K : ring} {point} (v : bvalue K point) (ts : list K) : option K :=
  if v_time v then Some (last ts 0%K) else None.

(* C60: for all the schemes with equilibria of the conserved moments, the labels, the
   points, the functions which prescribe the conserved moments and all the sequences of
   times, the moments of the column of a point of the wall are the equilibrium of the
   values prescribed for its label at its position, at the last time if the condition
   depends on the time. *)
Theorem C60_wall_equilibrium : forall (K : ring) (a : algo K) (point : Type) value ilabel (pts : list point) p0 ts i u w,
  eq_ok K a -> inverse (al_n a) (al_M a) (al_invM a) ->
  (i < length ilabel)%nat -> v_user (value (nth i ilabel 0)) = Some u -> prescribes K a point p0 u w ->
  let x := w (wall_time (value (nth i ilabel 0)) ts) (nth i pts p0) in
  let moments := mvmul (al_n a) (al_M a) (d_feq (wall_run K a point value ilabel pts p0 ts) i) in
  (forall k, (k < al_nc a)%nat -> moments k = x k) /\
  (forall k, (k < al_n a)%nat -> moments k = al_eq a x k).
Proof.
  intros K a point value ilabel pts p0 ts i u w He (Hinv & _) Hi U P x moments.
  assert (E : equilibrium_column K a (d_feq (wall_run K a point value ilabel pts p0 ts) i) x).
  { unfold x, wall_time. destruct (v_time (value (nth i ilabel 0))) eqn:T.
    - destruct ts as [|t0 ts0] using rev_ind; [|clear IHts0].
      + cbn [last]. pose proof (prepare_value K a point value ilabel pts p0 (unique ilabel) u w (new_method K point) i He Hi) as H.
        rewrite T in H. apply H; [|exact U|exact P]. apply unique_in. apply nth_In. exact Hi.
      + rewrite last_last, run_app. unfold update_feq. cbn [d_feq]. apply update_value with (u := u); try assumption.
        * intros e H1 H2. pose proof (timed_user K a point value ilabel pts p0 ts0 e H1) as H3. rewrite H2, U in H3. congruence.
        * apply timed_keys. split; [apply nth_In; exact Hi|]. split; [congruence|exact T].
    - rewrite run_untimed by (right; exact T).
      pose proof (prepare_value K a point value ilabel pts p0 (unique ilabel) u w (new_method K point) i He Hi) as H.
      rewrite T in H. apply H; [|exact U|exact P]. apply unique_in. apply nth_In. exact Hi. }
  assert (A : forall k, (k < al_n a)%nat -> moments k = al_eq a x k).
  { intros k Hk. unfold moments.
    transitivity (mvmul (al_n a) (al_M a) (mvmul (al_n a) (al_invM a) (al_eq a x)) k).
    - unfold mvmul at 1 2. apply (sum_ext K). intros l Hl. f_equal. apply E. exact Hl.
    - apply (mvmul_inverse K); assumption. }
  split; [|exact A]. intros k Hk. destruct He as (Hn & _ & _ & Hc). rewrite A by lia. apply Hc. exact Hk.
Qed.
Print Assumptions C60_wall_equilibrium.

(* Without value the column is zero. *)
Theorem C60_without_value : forall (K : ring) (a : algo K) (point : Type) value ilabel (pts : list point) p0 ts i,
  v_user (value (nth i ilabel 0)) = None -> forall k, d_feq (wall_run K a point value ilabel pts p0 ts) i k = 0%K.
Proof.
  intros K a point value ilabel pts p0 ts i U k. rewrite run_untimed by (left; exact U).
  unfold prepare_rhs. rewrite prepare_none by exact U. reflexivity.
Qed.
Print Assumptions C60_without_value.

(* Hence the table of a method is the one used by the models of the boundary conditions
   (BoundaryModel.v) and of the processes (ParallelModel.v): a function of the label of
   the link and of the point of the wall, here explicit. *)
Theorem C60_table : forall (K : ring) (a : algo K) st g (bl : list blink) value us ws ts,
  eq_ok K a -> inverse (al_n a) (al_M a) (al_invM a) ->
  (forall lab, v_user (value lab) = us lab) ->
  (forall lab u, us lab = Some u -> prescribes K a (list Q) [] u (ws lab)) ->
  let phi lab x k := match us lab with
                     | Some _ => mvmul (al_n a) (al_invM a) (al_eq a (ws lab (wall_time (value lab) ts) x)) k
                     | None => 0%K end in
  forall i b k, nth_error bl i = Some b -> (k < al_n a)%nat ->
  d_feq (wall_run K a (list Q) value (map b_lab bl) (map (wall_point st g) bl) [] ts) i k = feq_of st phi g b k.
Proof.
  intros K a st g bl value us ws ts He Hinv Hus Hw phi i b k Hb Hk. unfold feq_of, phi.
  assert (L : (i < length bl)%nat) by (apply nth_error_Some; rewrite Hb; discriminate).
  assert (E1 : nth i (map b_lab bl) 0 = b_lab b).
  { apply nth_error_nth. rewrite nth_error_map, Hb. reflexivity. }
  assert (E2 : nth i (map (wall_point st g) bl) [] = wall_point st g b).
  { apply nth_error_nth. rewrite nth_error_map, Hb. reflexivity. }
  destruct (us (b_lab b)) as [u|] eqn:U.
  - assert (L' : (i < length (map b_lab bl))%nat) by (rewrite map_length; exact L).
    destruct (C60_wall_equilibrium K a (list Q) value (map b_lab bl) (map (wall_point st g) bl) [] ts i u (ws (b_lab b)) He Hinv L') as (_ & H).
    + rewrite E1, Hus. exact U.
    + apply Hw. exact U.
    + rewrite E1, E2 in H. cbv zeta in H. destruct Hinv as (_ & HI).
      rewrite <- (mvmul_inverse K (al_n a) (al_invM a) (al_M a) (d_feq _ i) k HI Hk).
      apply (sum_ext K). intros l Hl. f_equal. apply H. exact Hl.
  - apply C60_without_value. rewrite E1, Hus. exact U.
Qed.
Print Assumptions C60_table.

(* A function may set distributions: they have no effect. *)
Theorem C60_distributions_refuted : exists (a : algo Zring) (u : user Zring Z) (f : vec Zring),
  eq_ok Zring a /\ inverse (al_n a) (al_M a) (al_invM a) /\
  (forall t ps mf j, snd (u t ps mf) j = f) /\
  d_feq (wall_run Zring a Z (fun _ => mkBV (Some u) false) [0] [7] 0 []) 0%nat 0%nat <> f 0%nat.
Proof.
  exists a_ex, (fun _ _ mf => (fst mf, fun _ _ => 1)), (fun _ => 1).
  split; [exact a_ex_eq_ok|]. split; [exact a_ex_inverse|]. split; [reflexivity|].
  vm_compute. discriminate.
Qed.
Print Assumptions C60_distributions_refuted.

(* A function of the time receives the moments of the previous step instead of zeros: if
   it does not overwrite them the prescribed value is not the one of the current time. *)
Theorem C60_accumulation_refuted : exists (a : algo Zring) (u : user Zring Z) (w : option Z -> Z -> vec Zring) ts,
  eq_ok Zring a /\ inverse (al_n a) (al_M a) (al_invM a) /\
  (forall t ps j, (j < length ps)%nat ->
     agree Zring (al_nc a) (fst (u t ps (zeros Zring, zeros Zring)) j) (w t (nth j ps 0))) /\
  mvmul (al_n a) (al_M a) (d_feq (wall_run Zring a Z (fun _ => mkBV (Some u) true) [0] [7] 0 ts) 0%nat) 0%nat
    <> w (Some (last ts 0)) 7 0%nat.
Proof.
  exists a_ex, (fun t ps mf => (fun j k => if Nat.eqb k 0 then fst mf j k + match t with Some s => s | None => 0 end else fst mf j k, snd mf)),
    (fun t _ _ => match t with Some s => s | None => 0 end), [1; 2].
  split; [exact a_ex_eq_ok|]. split; [exact a_ex_inverse|]. split.
  - intros t ps j Hj k Hk. cbn in Hk. assert (k = 0%nat) as -> by lia. reflexivity.
  - vm_compute. discriminate.
Qed.
Print Assumptions C60_accumulation_refuted.

(* Labels 3, 5, 3, 8: a constant density, a density 10 x + t, no value. *)
Definition u_const : user Zring Z := fun _ _ mf => (fun j k => if Nat.eqb k 0 then 4 else fst mf j k, snd mf).
Definition u_time : user Zring Z := fun t ps mf =>
  (fun j k => if Nat.eqb k 0 then 10 * nth j ps 0 + match t with Some s => s | None => 0 end else fst mf j k, snd mf).
Definition vals (lab : Z) : bvalue Zring Z :=
  if lab =? 5 then mkBV (Some u_const) false else if lab =? 3 then mkBV (Some u_time) true else mkBV None false.
Example C60_example :
  prescribes Zring a_ex Z 0 u_const (fun _ _ _ => 4) /\
  prescribes Zring a_ex Z 0 u_time (fun t x _ => 10 * x + match t with Some s => s | None => 0 end) /\
  map (fun i => map (d_feq (wall_run Zring a_ex Z vals [3; 5; 3; 8] [7; 2; 9; 1] 0 [1; 2]) i) [0; 1]%nat) [0; 1; 2; 3]%nat
  = [[-144; 216]; [-8; 12]; [-184; 276]; [0; 0]].
Proof.
  split; [|split; [|vm_compute; reflexivity]].
  - intros t ps mf j Hj k Hk. cbn in Hk. assert (k = 0%nat) as -> by lia. reflexivity.
  - intros t ps mf j Hj k Hk. cbn in Hk. assert (k = 0%nat) as -> by lia. reflexivity.
Qed.
