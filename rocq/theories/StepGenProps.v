(* C63: the kernels printed for Cython and for NumPy compute the time step of the scheme. *)
From Verif Require Import PyBase VelocityModel GridModel StorageModel ExchangeProofs LinAlg AlgoModel AlgoProofs RelVelProofs KernelProofs GlobalModel GlobalProofs TorusProofs AlgoProps GlobalProps GenModel GenProofs GenProps StepGenModel StepGenProofs.
Require Import Lia.
Open Scope Z_scope.

Section Scheme.
Variable K : arith.
Implicit Types (t : term K) (a : salgo K).

Fixpoint vars t : list nat := match t with
  | Num _ => []
  | Var i => [i]
  | Un _ t => vars t
  | Bin _ t1 t2 => vars t1 ++ vars t2
  end.
Definition below (n : nat) t : Prop := forall i, In i (vars t) -> (i < n)%nat.
(* The equilibria, the relaxation parameters and the relative velocity are expressions of the
   conserved moments, the equilibrium of a conserved moment is itself, Tu is written with the
   components of the relative velocity, the sources with the moments. *)
Record scheme_ok a : Prop := {
  so_nc : (sa_nc K a <= sa_n K a)%nat;
  so_eq : forall k, (k < sa_n K a)%nat -> below (sa_nc K a) (sa_eq K a k);
  so_id : forall k, (k < sa_nc K a)%nat -> sa_eq K a k = Var k;
  so_s : forall k, (k < sa_n K a)%nat -> below (sa_nc K a) (sa_s K a k);
  so_rel : forall rel j, sa_relvel K a = Some rel -> (j < sa_dim K a)%nat -> below (sa_nc K a) (rel j);
  so_Tu : forall i j, (i < sa_n K a)%nat -> (j < sa_n K a)%nat -> below (sa_dim K a) (sa_Tu K a i j);
  so_src : forall k g, In (k, g) (sa_source K a) -> below (sa_n K a) g }.
(* More for NumPy: the relaxation parameters are numbers, and no component of the relative
   velocity is just a moment. *)
Record numpy_ok a : Prop := {
  no_s : forall k, (k < sa_n K a)%nat -> vars (sa_s K a k) = [];
  no_rel : forall rel j i, sa_relvel K a = Some rel -> (j < sa_dim K a)%nat -> rel j <> Var i }.

Lemma teval_ext (x y : vec K) t : (forall i, In i (vars t) -> x i = y i) -> teval K x t = teval K y t.
Proof.
  induction t; cbn; intros H; [reflexivity|apply H; now left|now rewrite IHt|].
  rewrite IHt1, IHt2; [reflexivity| |]; intros i Hi; apply H, in_or_app; tauto.
Qed.
Lemma below_le n m t : (n <= m)%nat -> below n t -> below m t.
Proof. intros H B i Hi. specialize (B i Hi). lia. Qed.

Lemma scheme_algo a : scheme_ok a -> algo_ok K (algo_of K a).
Proof.
  intros [S1 S2 S3 S4 S5 S6 S7]. split; [|split].
  - split; [exact S1|]. split; [|split].
    + intros m m' H k Hk. apply teval_ext. intros i Hi. apply H. now apply (S2 k Hk).
    + intros m m' H k Hk. apply teval_ext. intros i Hi. apply H. now apply (S4 k Hk).
    + intros m i Hi. cbn. now rewrite S3.
  - intros k g m m' Hi H. cbn in Hi. apply in_map_iff in Hi as ([k' t] & E & Hi). injection E as <- <-.
    apply teval_ext. intros i Hv. apply H. now apply (S7 _ _ Hi).
  - split.
    + intros rel m m' E H j Hj. cbn in E. destruct (sa_relvel K a) as [r|] eqn:Er; [|discriminate]. injection E as <-.
      apply teval_ext. intros i Hi. apply H. now apply (S5 r j eq_refl Hj).
    + intros u u' i j H Hi Hj. apply teval_ext. intros k Hk. apply H. now apply (S6 i j).
Qed.

(* ---- the statements use the arrays as they should ---- *)
(* ns components, dv components of the relative velocity, elements of mv only if mv *)
Fixpoint good (ns dv : nat) (mv : bool) (e : sym K) : Prop := match e with
  | YNum _ => True
  | YOld k | YNew k | YMom k => (k < ns)%nat
  | YMv k => mv = true /\ (k < ns)%nat
  | YVel j => (j < dv)%nat
  | YUn _ e => good ns dv mv e
  | YBin _ e1 e2 => good ns dv mv e1 /\ good ns dv mv e2
  end.
Definition gstmt (ns dv : nat) (mv : bool) (s : sstmt K) : Prop := tbound ns (fst s) /\ good ns dv mv (snd s).
Lemma good_bound ns dv mv e : good ns dv mv e -> sbound K ns e.
Proof. induction e; cbn; tauto. Qed.
Lemma good_nomv ns dv e : good ns dv false e -> nomv K e.
Proof. induction e; cbn; try tauto. intros [H _]. discriminate. Qed.
Lemma good_vels ns dv mv e j : good ns dv mv e -> In j (vels K e) -> (j < dv)%nat.
Proof. induction e; cbn; try tauto; [intros H [<-|[]]; exact H|]. rewrite in_app_iff. tauto. Qed.
Lemma good_le ns dv dv' mv e : (dv <= dv')%nat -> good ns dv mv e -> good ns dv' mv e.
Proof. intros L. induction e; cbn; try tauto. lia. Qed.
Lemma gstmt_le ns dv dv' mv s : (dv <= dv')%nat -> gstmt ns dv mv s -> gstmt ns dv' mv s.
Proof. intros L [H1 H2]. split; [exact H1|now apply (good_le ns dv)]. Qed.
Lemma good_sub ns dv mv (s : nat -> sym K) t : (forall i, In i (vars t) -> good ns dv mv (s i)) -> good ns dv mv (tsub K s t).
Proof.
  induction t; cbn; intros H; [exact I|apply H; now left|now apply IHt|].
  split; [apply IHt1|apply IHt2]; intros i Hi; apply H, in_or_app; tauto.
Qed.
Lemma good_sum ns dv mv n (g : nat -> sym K) : (forall j, (j < n)%nat -> good ns dv mv (g j)) -> good ns dv mv (ysum K n g).
Proof.
  intros H. unfold ysum. assert (E : forall j, In j (seq 0 n) -> good ns dv mv (g j)) by (intros j Hj; apply H; apply in_seq in Hj; lia).
  revert E. induction (seq 0 n) as [|j l IH]; cbn; intros E; [exact I|]. split; [apply E; now left|apply IH; intros i Hi; apply E; now right].
Qed.
Lemma good_mv ns dv mv n M (f : nat -> sym K) i : (forall j, (j < n)%nat -> good ns dv mv (M i j)) -> (forall j, (j < n)%nat -> good ns dv mv (f j)) ->
  good ns dv mv (ymv K n M f i).
Proof. intros H1 H2. apply good_sum. intros j Hj. split; auto. Qed.
Lemma good_assign ns dv mv (t : nat -> target) lo hi (e : nat -> sym K) : (forall k, (lo <= k < hi)%nat -> tbound ns (t k) /\ good ns dv mv (e k)) ->
  Forall (gstmt ns dv mv) (sassign K t lo hi e).
Proof. intros H. apply Forall_forall. intros s Hs. unfold sassign in Hs. apply in_map_iff in Hs as (k & <- & Hk). apply in_seq in Hk. apply (H k). lia. Qed.

Section Good.
Variable a : salgo K.
Hypothesis S : scheme_ok a.
Variable mv : bool.
Hypothesis HM : mv = false -> forall k, (k < sa_n K a)%nat -> vars (sa_s K a k) = [].
Notation n := (sa_n K a).
Notation nc := (sa_nc K a).
Notation dv := (sa_dim K a).

Lemma good_eq d k : (k < n)%nat -> good n d mv (yeq K a k).
Proof using S HM. intros Hk. apply good_sub. intros i Hi. pose proof (so_eq a S k Hk i Hi). pose proof (so_nc a S). cbn. lia. Qed.
Lemma good_s d k : (k < n)%nat -> good n d mv (ys K a k).
Proof using S HM.
  intros Hk. apply good_sub. intros i Hi. pose proof (so_s a S k Hk i Hi). pose proof (so_nc a S). cbn. split; [|lia].
  destruct mv; [reflexivity|]. rewrite (HM eq_refl k Hk) in Hi. destruct Hi.
Qed.
Lemma good_Tu i j : (i < n)%nat -> (j < n)%nat -> good n dv mv (yTu K a i j).
Proof using S HM. intros Hi Hj. apply good_sub. intros k Hk. exact (so_Tu a S i j Hi Hj k Hk). Qed.
Lemma good_Tmu i j : (i < n)%nat -> (j < n)%nat -> good n dv mv (yTmu K a i j).
Proof using S HM. intros Hi Hj. apply good_sub. intros k Hk. exact (so_Tu a S i j Hi Hj k Hk). Qed.
Lemma good_Mu i j : (i < n)%nat -> (j < n)%nat -> good n dv mv (yMu K a i j).
Proof using S HM. intros Hi Hj. apply good_sum. intros k Hk. split; [now apply good_Tu|exact I]. Qed.
Lemma good_invMu i j : (i < n)%nat -> (j < n)%nat -> good n dv mv (yinvMu K a i j).
Proof using S HM. intros Hi Hj. apply good_sum. intros k Hk. split; [exact I|now apply good_Tmu]. Qed.

(* with_velocity: the number of components of the relative velocity in the later statements *)
Definition dvel : nat := match sa_relvel K a with None => 0%nat | Some _ => dv end.
Lemma good_m2f : Forall (gstmt n dvel mv) (sm2f K a).
Proof using S HM.
  unfold sm2f, dvel. destruct (sa_relvel K a); apply good_assign; intros k Hk; (split; [cbn; lia|]); apply good_mv; try (intros j Hj; exact I); try (intros j Hj; exact Hj).
  intros j Hj. apply good_invMu; lia.
Qed.
Lemma good_source : Forall (gstmt n dvel mv) (swith_source K a).
Proof using S HM.
  unfold swith_source. assert (H : Forall (gstmt n dvel mv) (ssource K a)).
  { apply good_assign. intros k Hk. split; [cbn; lia|]. unfold ssource_of.
    destruct (find _ (rev (sa_source K a))) as [[i g]|] eqn:E; [|cbn; lia].
    apply find_some in E as [E _]. apply in_rev in E. cbn. split; [lia|]. split; [exact I|]. apply good_sub. intros j Hj. exact (so_src a S i g E j Hj). }
  destruct (sa_source K a); [constructor|exact H].
Qed.
Lemma good_relaxation : Forall (gstmt n dvel mv) (srelaxation K a).
Proof using S HM.
  apply good_assign. intros k Hk. split; [cbn; lia|]. cbn. split; split.
  - split; [exact I|apply good_s; lia].
  - lia.
  - apply good_s; lia.
  - unfold dvel. destruct (sa_relvel K a); [|apply good_eq; lia]. apply good_mv; intros j Hj; [apply good_Tu; lia|now apply good_eq].
Qed.
Lemma good_restore : sa_relvel K a <> None -> Forall (gstmt n dvel mv) (srestore K a).
Proof using S HM.
  intros R. pose proof (so_nc a S). apply good_assign. intros k Hk. split; [cbn; lia|]. unfold dvel. destruct (sa_relvel K a); [|congruence].
  apply good_mv; intros j Hj; [apply good_Mu; lia|exact Hj].
Qed.
Lemma good_transport : Forall (gstmt n 0 mv) (stransport K a).
Proof. apply good_assign. intros k Hk. split; cbn; lia. Qed.
(* f2m: what comes before the relative velocity, the relative velocity, what comes after *)
Lemma good_f2m (src : nat -> sym K) : (forall k d, (k < n)%nat -> good n d mv (src k)) -> exists p1 p2, sf2m K a src = p1 ++ p2 /\
  Forall (gstmt n 0 mv) p1 /\ Forall (gstmt n dvel mv) p2 /\ (forall j, (j < dvel)%nat -> In (TU j) (map fst p1)).
Proof using S HM.
  intros Hs. pose proof (so_nc a S) as Hn. unfold sf2m, dvel. destruct (sa_relvel K a) as [rel|] eqn:R.
  - exists (sassign K TM 0 nc (ymv K n (yM K a) src) ++ sassign K TU 0 dv (fun j => tsub K YMom (rel j))), (sassign K TM nc n (ymv K n (yMu K a) src)).
    split; [now rewrite app_assoc|]. split; [|split].
    + apply Forall_app. split; apply good_assign; intros k Hk.
      * split; [cbn; lia|]. apply good_mv; intros j Hj; [exact I|now apply Hs].
      * split; [exact I|]. apply good_sub. intros i Hi. pose proof (so_rel a S rel k R ltac:(lia) i Hi). cbn. lia.
    + apply good_assign. intros k Hk. split; [cbn; lia|]. apply good_mv; intros j Hj; [apply good_Mu; lia|now apply Hs].
    + intros j Hj. rewrite map_app, in_app_iff. right. unfold sassign. rewrite map_map. cbn. apply in_map_iff. exists j. split; [reflexivity|]. apply in_seq. lia.
  - exists [], (sassign K TM 0 n (ymv K n (yM K a) src)). split; [reflexivity|]. split; [constructor|]. split; [|intros j Hj; lia].
    apply good_assign. intros k Hk. split; [cbn; lia|]. apply good_mv; intros j Hj; [exact I|now apply Hs].
Qed.
(* a program in two parts, the first one without relative velocity, which defines it *)
Definition two_parts (p : list (sstmt K)) : Prop := exists p1 p2, p = p1 ++ p2 /\
  Forall (gstmt n 0 mv) p1 /\ Forall (gstmt n dvel mv) p2 /\ (forall j, (j < dvel)%nat -> In (TU j) (map fst p1)).
Lemma parts_pull : two_parts (spull K a).
Proof using S HM.
  destruct (good_f2m YOld) as (p1 & p2 & E & G1 & G2 & G3); [intros k d Hk; exact Hk|].
  unfold spull. rewrite E. exists p1, (p2 ++ swith_source K a ++ srelaxation K a ++ match sa_relvel K a with None => [] | Some _ => srestore K a end ++ swith_source K a ++ sm2f K a).
  split; [now rewrite <- app_assoc|]. split; [exact G1|]. split; [|exact G3].
  repeat (apply Forall_app; split); auto using good_source, good_relaxation, good_m2f.
  destruct (sa_relvel K a) eqn:R; [|constructor]. apply good_restore. congruence.
Qed.
Lemma parts_base : two_parts (sbase K a).
Proof using S HM.
  destruct (good_f2m YNew) as (p1 & p2 & E & G1 & G2 & G3); [intros k d Hk; exact Hk|].
  unfold sbase. rewrite E. exists (stransport K a ++ p1), (p2 ++ swith_source K a ++ srelaxation K a ++ swith_source K a ++ sm2f K a).
  split; [now rewrite <- !app_assoc|]. split; [|split].
  - apply Forall_app. split; [apply good_transport|exact G1].
  - repeat (apply Forall_app; split); auto using good_source, good_relaxation, good_m2f.
  - intros j Hj. rewrite map_app, in_app_iff. right. now apply G3.
Qed.
Lemma parts_bounded p : two_parts p -> Forall (bounded K n) p.
Proof using.
  clear HM S.
  intros (p1 & p2 & -> & G1 & G2 & _). apply Forall_app. split; eapply Forall_impl; try eassumption; intros s [H1 H2]; (split; [exact H1|eapply good_bound; exact H2]).
Qed.
Lemma parts_nomv p : mv = false -> two_parts p -> Forall (fun s => nomv K (snd s)) p.
Proof using.
  clear HM S.
  intros M (p1 & p2 & -> & G1 & G2 & _). rewrite M in G1, G2. apply Forall_app. split; eapply Forall_impl; try eassumption; intros s [H1 H2]; eapply good_nomv; exact H2.
Qed.
Lemma defined_app p q : forall D, defined K D p -> (forall D', incl D D' -> (forall j, In (TU j) (map fst p) -> In j D') -> defined K D' q) -> defined K D (p ++ q).
Proof using.
  clear HM S.
  induction p as [|[t e] p IH]; intros D H1 H2; [apply H2; [apply incl_refl|intros j []]|]. cbn in *. destruct H1 as [H0 H1]. split; [exact H0|].
  apply IH; [exact H1|]. intros D' I1 I2. apply H2.
  - intros j Hj. apply I1. destruct t; [exact Hj|exact Hj|now right].
  - intros j [E|Hj]; [|now apply I2]. cbn in E. subst t. apply I1. now left.
Qed.
Lemma defined_good d p : Forall (gstmt n d mv) p -> forall D, (forall j, (j < d)%nat -> In j D) -> defined K D p.
Proof using.
  clear HM S.
  induction 1 as [|[t e] p [H1 H2] _ IH]; intros D HD; cbn; [exact I|]. split.
  - intros j Hj. apply HD. eapply good_vels; [exact H2|exact Hj].
  - apply IH. intros j Hj. destruct t; [now apply HD|now apply HD|right; now apply HD].
Qed.
Lemma parts_defined p : two_parts p -> defined K [] p.
Proof using.
  clear HM S.
  intros (p1 & p2 & -> & G1 & G2 & G3). apply defined_app; [apply (defined_good 0); [exact G1|intros j Hj; lia]|].
  intros D' _ H. apply (defined_good dvel); [exact G2|]. intros j Hj. now apply H, G3.
Qed.
End Good.

Lemma view_assign (t : nat -> target) lo hi (e : nat -> sym K) : (forall k j, t k <> TU j) -> Forall (not_view K) (sassign K t lo hi e).
Proof.
  intros H. apply Forall_forall. intros s Hs. unfold sassign in Hs. apply in_map_iff in Hs as (k & <- & _). cbn. specialize (H k). destruct (t k); [exact I|exact I|]. now destruct (H d).
Qed.
Lemma view_f2m a src : numpy_ok a -> Forall (not_view K) (sf2m K a src).
Proof.
  intros [_ N]. unfold sf2m. destruct (sa_relvel K a) as [rel|] eqn:R; [|apply view_assign; discriminate].
  apply Forall_app. split; [apply view_assign; discriminate|]. apply Forall_app. split; [|apply view_assign; discriminate].
  apply Forall_forall. intros s Hs. unfold sassign in Hs. apply in_map_iff in Hs as (j & <- & Hj). apply in_seq in Hj.
  cbn. pose proof (N rel j) as Nj. destruct (rel j) as [c|i|o t|o t1 t2]; cbn; try exact I. now apply (Nj i eq_refl); [lia|].
Qed.
Lemma view_rest a : Forall (not_view K) (swith_source K a) /\ Forall (not_view K) (srelaxation K a) /\ Forall (not_view K) (srestore K a) /\ Forall (not_view K) (sm2f K a) /\ Forall (not_view K) (stransport K a).
Proof.
  unfold swith_source, srelaxation, srestore, sm2f, stransport, ssource.
  repeat split; try (apply view_assign; discriminate); [destruct (sa_source K a); [constructor|apply view_assign; discriminate]|].
  destruct (sa_relvel K a); apply view_assign; discriminate.
Qed.
Lemma view_pull a : numpy_ok a -> Forall (not_view K) (spull K a).
Proof.
  intros N. destruct (view_rest a) as (V1 & V2 & V3 & V4 & V5). unfold spull. repeat (apply Forall_app; split); auto using view_f2m.
  destruct (sa_relvel K a); [exact V3|constructor].
Qed.
Lemma view_base a : numpy_ok a -> Forall (not_view K) (sbase K a).
Proof. intros N. destruct (view_rest a) as (V1 & V2 & V3 & V4 & V5). unfold sbase. repeat (apply Forall_app; split); auto using view_f2m. Qed.
End Scheme.

(* ------------------------------------------------------------------ the kernels on the arrays *)
Section Kernels.
Variables (K : arith) (a : salgo K) (pos : nat) (vmax sizes : list Z) (vel : nat -> list Z) (sh : nat -> list Z).
Notation n := (sa_n K a).
Notation rs := (inner_ranges vmax sizes).
Hypothesis G : pull_grid pos n vmax sizes vel sh.
(* the printed kernels *)
Definition cython_kernel (sp : list (sstmt K)) := map (cy_stmt K pos (length sizes) n vel) sp.
Definition numpy_kernel (sp : list (sstmt K)) := map (np_stmt K pos (length sizes) n vel) sp.
(* the element k at the cell x of the array number nm *)
Definition elt (A : arrays K) (nm : nat) (x : list Z) (k : nat) : K := A nm (ins pos (Z.of_nat k) x).
(* x - v_k *)
Definition from (x : list Z) (k : nat) : list Z := map2 Z.sub x (vel k).
(* the arrays are the same outside of the elements k < n of the inner cells of the array nm *)
Definition only_changes (nms : list nat) (A B : arrays K) : Prop :=
  forall nm q, ~ (In nm nms /\ exists x k, inbox rs x /\ (k < n)%nat /\ q = ins pos (Z.of_nat k) x) -> B nm q = A nm q.

Lemma grid_len k : (k < n)%nat -> length (vel k) = length sizes.
Proof using G.
  intros Hk. destruct G as [_ GH GV _]. pose proof (Forall2_length _ _ _ (GV k Hk)). pose proof (Forall2_length _ _ _ GH). congruence.
Qed.
Definition in_cells (x : list Z) : bool := existsb (list_eqb x) (nest rs).
Lemma in_cells_spec x : in_cells x = true <-> inbox rs x.
Proof.
  unfold in_cells. rewrite <- nest_in. rewrite existsb_exists. split.
  - intros (y & Hy & E). apply list_eqb_spec in E. congruence.
  - intros H. exists x. split; [exact H|]. now apply list_eqb_spec.
Qed.

(* Every list of statements: the printed kernels run the statements of AlgoModel.v. *)
Theorem C63_cython_loop (sp : list (sstmt K)) (p : list (AlgoModel.stmt K)) A (L0 : nat -> K) :
  Forall (bounded K n) sp -> Forall2 (stmt_rel K) sp p ->
  let B := fst (cython K (cython_kernel sp) (nest rs) (A, L0)) in
  (forall x k, length x = length sizes -> (k < n)%nat ->
     elt B 2 x k = fst (cython_loop list_eqb (shift_cell vel) p (nest rs) (elt A 0) (elt A 2, (L0, fun j => L0 (n + j)%nat))) x k) /\
  only_changes [2%nat] A B.
Proof using G.
  intros Hb Hr B. pose proof (inner_length _ _ (gr_halo _ _ _ _ _ _ G)) as Lr.
  assert (Hc : forall x, In x (nest rs) -> length x = length sizes) by (intros x Hx; apply nest_in, inbox_length in Hx; congruence).
  destruct (cy_loop K pos (length sizes) n vel grid_len A sp p Hb Hr (nest rs) Hc (A, L0) (elt A 2, (L0, fun j => L0 (n + j)%nat))) as (_ & R1 & _ & _).
  { split; [reflexivity|]. split; [reflexivity|]. split; reflexivity. }
  split; [exact R1|].
  intros nm q N. unfold B, cython_kernel. rewrite (cy_loop_frame K pos (length sizes) n vel sp Hb (nest rs) Hc); [reflexivity|].
  destruct (Nat.eq_dec nm 2) as [->|Ne]; [right|now left]. intros x k Hx Hk E. apply N. split; [now left|]. exists x, k. split; [now apply nest_in|]. split; assumption.
Qed.
Theorem C63_numpy_run (sp : list (sstmt K)) (p : list (AlgoModel.stmt K)) A (u : field K (list Z)) :
  Forall (bounded K n) sp -> Forall (fun s => nomv K (snd s)) sp -> Forall (not_view K) sp -> defined K [] sp -> Forall2 (stmt_rel K) sp p ->
  exists B L, numpy K rs sh (numpy_kernel sp) A = Some (B, L) /\
  let r := numpy_run (shift_cell vel) in_cells p (elt A 0, (elt A 1, u)) in
  (forall x k, length x = length sizes -> (k < n)%nat -> elt B 0 x k = fst r x k /\ elt B 1 x k = fst (snd r) x k) /\
  only_changes [0%nat; 1%nat] A B.
Proof using G.
  intros Hb Hn Hw HD Hr. pose proof G as [GP GH GV GS]. pose proof (inner_length _ _ GH) as Lr.
  destruct (np_run K pos (length sizes) n vel grid_len rs sizes sh in_cells) with (sp := sp) (p := p) (D := @nil nat) (A := A) (L := fun _ : nat => @None (nval K)) (g := (elt A 0, (elt A 1, u)))
    as (B & L & E & E0 & E1 & E2); try assumption.
  - now apply inner_range.
  - intros k Hk. apply inner_fits; [exact GH|]. apply opp_halo. now apply GV.
  - apply inner_fits; [exact GH|]. now apply zero_halo.
  - intros nm Hm. apply GS. lia.
  - exact in_cells_spec.
  - split; [|split]; [intros y k _ _; reflexivity|intros y k _ _; reflexivity|intros j []].
  - exists B, L. split; [exact E|]. split; [intros x k Lx Hk; split; [now apply E0|now apply E1]|].
    intros nm q N. apply E2. intros x k Hx Hk [Hm Eq]. apply N. split; [destruct nm as [|[|nm]]; [now left|right; now left|lia]|]. exists x, k. split; [exact Hx|]. split; assumption.
Qed.

(* ---- the time step ---- *)
Hypothesis S : scheme_ok K a.
Notation al := (algo_of K a).

(* The kernel one_time_step of Cython: fnew at each inner cell is the step of the values of f
   at x - v_k; nothing else is written. *)
Theorem C63_cython A (L0 : nat -> K) :
  let B := fst (cython K (cython_kernel (spull K a)) (nest rs) (A, L0)) in
  (forall x k, inbox rs x -> (k < n)%nat -> elt B 2 x k = pull_fun K al (fun j => elt A 0 (from x j) j) k) /\ only_changes [2%nat] A B.
Proof using G S.
  intros B. destruct (scheme_algo K a S) as (He & Hs & HR).
  assert (PB : Forall (bounded K n) (spull K a)) by (apply (parts_bounded K a true), parts_pull; [exact S|discriminate]).
  destruct (C63_cython_loop (spull K a) (pull_local al) A L0 PB (rel_pull K a)) as [C1 C2].
  split; [|exact C2]. intros x k Hx Hk. unfold B. rewrite C1; [|pose proof (inbox_length rs x Hx); rewrite (inner_length _ _ (gr_halo _ _ _ _ _ _ G)) in H; exact H|exact Hk].
  rewrite <- cython_loop_fluid_all.
  destruct (cython_fluid_spec K (list Z) list_eqb list_eqb_spec (shift_cell vel) (fun _ => true) (pull_local al) (elt A 0) (nest rs) (elt A 2, (L0, fun j => L0 (n + j)%nat)) x) as [H _].
  destruct (H (proj2 (nest_in rs x) Hx) eq_refl) as (fx & m & u & _ & E). rewrite E. apply (pull_computes K al He Hs HR). exact Hk.
Qed.
(* The kernel of NumPy, with one array for f and fnew: no error, the same values. *)
Theorem C63_numpy A : numpy_ok K a ->
  exists B L, numpy K rs sh (numpy_kernel (spull K a)) A = Some (B, L) /\
  (forall x k, inbox rs x -> (k < n)%nat -> elt B 0 x k = pull_fun K al (fun j => elt A 0 (from x j) j) k) /\ only_changes [0%nat; 1%nat] A B.
Proof using G S.
  intros N. destruct (scheme_algo K a S) as (He & Hs & HR).
  assert (PP : two_parts K a false (spull K a)) by (apply parts_pull; [exact S|intros _; apply (no_s K a N)]).
  destruct (C63_numpy_run (spull K a) (pull_local al) A (fun _ _ => 0%K)) as (B & L & E & E1 & E2).
  - apply (parts_bounded K a false). exact PP.
  - apply (parts_nomv K a false); [reflexivity|exact PP].
  - now apply view_pull.
  - apply (parts_defined K a false). exact PP.
  - apply rel_pull.
  - exists B, L. split; [exact E|]. split; [|exact E2]. intros x k Hx Hk.
    destruct (E1 x k) as [-> _]; [pose proof (inbox_length rs x Hx); rewrite (inner_length _ _ (gr_halo _ _ _ _ _ _ G)) in H; exact H|exact Hk|].
    destruct (pull_numpy_any K al (list Z) (shift_cell vel) in_cells (elt A 0) (elt A 1) (fun _ _ => 0%K) x (proj2 (in_cells_spec x) Hx)) as (fn & mx & ux & Ex).
    refine (eq_trans (f_equal (fun f => f k) Ex) _). apply (pull_computes K al He Hs HR). exact Hk.
Qed.
End Kernels.
(* With the laws of a ring. *)
Section KernelsRing.
Variables (K : ring) (a : salgo K) (pos : nat) (vmax sizes : list Z) (vel : nat -> list Z) (sh : nat -> list Z).
Notation n := (sa_n K a).
Notation rs := (inner_ranges vmax sizes).
Notation al := (algo_of K a).
Hypothesis G : pull_grid pos n vmax sizes vel sh.
Hypothesis S : scheme_ok K a.
Notation cython_kernel := (cython_kernel K a pos sizes vel).
Notation numpy_kernel := (numpy_kernel K a pos sizes vel).
Notation elt := (elt K pos).
Notation from := (from vel).
Notation only_changes := (only_changes K a pos vmax sizes).
Notation in_cells := (in_cells vmax sizes).
Notation in_cells_spec := (in_cells_spec vmax sizes).
Notation C63_numpy := (C63_numpy K a pos vmax sizes vel sh G S).
Notation C63_cython := (C63_cython K a pos vmax sizes vel sh G S).
Notation C63_cython_loop := (C63_cython_loop K a pos vmax sizes vel sh G).
Notation C63_numpy_run := (C63_numpy_run K a pos vmax sizes vel sh G).
(* Without relative velocity the values are M^-1 (half source, relaxation, half source) M. *)
Theorem C63_formula A (L0 : nat -> K) : sa_relvel K a = None -> numpy_ok K a ->
  exists B L, numpy K rs sh (numpy_kernel (spull K a)) A = Some (B, L) /\
  forall x k, inbox rs x -> (k < n)%nat ->
    elt (fst (cython K (cython_kernel (spull K a)) (nest rs) (A, L0))) 2 x k = collide K al (fun j => elt A 0 (from x j) j) k /\
    elt B 0 x k = collide K al (fun j => elt A 0 (from x j) j) k.
Proof using G S.
  intros R N. destruct (scheme_algo K a S) as (He & Hs & HR). destruct (C63_numpy A N) as (B & L & E & E1 & _). exists B, L. split; [exact E|].
  intros x k Hx Hk. rewrite E1 by assumption. rewrite (proj1 (C63_cython A L0)) by assumption.
  assert (R' : al_relvel al = None) by (cbn; now rewrite R). split; apply (pull_fun_collide K al _ He Hs R'); exact Hk.
Qed.
(* The base algorithm, transport in fnew first: the same values, with both back ends. *)
Theorem C63_base A (L0 : nat -> K) : sa_relvel K a = None -> numpy_ok K a ->
  let D := fst (cython K (cython_kernel (sbase K a)) (nest rs) (A, L0)) in
  exists B L, numpy K rs sh (numpy_kernel (sbase K a)) A = Some (B, L) /\
  (forall x k, inbox rs x -> (k < n)%nat ->
    elt D 2 x k = collide K al (fun j => elt A 0 (from x j) j) k /\
    elt B 0 x k = collide K al (fun j => elt A 0 (from x j) j) k) /\
  only_changes [2%nat] A D /\ only_changes [0%nat; 1%nat] A B.
Proof using G S.
  intros R N D. destruct (scheme_algo K a S) as (He & Hs & HR).
  assert (R' : al_relvel al = None) by (cbn; now rewrite R).
  assert (PB : Forall (bounded K n) (sbase K a)) by (apply (parts_bounded K a true), parts_base; [exact S|discriminate]).
  destruct (C63_cython_loop (sbase K a) (base_local al) A L0 PB (rel_base K a)) as [C1 C2].
  assert (PP : two_parts K a false (sbase K a)) by (apply parts_base; [exact S|intros _; apply (no_s K a N)]).
  destruct (C63_numpy_run (sbase K a) (base_local al) A (fun _ _ => 0%K)) as (B & L & E & E1 & E2).
  - exact PB.
  - apply (parts_nomv K a false); [reflexivity|exact PP].
  - now apply view_base.
  - apply (parts_defined K a false). exact PP.
  - apply rel_base.
  - exists B, L. split; [exact E|]. split; [|split; [exact C2|exact E2]]. intros x k Hx Hk.
    assert (Lx : length x = length sizes) by (pose proof (inbox_length rs x Hx); rewrite (inner_length _ _ (gr_halo _ _ _ _ _ _ G)) in H; exact H).
    split.
    + unfold D. rewrite C1 by assumption. rewrite <- cython_loop_fluid_all.
      destruct (cython_fluid_spec K (list Z) list_eqb list_eqb_spec (shift_cell vel) (fun _ => true) (base_local al) (elt A 0) (nest rs) (elt A 2, (L0, fun j => L0 (n + j)%nat)) x) as [H _].
      destruct (H (proj2 (nest_in rs x) Hx) eq_refl) as (fx & m & u & _ & E'). rewrite E'.
      apply (base_spec K al (mkView _ _ _ _) R' He Hs). exact Hk.
    + destruct (E1 x k) as [-> _]; [exact Lx|exact Hk|].
      destruct (base_numpy K al (shift_cell vel) in_cells (elt A 0) (elt A 1) (fun _ _ => 0%K) x (proj2 (in_cells_spec x) Hx)) as (fn & mx & ux & Ex).
      refine (eq_trans (f_equal (fun f => f k) Ex) _). apply (base_spec K al (mkView _ _ _ _) R' He Hs). exact Hk.
Qed.
End KernelsRing.
Print Assumptions C63_cython_loop.
Print Assumptions C63_numpy_run.
Print Assumptions C63_cython.
Print Assumptions C63_numpy.
Print Assumptions C63_formula.
Print Assumptions C63_base.

(* ------------------------------------------------------------------ runs on all the processes *)
Section Runs.
Variables (K : arith) (a : salgo K) (pos : nat) (axes : list axis) (vel : nat -> list Z).
Notation n := (sa_n K a).
Notation al := (algo_of K a).
Hypothesis Hpos : (pos <= length axes)%nat.
Hypothesis F : GlobalProps.fits axes vel n.
(* each process has a cell *)
Hypothesis NE : Forall (fun x => forall c, (c < ax_p x)%nat -> ax_lo x c < ax_hi x c) axes.
Hypothesis S : scheme_ok K a.

Lemma sizes_len c : coords_ok axes c -> length (sizes_of axes c) = length axes.
Proof using. intros Hc. unfold sizes_of. apply map2_length. now apply (Forall2_length _ _ _ Hc). Qed.
Lemma ranges_inner c i : coords_ok axes c -> (inbox (ranges_of axes c) i <-> inner axes c i).
Proof using.
  intros Hc. unfold ranges_of, sizes_of, inner. revert i. clear - Hc. induction Hc as [|x k l c Hk Hc IH]; intros i.
  - split; [intros H; inversion H; split; [reflexivity|cbn; lia]|]. intros [H _]. destruct i; [constructor|discriminate].
  - destruct i as [|y i]; [split; [intros H; inversion H|intros [H _]; discriminate]|].
    split.
    + intros H. inversion H as [|? ? ? ? H1 H2]; subst. apply IH in H2 as [L N]. split; [cbn; lia|]. intros d Hd. destruct d as [|d]; [exact H1|]. apply N. cbn in Hd. lia.
    + intros [L N]. constructor; [exact (N 0%nat ltac:(cbn; lia))|]. apply IH. split; [cbn in L; lia|]. intros d Hd. apply (N (Datatypes.S d)). cbn. lia.
Qed.
Lemma grid_proc c : coords_ok axes c -> pull_grid pos n (map ax_h axes) (sizes_of axes c) vel (fun _ => ins pos (Z.of_nat n) (sizes_of axes c)).
Proof using Hpos F NE.
  intros Hc. pose proof F as (_ & Hok & Hv). constructor.
  - now rewrite sizes_len.
  - clear - Hc Hok NE. unfold sizes_of. revert Hok NE. induction Hc as [|x k l c Hk Hc IH]; intros Hok NE; [constructor|].
    inversion Hok as [|? ? (A1 & A2 & A3 & A4) O2]; subst. inversion NE as [|? ? N1 N2]; subst. constructor; [|now apply IH].
    change (0 <= ax_h x /\ 2 * ax_h x < ax_size x k). unfold ax_size. specialize (N1 k Hk). split; [exact A3|]. lia.
  - intros l Hl. destruct (Hv l Hl) as [Ll Hb]. clear - Ll Hb. unfold in_halo. revert Ll Hb. generalize (vel l) as v. induction axes as [|x r IH]; intros v Ll Hb; destruct v as [|b v]; try discriminate; constructor.
    + exact (Hb 0%nat ltac:(cbn; lia)).
    + apply IH; [cbn in Ll; lia|]. intros d Hd. apply (Hb (Datatypes.S d)). cbn. lia.
  - reflexivity.
Qed.
Lemma array_elt (f : field K (list Z)) x k : (pos <= length x)%nat -> array_of K pos f (ins pos (Z.of_nat k) x) = f x k.
Proof using.
  clear. intros L. unfold array_of, drop_at, ins.
  assert (E1 : firstn pos (firstn pos x ++ Z.of_nat k :: skipn pos x) = firstn pos x).
  { rewrite firstn_app, firstn_length, Nat.min_l, Nat.sub_diag, firstn_firstn, Nat.min_id by exact L. cbn. apply app_nil_r. }
  assert (E2 : skipn (Datatypes.S pos) (firstn pos x ++ Z.of_nat k :: skipn pos x) = skipn pos x).
  { rewrite skipn_app, firstn_length, Nat.min_l by exact L. rewrite skipn_all2 by (rewrite firstn_length; lia). replace (Datatypes.S pos - pos)%nat with 1%nat by lia. reflexivity. }
  rewrite E1, E2, firstn_skipn. f_equal. rewrite app_nth2 by (rewrite firstn_length; lia). rewrite firstn_length, Nat.min_l, Nat.sub_diag by exact L. cbn. lia.
Qed.
Definition cython_program := map (cy_stmt K pos (length axes) n vel) (spull K a).
Definition numpy_program := map (np_stmt K pos (length axes) n vel) (spull K a).

Lemma read_elt (f : field K (list Z)) c i : coords_ok axes c -> inner axes c i -> forall j, (j < n)%nat ->
  array_of K pos f (ins pos (Z.of_nat j) (from vel i j)) = f (shift_cell vel j i) j.
Proof using Hpos F.
  intros Hc [Li _] j Hj. pose proof F as (_ & _ & Hv). destruct (Hv j Hj) as [Lj _].
  apply (array_elt f (from vel i j) j). unfold from. rewrite map2_length by congruence. now rewrite Li.
Qed.

Lemma gen_two_holds L0 st Gf : holds K axes n (fst st) Gf ->
  holds K axes n (fst (gen_two K pos axes cython_program L0 st)) (gstep K axes vel (pull_fun K al) Gf).
Proof using Hpos F NE S.
  intros HG c i Hc Hi k Hk. pose proof F as (Hd & Hok & Hv). destruct (scheme_algo K a S) as (He & Hs & HR).
  unfold gen_two, field_of. cbn [fst]. unfold cython_program. rewrite <- (sizes_len c Hc).
  refine (eq_trans (proj1 (C63_cython K a pos (map ax_h axes) (sizes_of axes c) vel _ (grid_proc c Hc) S _ L0) i k (proj2 (ranges_inner c i Hc) Hi) Hk) _).
  etransitivity; [|apply (step_value K axes vel n (pull_fun K al) Hd Hok Hv (fun f f' => pull_fun_agree K al f f' He Hs HR) (fst st) Gf c i HG Hc Hi); exact Hk].
  apply (pull_fun_agree K al _ _ He Hs HR); [|exact Hk]. intros j Hj. unfold elt. cbn [arrays3]. now apply (read_elt _ c).
Qed.
(* NumPy raises no error *)
Definition no_error (st : fields K * fields K) : Prop := forall c, coords_ok axes c ->
  numpy K (ranges_of axes c) (fun _ => ins pos (Z.of_nat n) (sizes_of axes c)) numpy_program (arrays3 K pos (update axes (fst st) c) (snd st c) (zero_field K)) <> None.
Lemma gen_one_holds st Gf : numpy_ok K a -> holds K axes n (fst st) Gf ->
  holds K axes n (fst (gen_one K pos axes n numpy_program st)) (gstep K axes vel (pull_fun K al) Gf) /\ no_error st.
Proof using Hpos F NE S.
  intros N HG. pose proof F as (Hd & Hok & Hv). destruct (scheme_algo K a S) as (He & Hs & HR).
  assert (E : forall c, coords_ok axes c -> exists B L, numpy K (ranges_of axes c) (fun _ => ins pos (Z.of_nat n) (sizes_of axes c)) numpy_program (arrays3 K pos (update axes (fst st) c) (snd st c) (zero_field K)) = Some (B, L) /\
    forall i k, inner axes c i -> (k < n)%nat -> B 0%nat (ins pos (Z.of_nat k) i) = pull_fun K al (fun j => update axes (fst st) c (shift_cell vel j i) j) k).
  { intros c Hc. unfold numpy_program. rewrite <- (sizes_len c Hc).
    destruct (C63_numpy K a pos (map ax_h axes) (sizes_of axes c) vel _ (grid_proc c Hc) S (arrays3 K pos (update axes (fst st) c) (snd st c) (zero_field K)) N) as (B & L & E1 & E2 & _).
    exists B, L. split; [exact E1|]. intros i k Hi Hk. refine (eq_trans (E2 i k (proj2 (ranges_inner c i Hc) Hi) Hk) _).
    apply (pull_fun_agree K al _ _ He Hs HR); [|exact Hk]. intros j Hj. unfold elt. cbn [arrays3]. now apply (read_elt _ c). }
  split.
  - intros c i Hc Hi k Hk. destruct (E c Hc) as (B & L & E1 & E2). unfold gen_one, field_of. cbn [fst]. rewrite E1. rewrite E2 by assumption.
    apply (step_value K axes vel n (pull_fun K al) Hd Hok Hv (fun f f' => pull_fun_agree K al f f' He Hs HR) (fst st) Gf c i HG Hc Hi); exact Hk.
  - intros c Hc. destruct (E c Hc) as (B & L & E1 & _). rewrite E1. discriminate.
Qed.
Lemma gen_two_run L0 st Gf : holds K axes n (fst st) Gf -> forall t,
  holds K axes n (fst (iter t (gen_two K pos axes cython_program L0) st)) (iter t (gstep K axes vel (pull_fun K al)) Gf).
Proof using Hpos F NE S. intros H. induction t as [|t IH]; [exact H|]. cbn [iter]. now apply gen_two_holds. Qed.
Lemma gen_one_run st Gf : numpy_ok K a -> holds K axes n (fst st) Gf -> forall t,
  holds K axes n (fst (iter t (gen_one K pos axes n numpy_program) st)) (iter t (gstep K axes vel (pull_fun K al)) Gf).
Proof using Hpos F NE S. intros N H. induction t as [|t IH]; [exact H|]. cbn [iter]. now apply gen_one_holds. Qed.

(* The generated code for Cython (two storages) and for NumPy (one storage) gives the same
   values after any number of steps on any number of processes, without error. *)
Theorem C63_runs L0 (st1 st2 : fields K * fields K) : numpy_ok K a ->
  (forall c i k, coords_ok axes c -> inner axes c i -> (k < n)%nat -> fst st1 c i k = fst st2 c i k) ->
  forall t, no_error (iter t (gen_one K pos axes n numpy_program) st2) /\
  forall c i k, coords_ok axes c -> inner axes c i -> (k < n)%nat ->
    fst (iter t (gen_two K pos axes cython_program L0) st1) c i k = fst (iter t (gen_one K pos axes n numpy_program) st2) c i k.
Proof using Hpos F NE S.
  intros N H t. destruct (holds_ex K axes vel n (fst st1) F) as [Gf HG].
  assert (HG2 : holds K axes n (fst st2) Gf) by (intros c i Hc Hi k Hk; rewrite <- H by assumption; now apply HG).
  split; [apply (gen_one_holds _ (iter t (gstep K axes vel (pull_fun K al)) Gf) N); now apply gen_one_run|].
  intros c i k Hc Hi Hk. rewrite (gen_two_run L0 st1 Gf HG t c i Hc Hi k Hk). symmetry. now apply (gen_one_run st2 Gf N HG2 t c i Hc Hi k Hk).
Qed.
(* The runs of the generated code are the runs of the statements of AlgoModel.v: what is
   proved of two_step and one_step (C24, C27, C28, C29, C34) holds of the generated code. *)
Theorem C63_refines L0 m0 u0 (st : fields K * fields K) (Fn : fields K) : forall t c i k, coords_ok axes c -> inner axes c i -> (k < n)%nat ->
  fst (iter t (gen_two K pos axes cython_program L0) st) c i k = fst (iter t (two_step axes vel (pull_local al) m0 u0) (fst st, Fn)) c i k.
Proof using Hpos F NE S.
  intros t c i k Hc Hi Hk. destruct (holds_ex K axes vel n (fst st) F) as [Gf HG].
  rewrite (gen_two_run L0 st Gf HG t c i Hc Hi k Hk). symmetry.
  apply (two_holds K al axes vel m0 u0 (fst st, Fn) Gf F (scheme_algo K a S) HG t c i Hc Hi k Hk).
Qed.
End Runs.
Section RunsRing.
Variables (K : ring) (a : salgo K) (pos : nat) (axes : list axis) (vel : nat -> list Z).
Notation n := (sa_n K a).
Notation al := (algo_of K a).
Hypothesis Hpos : (pos <= length axes)%nat.
Hypothesis F : GlobalProps.fits axes vel n.
Hypothesis NE : Forall (fun x => forall c, (c < ax_p x)%nat -> ax_lo x c < ax_hi x c) axes.
Hypothesis S : scheme_ok K a.
Notation cython_program := (cython_program K a pos axes vel).
Notation numpy_program := (numpy_program K a pos axes vel).
Notation gen_two_run := (gen_two_run K a pos axes vel Hpos F NE S).
Notation gen_one_run := (gen_one_run K a pos axes vel Hpos F NE S).
(* The sums of the conserved moments over all the cells of all the processes are constant. *)
Theorem C63_conservation L0 (st : fields K * fields K) cs i : Forall (fun x => 0 < ax_n x) axes -> sa_source K a = [] -> frame_ok K al ->
  NoDup cs -> (forall c, In c cs <-> coords_ok axes c) -> (i < sa_nc K a)%nat ->
  let q f := mvmul n (sa_M K a) f i in
  forall t, total K axes cs q (fst (iter t (gen_two K pos axes cython_program L0) st)) = total K axes cs q (fst st) /\
  (numpy_ok K a -> total K axes cs q (fst (iter t (gen_one K pos axes n numpy_program) st)) = total K axes cs q (fst st)).
Proof using Hpos F NE S.
  intros Hp HS HF Hnd Hcs Hi q t. pose proof F as (Hd & Hok & Hv). destruct (scheme_algo K a S) as (He & Hs & HR).
  assert (HS' : al_source al = []) by (cbn; now rewrite HS).
  assert (Hq : forall f f', agree K n f f' -> q f = q f') by (intros f f' H; apply mvmul_ext; exact H).
  destruct (holds_ex K axes vel n (fst st) F) as [Gf HG].
  pose proof (proj1 (C27_global_conservation K al axes vel (fun _ => 0%K) (fun _ => 0%K) st (fst st, (fst st, fst st)) cs i F Hp HS' He HR HF Hnd Hcs Hi t)) as C.
  pose proof (two_holds K al axes vel (fun _ => 0%K) (fun _ => 0%K) st Gf F (scheme_algo K a S) HG t) as HG2.
  assert (T : forall P, holds K axes n P (iter t (gstep K axes vel (pull_fun K al)) Gf) -> total K axes cs q P = total K axes cs q (fst st)).
  { intros P HP. rewrite (total_global K axes vel n Hd Hok (fits_len _ _ _ F) cs q _ _ Hnd Hcs Hq HP). etransitivity; [|exact C]. symmetry.
    exact (total_global K axes vel n Hd Hok (fits_len _ _ _ F) cs q _ _ Hnd Hcs Hq HG2). }
  split; [apply T; now apply gen_two_run|]. intros N. apply T. now apply gen_one_run.
Qed.
End RunsRing.
Print Assumptions C63_runs.
Print Assumptions C63_refines.
Print Assumptions C63_conservation.

(* ------------------------------------------------------------------ examples *)
(* Two velocities 0 and 1, m0 = f0 + f1, m1 = f1, the equilibrium of m1 is m0 * m0, the
   relative velocity m0 + 1, a source m0 for m1. *)
Definition mat2 (l : list (list Z)) (i j : nat) : Zring := nth j (nth i l []) 0.
Definition zadd : Zring -> Zring -> Zring := Z.add.
Definition zmul : Zring -> Zring -> Zring := Z.mul.
Definition zopp : Zring -> Zring := Z.opp.
Definition sch (rel : bool) (s1 : term Zring) (src : list (nat * term Zring)) : salgo Zring :=
  mkSalgo Zring 2 1 1 (mat2 [[1; 1]; [0; 1]]) (mat2 [[1; -1]; [0; 1]])
    (fun i j => match i, j with 1%nat, 0%nat => Un zopp (Var 0) | 0%nat, 1%nat => Num (K := Zring) 0 | _, _ => Num (K := Zring) 1 end)
    (fun k => match k with O => Var 0 | _ => Bin zmul (Var 0) (Var 0) end)
    (fun k => match k with O => Num (K := Zring) 0 | _ => s1 end)
    (if rel then Some (fun _ => Bin zadd (Var 0) (Num (K := Zring) 1)) else None) src 1.
Definition velz (k : nat) : list Z := [Z.of_nat k].
Definition shz (pos : nat) (_ : nat) : list Z := ins pos 2 [5].
Definition Az : arrays Zring := fun nm q => match nm, q with O, [k; x] => x * x + 3 * k + 1 | _, _ => 0 end.

Lemma sch_ok rel s1 src : below Zring 1 s1 -> (forall k g, In (k, g) src -> below Zring 2 g) -> scheme_ok Zring (sch rel s1 src).
Proof.
  intros H1 H2. constructor; cbn.
  - lia.
  - intros k Hk i Hi. destruct k as [|[|k]]; cbn in Hi; lia.
  - intros k Hk. destruct k; [reflexivity|lia].
  - intros k Hk. destruct k as [|k]; [intros i []|exact H1].
  - intros r j E Hj. destruct rel; [|discriminate]. injection E as <-. intros i [<-|[]]. lia.
  - intros i j Hi Hj k Hk. destruct i as [|[|i]], j as [|[|j]]; cbn in Hk; lia.
  - exact H2.
Qed.
Lemma sch_grid : pull_grid 0 2 [1] [5] velz (shz 0).
Proof. constructor; [cbn; lia|repeat constructor; lia| |reflexivity]. intros l Hl. repeat constructor. cbn. lia. Qed.
(* the same kernel in both languages and the formula at the cell 2 *)
Definition lookz (r : option (arrays Zring * nlocals Zring)) (n : nat) (q : list Z) : option Z := match r with Some (A, _) => Some (A n q) | None => None end.
Example C63_example :
  let a := sch true (Num (K := Zring) 2) [(1%nat, Var 0)] in
  scheme_ok Zring a /\ numpy_ok Zring a /\ pull_grid 0 (sa_n Zring a) [1] [5] velz (shz 0) /\
  fst (cython Zring (cython_kernel Zring a 0 [5] velz (spull Zring a)) (nest (inner_ranges [1] [5])) (Az, fun _ => 7)) 2%nat [1; 2] = 195 /\
  lookz (numpy Zring (inner_ranges [1] [5]) (shz 0) (numpy_kernel Zring a 0 [5] velz (spull Zring a)) Az) 0%nat [1; 2] = Some 195 /\
  pull_fun Zring (algo_of Zring a) (fun j => match j with O => 5 | _ => 5 end) 1%nat = 195.
Proof.
  cbv zeta. split; [|split; [|split; [exact sch_grid|split; [|split]]]]; [| |vm_compute; reflexivity..].
  - apply sch_ok; [intros i []|]. intros k g [E|[]]. injection E as <- <-. intros i [<-|[]]. lia.
  - constructor; cbn; [intros k Hk; destruct k; reflexivity|]. intros r j i E _. injection E as <-. discriminate.
Qed.

(* Seven cells on two processes, no source. *)
Definition axz : list axis := [mkAxis 7 2 1].
Definition Fz : fields Zring := fun c i k => 10 * Z.of_nat (nth 0 c 0%nat) + nth 0 i 0 + 3 * Z.of_nat k.
Example C63_run_example :
  let a := sch true (Num (K := Zring) 2) [] in
  scheme_ok Zring a /\ numpy_ok Zring a /\ GlobalProps.fits axz velz (sa_n Zring a) /\
  Forall (fun x => forall c, (c < ax_p x)%nat -> ax_lo x c < ax_hi x c) axz /\
  frame_ok Zring (algo_of Zring a) /\
  let cyp := cython_program Zring a 1 axz velz in let npp := numpy_program Zring a 1 axz velz in
  fst (iter 2 (gen_two Zring 1 axz cyp (fun _ => 3)) (Fz, Fz)) [1%nat] [2] 1%nat = fst (iter 2 (gen_one Zring 1 axz 2 npp) (Fz, fun _ _ _ => 4)) [1%nat] [2] 1%nat /\
  fst (iter 2 (gen_two Zring 1 axz cyp (fun _ => 3)) (Fz, Fz)) [1%nat] [2] 1%nat <> Fz [1%nat] [2] 1%nat /\
  total Zring axz [[0]; [1]]%nat (fun f => mvmul 2 (sa_M Zring a) f 0%nat) (fst (iter 2 (gen_two Zring 1 axz cyp (fun _ => 3)) (Fz, Fz))) =
  total Zring axz [[0]; [1]]%nat (fun f => mvmul 2 (sa_M Zring a) f 0%nat) Fz.
Proof.
  cbv zeta. split; [apply sch_ok; [intros i []|intros k g []]|]. split; [constructor; cbn; [intros k Hk; destruct k; reflexivity|]; intros r j i E _; injection E as <-; discriminate|].
  split; [|split; [|split; [|split; [vm_compute; reflexivity|split; [vm_compute; discriminate|vm_compute; reflexivity]]]]].
  - split; [cbn; lia|]. split.
    + constructor; [|constructor]. repeat split; try (cbn; lia). cbn. intros [|[|c]] Hc; [vm_compute; discriminate|vm_compute; discriminate|lia].
    + intros k Hk. split; [reflexivity|]. intros [|d] Hd; cbn in *; lia.
  - constructor; [|constructor]. cbn. intros [|[|c]] Hc; [reflexivity|reflexivity|lia].
  - split; [|split].
    + split; intros i j Hi Hj; cbn in Hi, Hj; destruct i as [|[|i]], j as [|[|j]]; try lia; reflexivity.
    + intros u. split; intros i j Hi Hj; cbn in Hi, Hj; destruct i as [|[|i]], j as [|[|j]]; try lia; cbv -[Z.add Z.mul Z.opp]; lia.
    + intros u i j Hi Hj. cbn in Hi, Hj. destruct i as [|i], j as [|[|j]]; try lia. reflexivity.
Qed.

(* A relaxation parameter which is an expression of the conserved moments: relaxation_local
   (base.py 404-428) does not replace the elements of mv in self.s.  For Cython m is mv; for
   NumPy, in one dimension, the parameter of all the cells is computed with the moments of
   the first ghost cell, without error.  The conditions of C63_cython hold. *)
Theorem C63_relaxation_refuted : exists (a : salgo Zring) A x k,
  scheme_ok Zring a /\ sa_relvel Zring a = None /\ sa_source Zring a = [] /\ pull_grid 0 (sa_n Zring a) [1] [5] velz (shz 0) /\
  inbox (inner_ranges [1] [5]) x /\ (k < sa_n Zring a)%nat /\
  (exists B L, numpy Zring (inner_ranges [1] [5]) (shz 0) (numpy_kernel Zring a 0 [5] velz (spull Zring a)) A = Some (B, L) /\
     elt Zring 0 B 0 x k <> collide Zring (algo_of Zring a) (fun j => elt Zring 0 A 0 (from velz x j) j) k) /\
  elt Zring 0 (fst (cython Zring (cython_kernel Zring a 0 [5] velz (spull Zring a)) (nest (inner_ranges [1] [5])) (A, fun _ => 0))) 2 x k =
    collide Zring (algo_of Zring a) (fun j => elt Zring 0 A 0 (from velz x j) j) k.
Proof.
  exists (sch false (Var 0) []), Az, [2], 1%nat.
  split; [apply sch_ok; [intros i [<-|[]]; lia|intros k g []]|]. split; [reflexivity|]. split; [reflexivity|]. split; [exact sch_grid|].
  split; [repeat constructor; cbn; lia|]. split; [cbn; lia|]. split.
  - destruct (numpy Zring (inner_ranges [1] [5]) (shz 0) (numpy_kernel Zring (sch false (Var 0) []) 0 [5] velz (spull Zring (sch false (Var 0) []))) Az) as [[B L]|] eqn:E.
    + exists B, L. split; [reflexivity|]. assert (H : lookz (Some (B, L)) 0%nat [1; 2] = Some (B 0%nat [1; 2])) by reflexivity. rewrite <- E in H.
      intros H2. change (elt Zring 0 B 0 [2] 1) with (B 0%nat [1; 2]) in H2. rewrite H2 in H. vm_compute in H. discriminate H.
    + exfalso. apply (f_equal (fun r => match r with Some _ => true | None => false end)) in E. vm_compute in E. discriminate E.
  - vm_compute. reflexivity.
Qed.
Print Assumptions C63_relaxation_refuted.
