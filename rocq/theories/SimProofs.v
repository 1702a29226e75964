(* Lemmas on the state machine of Simulation. *)
From Verif Require Import PyBase LinAlg AlgoModel AlgoProofs RelVelProofs KernelProofs GlobalProofs SimModel.

Section SimProofs.
Variable K : ring.
Add Ring Kring_sim : (rth K).
Variable cell : Type.
Variable cell_eqb : cell -> cell -> bool.
Notation field := (field K cell).
Variable a : algo K.
Variable nb : nat -> cell -> cell.
Variable cells : list cell.
Variable B : field -> field.
Variable init : option (list (nat * (cell -> K))).
Variable init_moments : bool.
Variable params : Type.
Variable bk : backend.
Notation sim := (sim K cell params).
Notation apply := (apply K cell cell_eqb a nb cells B init init_moments params bk).
Notation exec_ops := (exec_ops K cell cell_eqb a nb cells B init init_moments params bk).
Notation one_time_step := (one_time_step K cell cell_eqb a nb cells B init init_moments params bk).
Notation op := (op K cell params).
Implicit Types s : sim.

(* the moments of the distributions F *)
Definition moments_of (F : field) (x : cell) : vec K := mvmul (al_n a) (al_M a) (F x).
(* Dom: the cells looked at (the inner cells, or all the cells) *)
Variable Dom : cell -> Prop.
Definition consistent s : Prop := forall x, Dom x -> agree K (al_n a) (s_m _ _ _ s x) (moments_of (s_F _ _ _ s) x).
Definition lazy_ok s : Prop := s_update _ _ _ s = false -> consistent s.

Lemma f2m_consistent s : consistent (k_f2m K cell a params s) /\ s_F _ _ _ (k_f2m K cell a params s) = s_F _ _ _ s.
Proof.
  split; [|reflexivity]. intros x _. unfold k_f2m, cell_kernel, moments_of.
  destruct (f2m_spec K (fixed_frame K a) vf (mkView (s_F _ _ _ s x) (s_F _ _ _ s x) (s_m _ _ _ s x) (s_u _ _ _ s x))) as (_ & _ & A); [reflexivity|reflexivity|].
  exact A.
Qed.
Hypothesis HM : is_id (al_n a) (mmul (al_n a) (al_M a) (al_invM a)).
Lemma m2f_consistent s : consistent (k_m2f K cell a params s).
Proof.
  intros x _ k Hk. unfold k_m2f, cell_kernel, moments_of. cbn [s_m s_F read_dt set_dt set_F].
  destruct (m2f_spec K (fixed_frame K a) (mkView (s_F _ _ _ s x) (s_F _ _ _ s x) (s_m _ _ _ s x) (s_u _ _ _ s x))) as (_ & _ & A); [reflexivity|].
  rewrite (mvmul_ext K _ _ _ _ A). symmetry. apply mvmul_inverse; [exact HM|exact Hk].
Qed.

(* 'dirty' follows the writes which the flag does not see: the moments were changed
   and the distributions not yet recomputed from them (or the contrary) *)
Variable halo : bool.
Hypothesis HD : halo = false -> forall F x, Dom x -> B F x = F x.
Definition dirty_after (o : op) (d : bool) : bool :=
  match o with
  | OStep _ _ _ | OWriteF _ _ _ _ _ | OF2m _ _ _ | OM2f _ _ _ => false
  | OWriteM _ _ _ _ _ | OViewM _ _ _ _ _ | OViewF _ _ _ _ _ => true
  | ORelaxation _ _ _ | OSource _ _ _ | OEquilibrium _ _ _ => true
  | OBoundary _ _ _ => halo || d
  | OTransport _ _ _ => match bk with One => true | Two => d end
  | OReadM _ _ _ | OReadF _ _ _ | OParam _ _ _ _ => d
  end.
Definition dirty (l : list op) : bool := fold_left (fun d o => dirty_after o d) l false.

Definition inv (d : bool) s : Prop := d = false -> lazy_ok s.
Lemma refresh_ok s : lazy_ok s -> consistent (refresh K cell a params s).
Proof.
  intros H. unfold refresh. destruct (s_update K cell params s) eqn:E; [apply f2m_consistent|apply H; exact E].
Qed.
Lemma refresh_F s : s_F _ _ _ (refresh K cell a params s) = s_F _ _ _ s.
Proof. unfold refresh. destruct (s_update K cell params s); reflexivity. Qed.
Lemma step_update s : s_update _ _ _ (one_time_step s) = true.
Proof. unfold one_time_step, k_step, swap_buffers. destruct bk, (s_need_init K cell params s); reflexivity. Qed.
Lemma apply_inv o d s : inv d s -> inv (dirty_after o d) (apply o s).
Proof.
  intros H. destruct o; cbn [dirty_after apply]; try (intros D; discriminate D).
  - intros _ C. rewrite step_update in C. discriminate.
  - intros D C. apply refresh_ok. apply H. exact D.
  - exact H.
  - intros _ C. cbn in C. discriminate.
  - destruct bk; [intros D; discriminate D|]. intros D. exact (H D).
  - intros _ _. apply f2m_consistent.
  - intros _ _. apply m2f_consistent.
  - intros DD C x Hx. apply orb_false_elim in DD. destruct DD as [Eh Ed]. cbn [s_F s_m set_F]. unfold moments_of.
    rewrite HD by assumption. apply (H Ed C x Hx).
  - exact H.
Qed.
Lemma exec_inv l : forall d s, inv d s -> inv (fold_left (fun d o => dirty_after o d) l d) (exec_ops l s).
Proof.
  induction l as [|o l IH]; intros d s H; [exact H|]. cbn. apply IH. apply apply_inv. exact H.
Qed.
Lemma read_after l s : lazy_ok s -> dirty l = false ->
  forall x k, Dom x -> (k < al_n a)%nat ->
  read_m K cell a params (exec_ops l s) x k = moments_of (s_F _ _ _ (exec_ops l s)) x k.
Proof.
  intros H Hd x k Hx Hk. unfold read_m.
  pose proof (refresh_ok _ (exec_inv l false s (fun _ => H) Hd) x Hx k Hk) as E. rewrite E.
  rewrite refresh_F. reflexivity.
Qed.

(* ---- time and counter ---- *)
Definition steps (l : list op) : nat := length (filter (fun o => match o with OStep _ _ _ => true | _ => false end) l).
Fixpoint times (n : nat) (x : K) : K := match n with O => 0%K | S n' => (times n' x + x)%K end.
Definition frozen (v : K) s : Prop := s_dt _ _ _ s = inr v.
Lemma apply_nt o s : s_nt _ _ _ (apply o s) = ((if match o with OStep _ _ _ => true | _ => false end then 1 else 0) + s_nt _ _ _ s)%nat.
Proof.
  destruct o; cbn [apply]; try reflexivity.
  - unfold one_time_step. cbn [set_time s_nt]. f_equal. unfold k_step, swap_buffers, initialize, initialization.
    destruct init, bk, (s_need_init K cell params s), init_moments; reflexivity.
  - unfold refresh. destruct (s_update K cell params s); reflexivity.
  - unfold refresh. destruct (s_update K cell params s); reflexivity.
  - unfold k_transport. destruct bk; reflexivity.
Qed.
Lemma exec_nt l : forall s, s_nt _ _ _ (exec_ops l s) = (steps l + s_nt _ _ _ s)%nat.
Proof.
  induction l as [|o l IH]; intros s; [reflexivity|]. cbn. unfold exec_ops in IH. rewrite IH, apply_nt.
  unfold steps. cbn. destruct o; cbn; lia.
Qed.
Lemma apply_frozen v o s : frozen v s -> frozen v (apply o s) /\
  s_t _ _ _ (apply o s) = (if match o with OStep _ _ _ => true | _ => false end then s_t _ _ _ s + v else s_t _ _ _ s)%K.
Proof.
  unfold frozen. intros H.
  assert (D : forall s, s_dt _ _ _ s = inr v -> dt_value K cell params s = v) by (intros s0 E; unfold dt_value; rewrite E; reflexivity).
  assert (D2 : forall s, s_dt _ _ _ s = inr v -> s_dt _ _ _ (read_dt K cell params s) = inr v).
  { intros s0 E. unfold read_dt. cbn. rewrite D by exact E. reflexivity. }
  destruct o; cbn [apply]; try (split; [exact H|reflexivity]); try (split; [apply D2; exact H|reflexivity]).
  - assert (T : s_dt _ _ _ (swap_buffers K cell params bk (k_step K cell cell_eqb a nb cells params bk
        (set_F K cell params (set_update K cell params (if s_need_init _ _ _ s then initialize K cell a init init_moments params bk s else s) true)
          (B (s_F _ _ _ (set_update K cell params (if s_need_init _ _ _ s then initialize K cell a init init_moments params bk s else s) true)))))) = inr v).
    { unfold swap_buffers, k_step, initialize, initialization.
      destruct init, bk, (s_need_init K cell params s), init_moments; unfold k_m2f, k_equilibrium, k_f2m, dt_value; cbn;
        unfold dt_value; cbn; unfold dt_value; cbn; rewrite ?H; reflexivity. }
    unfold one_time_step. cbn [set_time s_t s_dt]. split; [apply D2; exact T|].
    rewrite D by (apply D2; exact T). f_equal.
    unfold swap_buffers, k_step, initialize, initialization. destruct init, bk, (s_need_init K cell params s), init_moments; reflexivity.
  - unfold refresh. destruct (s_update K cell params s); [|split; [exact H|reflexivity]].
    split; [apply D2; exact H|reflexivity].
  - unfold refresh. destruct (s_update K cell params s); [|split; [exact H|reflexivity]].
    split; [apply D2; exact H|reflexivity].
  - unfold k_transport. destruct bk; split; try reflexivity; apply D2; exact H.
Qed.
Lemma exec_t v l : forall s, frozen v s -> s_t _ _ _ (exec_ops l s) = (s_t _ _ _ s + times (steps l) v)%K.
Proof.
  induction l as [|o l IH]; intros s H; [cbn; ring|]. cbn. unfold exec_ops in IH.
  destruct (apply_frozen v o s H) as [H1 H2]. rewrite IH by exact H1. rewrite H2. unfold steps. cbn.
  destruct o; cbn; try reflexivity. ring.
Qed.

(* ---- what changes the distributions ---- *)
Definition changes_F (o : op) : bool :=
  match o with
  | OStep _ _ _ | OWriteF _ _ _ _ _ | OViewF _ _ _ _ _ | OM2f _ _ _ | OBoundary _ _ _ => true
  | OTransport _ _ _ => match bk with One => true | Two => false end
  | _ => false
  end.
Lemma apply_F o s : changes_F o = false -> s_F _ _ _ (apply o s) = s_F _ _ _ s.
Proof.
  destruct o; cbn [apply changes_F]; intros H; try discriminate; try reflexivity.
  - apply refresh_F.
  - unfold refresh. destruct (s_update K cell params s); reflexivity.
  - unfold k_transport. destruct bk; [discriminate|reflexivity].
Qed.

(* ---- the step ---- *)
Hypothesis cell_eqb_spec : forall x y, cell_eqb x y = true <-> x = y.
Hypothesis He : eq_ok K a.
Hypothesis Hs : source_ok K a.
Hypothesis HR : rel_ok K a.
Notation F_of := (s_F K cell params).
Notation inn := (inner cell cell_eqb cells).
Lemma inner_iff x : inn x = true <-> In x cells.
Proof.
  unfold inner. rewrite existsb_exists. split.
  - intros (y & Hy & E). apply cell_eqb_spec in E. subst. exact Hy.
  - intros H. exists x. split; [exact H|]. apply cell_eqb_spec. reflexivity.
Qed.
Lemma step_spec s x : s_need_init _ _ _ s = false ->
  (In x cells -> agree K (al_n a) (F_of (one_time_step s) x) (pull_fun K a (fun k => B (F_of s) (nb k x) k))) /\
  (~ In x cells -> F_of (one_time_step s) x = match bk with One => B (F_of s) x | Two => s_Fnew _ _ _ s x end) /\
  (bk = Two -> s_Fnew _ _ _ (one_time_step s) = B (F_of s)).
Proof.
  intros Hn. unfold one_time_step. rewrite Hn. cbn [s_F s_Fnew set_time read_dt set_dt].
  unfold swap_buffers, k_step. destruct bk eqn:Eb; cbn -[numpy_run cython_loop].
  - split; [|split; [|discriminate]].
    + intros Hx. destruct (pull_numpy_any K a cell nb inn (B (F_of s)) (s_m _ _ _ s) (s_u _ _ _ s) x (proj2 (inner_iff x) Hx)) as (fn & mx & ux & E).
      rewrite E. apply (pull_computes K a He Hs HR).
    + intros Hx. apply numpy_out. destruct (inn x) eqn:E; [|reflexivity]. exfalso. apply Hx. apply inner_iff. exact E.
  - rewrite <- cython_loop_fluid_all.
    destruct (cython_fluid_spec K cell cell_eqb cell_eqb_spec nb (fun _ => true) (pull_local a) (B (F_of s)) cells
      (s_Fnew _ _ _ s, ((fun _ => 0%K), (fun _ => 0%K))) x) as [H1 H2].
    split; [|split; [|reflexivity]].
    + intros Hx. destruct (H1 Hx eq_refl) as (fn & mx & ux & _ & E). rewrite E. apply (pull_computes K a He Hs HR).
    + intros Hx. apply H2. left. exact Hx.
Qed.
Lemma transport_Fnew s x : bk = Two -> ~ In x cells -> s_Fnew _ _ _ (apply (OTransport _ _ _) s) x = s_Fnew _ _ _ s x.
Proof.
  intros Eb Hx. cbn [apply]. unfold k_transport. rewrite Eb. cbn -[cython_loop]. rewrite <- cython_loop_fluid_all.
  apply (proj2 (cython_fluid_spec K cell cell_eqb cell_eqb_spec nb (fun _ => true) (transport_local a) (F_of s) cells
      (s_Fnew _ _ _ s, ((fun _ => 0%K), (fun _ => 0%K))) x)). left. exact Hx.
Qed.

(* two states whose visible distributions are the same, and stay the same *)
Hypothesis HB : forall F F' : field, (forall x, agree K (al_n a) (F x) (F' x)) -> forall x, agree K (al_n a) (B F x) (B F' x).
Definition twin s s' : Prop := s_need_init _ _ _ s = false /\ s_need_init _ _ _ s' = false /\
  (forall x, agree K (al_n a) (F_of s x) (F_of s' x)) /\
  (bk = Two -> forall x, ~ In x cells -> agree K (al_n a) (s_Fnew _ _ _ s x) (s_Fnew _ _ _ s' x)).
Lemma need_apply o s : s_need_init _ _ _ s = false -> s_need_init _ _ _ (apply o s) = false.
Proof.
  intros Hn. destruct o; cbn [apply]; try exact Hn.
  - unfold one_time_step. rewrite Hn. unfold k_step, swap_buffers. destruct bk; exact Hn.
  - unfold refresh. destruct (s_update K cell params s); exact Hn.
  - unfold refresh. destruct (s_update K cell params s); exact Hn.
  - unfold k_transport. destruct bk; exact Hn.
Qed.
Definition not_m2f (o : op) : bool := match o with OM2f _ _ _ => false | _ => true end.
Lemma twin_skip o s s' : changes_F o = false -> twin s s' -> twin (apply o s) s'.
Proof.
  intros Hc (N1 & N2 & HF & HN). split; [apply need_apply; exact N1|]. split; [exact N2|].
  rewrite (apply_F o s Hc). split; [exact HF|]. intros Eb x Hx.
  assert (E : s_Fnew _ _ _ (apply o s) x = s_Fnew _ _ _ s x).
  { destruct o; cbn [changes_F] in Hc; try discriminate; try reflexivity.
    - cbn [apply]. unfold refresh. destruct (s_update K cell params s); reflexivity.
    - cbn [apply]. unfold refresh. destruct (s_update K cell params s); reflexivity.
    - apply transport_Fnew; assumption. }
  rewrite E. apply HN; assumption.
Qed.
Lemma Hdec x : In x cells \/ ~ In x cells.
Proof. destruct (inn x) eqn:E; [left; apply inner_iff; exact E|right; intros H; apply inner_iff in H; congruence]. Qed.
Lemma numpy_transport_in s x : bk = One -> In x cells -> agree K (al_n a) (F_of (apply (OTransport _ _ _) s) x) (fun k => F_of s (nb k x) k).
Proof.
  intros Eb Hx. cbn [apply]. unfold k_transport. rewrite Eb. cbn -[numpy_run].
  set (loc := fun y => mkView (fun k => F_of s (nb k y) k) (F_of s y) (s_m _ _ _ s y) (s_u _ _ _ s y)).
  destruct (numpy_transport K cell nb inn (al_n a) (F_of s) (s_m _ _ _ s) (s_u _ _ _ s) loc) as (F' & E & T & _).
  { intros y _. cbn. auto. } { reflexivity. }
  unfold transport_local. rewrite E. cbn [fst].
  destruct (T x (proj2 (inner_iff x) Hx)) as (E1 & _). cbn [fst snd] in E1. rewrite E1.
  apply (transport_spec K a (loc x)).
Qed.
Lemma twin_same o s s' : changes_F o = true -> not_m2f o = true -> twin s s' -> twin (apply o s) (apply o s').
Proof.
  intros Hc Hm (N1 & N2 & HF & HN). split; [apply need_apply; exact N1|]. split; [apply need_apply; exact N2|].
  destruct o; cbn [changes_F not_m2f] in Hc, Hm; try discriminate.
  - assert (P : forall x, agree K (al_n a) (pull_fun K a (fun k => B (F_of s) (nb k x) k)) (pull_fun K a (fun k => B (F_of s') (nb k x) k))).
    { intros x. apply pull_fun_agree; try assumption. intros k Hk. apply HB; assumption. }
    split.
    + intros x. destruct (step_spec s x N1) as (A1 & A2 & _). destruct (step_spec s' x N2) as (A1' & A2' & _).
      cbn [apply]. destruct (Hdec x) as [Hx|Hx].
      * refine (agree_trans K _ _ _ _ (A1 Hx) _). refine (agree_trans K _ _ _ _ (P x) _). apply agree_sym. apply A1'. exact Hx.
      * rewrite (A2 Hx), (A2' Hx). destruct bk eqn:Eb; [apply HB; exact HF|apply HN; [reflexivity|exact Hx]].
    + intros Eb x _. cbn [apply]. destruct (step_spec s x N1) as (_ & _ & A3). destruct (step_spec s' x N2) as (_ & _ & A3').
      rewrite (A3 Eb), (A3' Eb). apply HB. exact HF.
  - cbn [apply set_F set_update s_F s_Fnew]. split; [|exact HN]. intros x k Hk. unfold write_row, updf.
    destruct (Nat.eqb _ _); [reflexivity|]. apply HF. exact Hk.
  - cbn [apply set_F s_F s_Fnew]. split; [|exact HN]. intros x k Hk. unfold write_row, updf.
    destruct (Nat.eqb _ _); [reflexivity|]. apply HF. exact Hk.
  - destruct bk eqn:Eb; [|discriminate]. split; [|discriminate]. intros x. destruct (Hdec x) as [Hx|Hx].
    + rewrite <- Eb. refine (agree_trans K _ _ _ _ (numpy_transport_in s x Eb Hx) _).
      refine (agree_trans K _ _ _ _ _ (agree_sym K _ _ _ (numpy_transport_in s' x Eb Hx))).
      intros k Hk. apply HF. exact Hk.
    + assert (O : forall s0, F_of (SimModel.apply K cell cell_eqb a nb cells B init init_moments params One (OTransport _ _ _) s0) x = F_of s0 x).
      { intros s0. cbn -[numpy_run]. apply numpy_out. destruct (inn x) eqn:E; [|reflexivity].
        exfalso. apply Hx. apply inner_iff. exact E. }
      rewrite !O. apply HF.
  - cbn [apply set_F s_F s_Fnew]. split; [|exact HN]. apply HB. exact HF.
Qed.
Lemma twin_exec l : forallb not_m2f l = true -> forall s s', twin s s' -> twin (exec_ops l s) (exec_ops (filter changes_F l) s').
Proof.
  induction l as [|o l IH]; intros Hl s s' H; [exact H|]. cbn in Hl. apply andb_prop in Hl. destruct Hl as [Ho Hl].
  cbn [filter]. destruct (changes_F o) eqn:E.
  - apply (IH Hl). apply twin_same; assumption.
  - apply (IH Hl). apply twin_skip; assumption.
Qed.
Lemma twin_refl s : s_need_init _ _ _ s = false -> twin s s.
Proof. intros H. split; [exact H|]. split; [exact H|]. split; [intros x i _; reflexivity|intros _ x _ i _; reflexivity]. Qed.
End SimProofs.
