(* Property theorems C32 and C33: sequences of public operations of Simulation.

   exec_ops ... l s: the state after the operations l; read_m: what the user reads.
   Dom: the cells looked at; halo = false when the boundary conditions do not change
   them (the inner cells), true when they may (simu.m_halo).
   dirty l: after l the moments and the distributions are not both up to date for a
   reason that the flag _update_m does not know: a moment was written, or the kernels
   relaxation, source_term, equilibrium were called, without m2f afterwards; the
   distributions were changed through a view (simu.F[i][...] = v), or by transport()
   with the NumPy backend. *)
From Verif Require Import PyBase LinAlg AlgoModel AlgoProofs RelVelProofs KernelProofs SimModel SimProofs AlgoProps.

Section Props.
Context {K : ring} {cell : Type} (cell_eqb : cell -> cell -> bool) (a : algo K) (nb : nat -> cell -> cell)
  (cells : list cell) (B : field K cell -> field K cell) (init : option (list (nat * (cell -> K))))
  (init_moments : bool) {params : Type} (bk : backend).
Notation sim := (sim K cell params).
Notation op := (op K cell params).
Notation exec_ops := (exec_ops K cell cell_eqb a nb cells B init init_moments params bk).
Notation F_of := (s_F K cell params).

Theorem C32_moments_partial : forall (Dom : cell -> Prop) (halo : bool) (s : sim) (l : list op),
  is_id (al_n a) (mmul (al_n a) (al_M a) (al_invM a)) ->
  (halo = false -> forall F x, Dom x -> B F x = F x) ->
  s_update K cell params s = true ->           (* a new Simulation *)
  dirty K cell params bk halo l = false ->
  forall x k, Dom x -> (k < al_n a)%nat ->
    read_m K cell a params (exec_ops l s) x k = mvmul (al_n a) (al_M a) (F_of (exec_ops l s) x) k.
Proof.
  intros Dom halo s l HM HD Hu Hd x k Hx Hk.
  apply (read_after K cell cell_eqb a nb cells B init init_moments params bk Dom HM halo HD l s); try assumption.
  intros C. congruence.
Qed.

(* Time steps, reads, writes of distributions and f2m in any order never make a
   sequence dirty; a block of writes of moments and of calls of the kernels on the
   moments does not either if it is followed by m2f. *)
Theorem C32_clean_sequences : forall (halo : bool) (l : list op),
  Forall (fun o => match o with OStep _ _ _ | OReadM _ _ _ | OReadF _ _ _ | OWriteF _ _ _ _ _ | OF2m _ _ _ | OM2f _ _ _ | OParam _ _ _ _ => True | _ => False end) l ->
  dirty K cell params bk halo l = false /\
  forall l', dirty K cell params bk halo (l' ++ OM2f _ _ _ :: l) = false.
Proof.
  intros halo l H.
  assert (G : fold_left (fun d o => dirty_after K cell params bk halo o d) l false = false).
  { induction H as [|o l Ho Hl IH]; [reflexivity|]. cbn. destruct o; try destruct Ho; exact IH. }
  split; [exact G|]. intros l'. unfold dirty. rewrite fold_left_app. exact G.
Qed.

(* What each kernel called by the user does to the moments and distributions of a cell: equilibrium, relaxation,
   source_term (on the inner cells only), f2m and m2f; the moments with a smaller number are written before. *)
Theorem C32_kernels : (forall x y, cell_eqb x y = true <-> x = y) -> forall (s : sim) x k, eq_ok K a -> source_ok K a -> (k < al_n a)%nat ->
  let m := s_m K cell params s x in let F := s_F K cell params s x in
  let m' o := s_m K cell params (exec_ops [o] s) x in let F' o := s_F K cell params (exec_ops [o] s) x in
  m' (OEquilibrium _ _ _) k = al_eq a m k /\
  m' (ORelaxation _ _ _) k = (m k + al_s a m k * (al_eq a m k - m k))%K /\
  (In x cells -> m' (OSource _ _ _) k = match source_of a k with
                                        | None => m k
                                        | Some g => (m k + al_hdt a * g (fun j => if (j <? k)%nat then m' (OSource _ _ _) j else m j))%K
                                        end) /\
  (~ In x cells -> m' (OSource _ _ _) = m) /\
  m' (OF2m _ _ _) k = mvmul (al_n a) (al_M a) F k /\ F' (OM2f _ _ _) k = mvmul (al_n a) (al_invM a) m k /\
  (forall o, In o [OEquilibrium _ _ _; ORelaxation _ _ _; OSource _ _ _; OF2m _ _ _] -> F' o = F) /\ m' (OM2f _ _ _) = m.
Proof.
  intros Heq s x k He Hs Hk. cbv zeta. set (v := mkView (F_of s x) (F_of s x) (s_m K cell params s x) (s_u K cell params s x)).
  pose proof (equilibrium_spec K (fixed_frame K a) v He) as (_ & _ & S1). pose proof (relaxation_spec K (fixed_frame K a) v eq_refl He) as (_ & _ & S2).
  pose proof (f2m_spec K (fixed_frame K a) vf v eq_refl (fun _ _ => eq_refl)) as (_ & _ & S3).
  pose proof (half_source_facts K (fixed_frame K a) (vm v) Hs k Hk) as S4.
  assert (HX : s_m K cell params (exec_ops [OSource _ _ _] s) x = if inner cell cell_eqb cells x then vm (run (source_term_local (fixed_frame K a)) v) else s_m K cell params s x) by reflexivity.
  split; [exact (S1 k Hk)|]. split; [exact (S2 k Hk)|]. split; [|split; [|split; [exact (S3 k Hk)|split; [|split; [|reflexivity]]]]].
  - intros Hx. rewrite (proj2 (inner_iff cell cell_eqb cells Heq x) Hx) in HX.
    assert (X : vm (run (source_term_local (fixed_frame K a)) v) = half_source K (fixed_frame K a) (vm v)) by (unfold source_term_local; rewrite run_TM; reflexivity).
    rewrite HX, X. exact S4.
  - intros Hx. rewrite HX. destruct (inner cell cell_eqb cells x) eqn:Ei; [|reflexivity]. destruct Hx. now apply (inner_iff cell cell_eqb cells Heq).
  - pose proof (m2f_spec K (fixed_frame K a) v eq_refl) as (_ & _ & S5). exact (S5 k Hk).
  - intros o [<-|[<-|[<-|[<-|[]]]]]; reflexivity.
Qed.

(* ---- C33 ---- *)
Theorem C33_time_and_counter : forall (s : sim) (l : list op) v,
  s_dt K cell params s = inr v ->
  s_nt K cell params (exec_ops l s) = (steps K cell params l + s_nt K cell params s)%nat /\
  s_t K cell params (exec_ops l s) = (s_t K cell params s + times K (steps K cell params l) v)%K.
Proof.
  intros s l v H. split; [apply exec_nt; exact true|]. apply exec_t. exact H.
Qed.

(* After a time step, the visible distributions of an inner cell are the values
   computed by the kernel from the distributions visible before, after the boundary
   conditions, whatever happened before. *)
Theorem C33_last_step_visible : forall (s : sim) (l : list op),
  (forall x y, cell_eqb x y = true <-> x = y) -> eq_ok K a -> source_ok K a -> rel_ok K a ->
  s_need_init K cell params s = false ->
  forall x k, In x cells -> (k < al_n a)%nat ->
    F_of (exec_ops (l ++ [OStep _ _ _]) s) x k =
    pull_fun K a (fun j => B (F_of (exec_ops l s)) (nb j x) j) k.
Proof.
  intros s l Hc He Hs HR Hn x k Hx Hk. unfold exec_ops. rewrite fold_left_app.
  change (fold_left _ l s) with (exec_ops l s).
  assert (N : s_need_init K cell params (exec_ops l s) = false).
  { revert s Hn. induction l as [|o l IH]; intros s Hn; [exact Hn|]. cbn. apply IH. apply need_apply. exact Hn. }
  exact (proj1 (step_spec K cell cell_eqb a nb cells B init init_moments params bk Hc He Hs HR (exec_ops l s) x N) Hx k Hk).
Qed.

(* The operations which do not write distributions can be interleaved freely: the
   distributions are the same without them. *)
Theorem C33_interleaving : forall (s : sim) (l : list op),
  (forall x y, cell_eqb x y = true <-> x = y) -> eq_ok K a -> source_ok K a -> rel_ok K a ->
  (forall F F' : field K cell, (forall x k, (k < al_n a)%nat -> F x k = F' x k) ->
     forall x k, (k < al_n a)%nat -> B F x k = B F' x k) ->
  s_need_init K cell params s = false ->
  (forall o, In o l -> o <> OM2f _ _ _) ->
  forall x k, (k < al_n a)%nat ->
    F_of (exec_ops l s) x k =
    F_of (exec_ops (filter (fun o => match o with
         | OStep _ _ _ | OWriteF _ _ _ _ _ | OViewF _ _ _ _ _ | OM2f _ _ _ | OBoundary _ _ _ => true
         | OTransport _ _ _ => match bk with One => true | Two => false end
         | _ => false end) l) s) x k.
Proof.
  intros s l Hc He Hs HR HB Hn Hl x k Hk.
  destruct (twin_exec K cell cell_eqb a nb cells B init init_moments params bk Hc He Hs HR HB l) with (s := s) (s' := s) as (_ & _ & H & _).
  - apply forallb_forall. intros o Ho. specialize (Hl o Ho). destruct o; try reflexivity. congruence.
  - apply twin_refl. exact Hn.
  - exact (H x k Hk).
Qed.
End Props.
Print Assumptions C32_moments_partial.
Print Assumptions C32_kernels.
Print Assumptions C32_clean_sequences.
Print Assumptions C33_time_and_counter.
Print Assumptions C33_last_step_visible.
Print Assumptions C33_interleaving.

(* ---- an example: a periodic domain of two cells ---- *)
Definition nbb (k : nat) (x : bool) : bool := if Nat.eqb k 0 then x else negb x.
Definition sim0 : sim Zring bool Z := mkSim Zring bool Z
  (fun x k => if x then Z.of_nat (k + 1) else 5%Z) (fun _ _ => 0%Z) (fun _ _ => 0%Z) (fun _ _ => 0%Z)
  true false 0%Z 0 (inl (fun p => p)) 3%Z.
Definition execb (bk : backend) := exec_ops Zring bool Bool.eqb a_ex nbb [true; false] (fun F => F) None true Z bk.
Notation step_ := (OStep Zring bool Z).
Notation readm_ := (OReadM Zring bool Z).
Notation writem_ i v := (OWriteM Zring bool Z i v).
Definition c0 : bool -> Zring := fun _ => 7%Z.
Example C32_example :
  let l := [readm_; step_; writem_ 0%nat c0; OEquilibrium Zring bool Z; OM2f Zring bool Z; step_; readm_] in
  dirty Zring bool Z Two true l = false /\ is_id 2 (mmul 2 (al_M a_ex) (al_invM a_ex)) /\
  map (read_m Zring bool a_ex Z (execb Two l sim0) true) [0; 1]%nat = [7; 21]%Z.
Proof. split; [reflexivity|]. split; [exact (proj1 a_ex_inverse)|]. vm_compute. reflexivity. Qed.
(* a_src: the moment 0 has a source *)
Example C32_kernels_example :
  let run o := exec_ops Zring bool Bool.eqb a_src nbb [true; false] (fun F => F) None true Z Two [readm_; o] sim0 in
  map (s_m _ _ _ (run (OSource Zring bool Z)) true) [0; 1]%nat = [33; 2]%Z /\ map (s_m _ _ _ (run (OEquilibrium Zring bool Z)) true) [0; 1]%nat = [3; 9]%Z.
Proof. split; vm_compute; reflexivity. Qed.
Example C33_example :
  let s := execb Two [readm_; step_; OParam Zring bool Z 9%Z; step_] sim0 in
  s_nt _ _ _ s = 2%nat /\ s_t _ _ _ s = 6%Z /\ eq_ok Zring a_ex /\ s_need_init _ _ _ sim0 = false.
Proof. split; [reflexivity|]. split; [reflexivity|]. split; [exact a_ex_eq_ok|reflexivity]. Qed.

(* ---- refutations ---- *)
(* a moment is written and read again before m2f: it is not a moment of F; and after a
   time step, the write marks the other moments, which are not computed, as valid *)
Theorem C32_write_moment_refuted : exists (l : list (op Zring bool Z)) x k, (k < 2)%nat /\
  l = [readm_; writem_ 0%nat c0] /\
  read_m Zring bool a_ex Z (execb Two l sim0) x k <> mvmul 2 (al_M a_ex) (s_F _ _ _ (execb Two l sim0) x) k.
Proof. eexists _, true, 0%nat. split; [lia|]. split; [reflexivity|]. vm_compute. discriminate. Qed.
Theorem C32_other_moments_refuted : exists (l : list (op Zring bool Z)) x, l = [step_; writem_ 0%nat c0] /\
  read_m Zring bool a_ex Z (execb Two l sim0) x 1%nat <> mvmul 2 (al_M a_ex) (s_F _ _ _ (execb Two l sim0) x) 1%nat.
Proof. eexists _, true. split; [reflexivity|]. vm_compute. discriminate. Qed.
(* and m2f then replaces the distributions of the last step by those of these moments *)
Theorem C32_lost_step_refuted : exists (l : list (op Zring bool Z)) x, l = [step_; writem_ 0%nat c0; OM2f Zring bool Z] /\
  mvmul 2 (al_M a_ex) (s_F _ _ _ (execb Two l sim0) x) 1%nat <>
  mvmul 2 (al_M a_ex) (s_F _ _ _ (execb Two [step_] sim0) x) 1%nat.
Proof. eexists _, true. split; [reflexivity|]. vm_compute. discriminate. Qed.
(* a distribution is changed through the array returned by simu.F[i] *)
Theorem C32_view_refuted : exists (l : list (op Zring bool Z)) x, l = [readm_; OViewF Zring bool Z 0 c0] /\
  read_m Zring bool a_ex Z (execb Two l sim0) x 0%nat <> mvmul 2 (al_M a_ex) (s_F _ _ _ (execb Two l sim0) x) 0%nat.
Proof. eexists _, true. split; [reflexivity|]. vm_compute. discriminate. Qed.
Theorem C32_relaxation_refuted : exists (l : list (op Zring bool Z)) x, l = [readm_; ORelaxation Zring bool Z] /\
  read_m Zring bool a_ex Z (execb Two l sim0) x 1%nat <> mvmul 2 (al_M a_ex) (s_F _ _ _ (execb Two l sim0) x) 1%nat.
Proof. eexists _, true. split; [reflexivity|]. vm_compute. discriminate. Qed.
Theorem C32_numpy_transport_refuted : exists (l : list (op Zring bool Z)) x, l = [readm_; OTransport Zring bool Z] /\
  read_m Zring bool a_ex Z (execb One l sim0) x 0%nat <> mvmul 2 (al_M a_ex) (s_F _ _ _ (execb One l sim0) x) 0%nat.
Proof. eexists _, true. split; [reflexivity|]. vm_compute. discriminate. Qed.
(* transport() does nothing to the visible distributions with the Cython backend *)
Theorem C33_transport_refuted : exists x k, (k < 2)%nat /\
  s_F _ _ _ (execb Two [OTransport Zring bool Z] sim0) x k = s_F _ _ _ sim0 x k /\
  s_F _ _ _ (execb One [OTransport Zring bool Z] sim0) x k <> s_F _ _ _ sim0 x k.
Proof. exists true, 1%nat. split; [lia|]. split; [reflexivity|]. vm_compute. discriminate. Qed.
(* the time step is evaluated once: later changes of the parameters do not change it *)
Theorem C33_time_step_refuted : exists p, let s := execb Two [step_; OParam Zring bool Z p; step_] sim0 in
  s_dt _ _ _ sim0 = inl (fun p => p) /\ s_par _ _ _ s = p /\ s_t _ _ _ s <> (3 + p)%Z.
Proof. exists 9%Z. split; [reflexivity|]. split; [reflexivity|]. vm_compute. discriminate. Qed.
Print Assumptions C32_write_moment_refuted.
Print Assumptions C32_other_moments_refuted.
Print Assumptions C32_lost_step_refuted.
Print Assumptions C32_view_refuted.
Print Assumptions C32_relaxation_refuted.
Print Assumptions C32_numpy_transport_refuted.
Print Assumptions C33_transport_refuted.
Print Assumptions C33_time_step_refuted.
