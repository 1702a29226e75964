(* Property theorem C58: the initial state of a Simulation.

   The last entry of the dictionary 'init' for a row is what the row must contain:
   last_entry d k v says that d gives the values v to row k and nothing later in d
   changes row k. *)
From Verif Require Import PyBase LinAlg AlgoModel AlgoProofs RelVelProofs KernelProofs SimModel SimProofs AlgoProps SimProps.

Definition last_entry {A} (d : list (nat * A)) (k : nat) (v : A) : Prop :=
  exists l1 l2, d = l1 ++ (k, v) :: l2 /\ ~ In k (map fst l2).

Section Props.
Context {K : ring} {cell : Type} (cell_eqb : cell -> cell -> bool) (a : algo K) (nb : nat -> cell -> cell)
  (cells : list cell) (B : field K cell -> field K cell)
  (init_moments : bool) {params : Type} (bk : backend).
Notation sim := (sim K cell params).
Notation op := (op K cell params).
Notation exec_ops init := (exec_ops K cell cell_eqb a nb cells B init init_moments params bk).
Notation F_of := (s_F K cell params).
Notation m_of := (s_m K cell params).

Lemma write_rows_spec : forall d (A : field K cell) x k,
  (~ In k (map fst d) -> write_rows K cell A d x k = A x k) /\
  (forall v, last_entry d k v -> write_rows K cell A d x k = v x).
Proof.
  intros d. induction d as [|[i w] d IH] using rev_ind; intros A x k.
  - split; [reflexivity|]. intros v (l1 & l2 & E & _). destruct l1; discriminate.
  - unfold write_rows. rewrite fold_left_app. cbn. unfold write_row, updf. rewrite map_app, in_app_iff. cbn.
    destruct (Nat.eqb_spec k i) as [->|Ne].
    + split; [tauto|]. intros v (l1 & l2 & E & N). destruct l2 as [|r l2] using rev_ind.
      * apply app_inj_tail in E. destruct E as [_ E]. injection E as <-. reflexivity.
      * clear IHl2. rewrite app_comm_cons, app_assoc in E. apply app_inj_tail in E. destruct E as [_ <-].
        exfalso. apply N. rewrite map_app, in_app_iff. cbn. auto.
    + split; [intros N; apply IH; tauto|]. intros v (l1 & l2 & E & N). apply IH.
      destruct l2 as [|r l2] using rev_ind.
      * apply app_inj_tail in E. destruct E as [_ E]. injection E as -> _. congruence.
      * clear IHl2. rewrite app_comm_cons, app_assoc in E. apply app_inj_tail in E. destruct E as [-> <-].
        exists l1, l2. split; [reflexivity|]. intros Hi. apply N. rewrite map_app, in_app_iff. auto.
Qed.

(* inittype 'moments' (the default) *)
Theorem C58_moments : forall (s : sim) d,
  init_moments = true -> eq_ok K a -> is_id (al_n a) (mmul (al_n a) (al_M a) (al_invM a)) ->
  let s' := initialize K cell a (Some d) init_moments params bk s in
  s_need_init K cell params s' = false /\
  (* the conserved moments of the distributions are the values of the user *)
  (forall x k v, (k < al_nc a)%nat -> last_entry d k v -> mvmul (al_n a) (al_M a) (F_of s' x) k = v x) /\
  (forall x k, (k < al_nc a)%nat -> ~ In k (map fst d) -> mvmul (al_n a) (al_M a) (F_of s' x) k = m_of s x k) /\
  (* the others are at equilibrium, whatever the user gave for them *)
  (forall x k, (k < al_n a)%nat ->
     mvmul (al_n a) (al_M a) (F_of s' x) k = al_eq a (mvmul (al_n a) (al_M a) (F_of s' x)) k) /\
  (* the array of the moments is up to date, and both storages are the same *)
  (forall x k, (k < al_n a)%nat -> m_of s' x k = mvmul (al_n a) (al_M a) (F_of s' x) k) /\
  (bk = Two -> s_Fnew K cell params s' = F_of s').
Proof.
  intros s d -> He HM s'.
  assert (EN : s_need_init K cell params s' = false) by reflexivity.
  set (s0 := set_m K cell params s (write_rows K cell (m_of s) d)).
  set (s1 := k_equilibrium K cell a params s0).
  assert (EF : F_of s' = F_of (k_m2f K cell a params s1)) by (unfold s', initialize, initialization; destruct bk; reflexivity).
  assert (Em : m_of s' = m_of s1) by (unfold s', initialize, initialization; destruct bk; reflexivity).
  assert (Hc : (al_nc a <= al_n a)%nat) by exact (proj1 He).
  assert (Q : forall x, agree K (al_n a) (m_of s1 x) (al_eq a (m_of s0 x))).
  { intros x. unfold s1, k_equilibrium, cell_kernel. cbn [s_m read_dt set_dt set_m].
    apply (equilibrium_spec K (fixed_frame K a) (mkView (F_of s0 x) (F_of s0 x) (m_of s0 x) (s_u K cell params s0 x))). exact He. }
  assert (C : forall x, agree K (al_n a) (mvmul (al_n a) (al_M a) (F_of s' x)) (m_of s1 x)).
  { intros x k Hk. rewrite EF. symmetry.
    exact (m2f_consistent K cell a params (fun _ => True) HM s1 x I k Hk). }
  assert (Qc : forall x k, (k < al_nc a)%nat -> m_of s1 x k = m_of s0 x k).
  { intros x k Hk. rewrite Q by lia. apply He. exact Hk. }
  split; [exact EN|]. split; [|split; [|split; [|split]]].
  - intros x k v Hk Hv. rewrite C by lia. rewrite Qc by exact Hk. apply (write_rows_spec d (m_of s) x k). exact Hv.
  - intros x k Hk Hv. rewrite C by lia. rewrite Qc by exact Hk. apply (write_rows_spec d (m_of s) x k). exact Hv.
  - intros x k Hk. rewrite C by exact Hk. rewrite Q by exact Hk.
    destruct He as (_ & He & _). apply He; [|exact Hk]. intros i Hi. rewrite C by lia. symmetry. apply Qc. exact Hi.
  - intros x k Hk. rewrite Em. symmetry. apply C. exact Hk.
  - intros Eb. unfold s', initialize, initialization. rewrite Eb. reflexivity.
Qed.

(* inittype 'distributions' *)
Theorem C58_distributions : forall (s : sim) d, init_moments = false ->
  let s' := initialize K cell a (Some d) init_moments params bk s in
  s_need_init K cell params s' = false /\
  (forall x k v, last_entry d k v -> F_of s' x k = v x) /\
  (forall x k, ~ In k (map fst d) -> F_of s' x k = F_of s x k) /\
  (forall x k, (k < al_n a)%nat -> m_of s' x k = mvmul (al_n a) (al_M a) (F_of s' x) k) /\
  (bk = Two -> s_Fnew K cell params s' = F_of s').
Proof.
  intros s d -> s'. set (s0 := set_F K cell params s (write_rows K cell (F_of s) d)).
  assert (EF : F_of s' = write_rows K cell (F_of s) d) by (unfold s', initialize, initialization; destruct bk; reflexivity).
  assert (Em : m_of s' = m_of (k_f2m K cell a params s0)) by (unfold s', initialize, initialization; destruct bk; reflexivity).
  split; [reflexivity|]. rewrite EF. split; [|split; [|split]].
  - intros x k v. apply write_rows_spec.
  - intros x k. apply write_rows_spec.
  - intros x k Hk. rewrite Em. exact (proj1 (f2m_consistent K cell a params (fun _ => True) s0) x I k Hk).
  - intros Eb. unfold s', initialize, initialization. rewrite Eb. reflexivity.
Qed.

(* A Simulation made with initialize=False is initialised by its first time step, before
   the boundary conditions, and never again: the operations before it may read, write and
   call kernels; the state after the first step and everything after it is what one gets
   by initialising just before the step. *)
Theorem C58_once : forall init (s : sim) (l1 l2 : list op),
  s_need_init K cell params s = true ->
  Forall (fun o => match o with OStep _ _ _ => False | _ => True end) l1 ->
  let s1 := exec_ops init l1 s in
  s_need_init K cell params s1 = true /\
  exec_ops init (l1 ++ OStep _ _ _ :: l2) s =
    exec_ops init (OStep _ _ _ :: l2) (initialize K cell a init init_moments params bk s1) /\
  s_need_init K cell params (exec_ops init (l1 ++ OStep _ _ _ :: l2) s) = false /\
  (s_t K cell params (initialize K cell a init init_moments params bk s1) = s_t K cell params s1 /\
   s_nt K cell params (initialize K cell a init init_moments params bk s1) = s_nt K cell params s1).
Proof.
  intros init s l1 l2 Hn Hl s1.
  assert (N : s_need_init K cell params s1 = true).
  { unfold s1. clear s1. revert s Hn. induction Hl as [|o l Ho Hl IH]; intros s Hn; [exact Hn|]. cbn. apply IH.
    destruct o; cbn [apply]; try destruct Ho; try exact Hn.
    - unfold refresh. destruct (s_update K cell params s); exact Hn.
    - unfold refresh. destruct (s_update K cell params s); exact Hn.
    - unfold k_transport. destruct bk; exact Hn. }
  assert (N' : s_need_init K cell params (initialize K cell a init init_moments params bk s1) = false) by reflexivity.
  assert (E : exec_ops init (l1 ++ OStep _ _ _ :: l2) s =
    exec_ops init (OStep _ _ _ :: l2) (initialize K cell a init init_moments params bk s1)).
  { unfold exec_ops. rewrite fold_left_app. change (fold_left _ l1 s) with s1. cbn [fold_left apply].
    f_equal. unfold one_time_step. rewrite N, N'. reflexivity. }
  split; [exact N|]. split; [exact E|]. split.
  - rewrite E. generalize (OStep K cell params :: l2). intros l. revert N'.
    generalize (initialize K cell a init init_moments params bk s1). clear.
    induction l as [|o l IH]; intros s N'; [exact N'|]. cbn. apply IH. apply need_apply. exact N'.
  - unfold initialize, initialization. destruct init, init_moments, bk; split; reflexivity.
Qed.

(* The first step: the distributions after it are computed from the initial ones. *)
Theorem C58_first_step : forall init (s : sim),
  (forall x y, cell_eqb x y = true <-> x = y) -> eq_ok K a -> source_ok K a -> rel_ok K a ->
  s_need_init K cell params s = true ->
  forall x k, In x cells -> (k < al_n a)%nat ->
    F_of (exec_ops init [OStep _ _ _] s) x k =
    pull_fun K a (fun j => B (F_of (initialize K cell a init init_moments params bk s)) (nb j x) j) k.
Proof.
  intros init s Hc He Hs HR Hn x k Hx Hk.
  destruct (C58_once init s [] [] Hn (Forall_nil _)) as (_ & E & _). cbn [app] in E. rewrite E.
  exact (C33_last_step_visible cell_eqb a nb cells B init init_moments bk (initialize K cell a init init_moments params bk s) [] Hc He Hs HR eq_refl x k Hx Hk).
Qed.
End Props.
Print Assumptions C58_moments.
Print Assumptions C58_distributions.
Print Assumptions C58_once.
Print Assumptions C58_first_step.

Definition new_sim : sim Zring bool Z := mkSim Zring bool Z
  (fun _ _ => 0%Z) (fun _ _ => 0%Z) (fun _ _ => 0%Z) (fun _ _ => 0%Z) true true 0%Z 0 (inl (fun p => p)) 3%Z.
Definition data_ex : list (nat * (bool -> Zring)) := [(1%nat, fun _ => 100%Z); (0%nat, fun x : bool => if x then 4%Z else 6%Z)].
Example C58_example :
  let s' := initialize Zring bool a_ex (Some data_ex) true Z Two new_sim in
  last_entry data_ex 0%nat (fun x : bool => if x then 4%Z else 6%Z) /\ (0 < al_nc a_ex)%nat /\ eq_ok Zring a_ex /\
  map (mvmul 2 (al_M a_ex) (s_F _ _ _ s' true)) [0; 1]%nat = [4; 12]%Z /\
  map (mvmul 2 (al_M a_ex) (s_F _ _ _ s' false)) [0; 1]%nat = [6; 18]%Z /\
  s_need_init _ _ _ new_sim = true.
Proof.
  split; [exists [(1%nat, fun _ => 100%Z)], []; split; [reflexivity|intros []]|].
  split; [cbn; lia|]. split; [exact a_ex_eq_ok|]. split; [vm_compute; reflexivity|]. split; [vm_compute; reflexivity|reflexivity].
Qed.

(* Without the entry 'init', the initialisation does not put the distributions at
   equilibrium and does not make the two storages equal, but is marked as done. *)
Theorem C58_no_data_refuted : exists s : sim Zring bool Z,
  let s' := initialize Zring bool a_ex None true Z Two s in
  s_need_init _ _ _ s' = false /\ s_Fnew _ _ _ s' <> s_F _ _ _ s' /\
  exists x k, (k < 2)%nat /\ s_m _ _ _ s' x k <> al_eq a_ex (s_m _ _ _ s' x) k.
Proof.
  exists (mkSim Zring bool Z (fun _ _ => 5%Z) (fun _ _ => 0%Z) (fun _ k => if Nat.eqb k 0 then 4%Z else 0%Z) (fun _ _ => 0%Z) true true 0%Z 0 (inl (fun p => p)) 3%Z).
  split; [reflexivity|]. split; [intros E; apply (f_equal (fun f => f true 0%nat)) in E; vm_compute in E; discriminate|].
  exists true, 1%nat. split; [lia|]. vm_compute. discriminate.
Qed.
Print Assumptions C58_no_data_refuted.
