(* C78: the simulations with the loo.py back end, on one process with periodic sides. *)
From Coq Require Import Sorting.Permutation.
From Verif Require Import PyBase VelocityModel GridModel GridProofs StorageModel StencilProofs StorageProofs ExchangeProofs LinAlg AlgoModel AlgoProofs RelVelProofs KernelProofs GlobalModel GlobalProofs
  TorusProofs AlgoProps GlobalProps GenModel GenProofs GenProps StepGenModel StepGenProofs StepGenProps LoopyModel LoopyProofs LoopyStepProps LoopyGhostProps.
Require Import Lia.
Open Scope Z_scope.

(* ---- the storage order ---- *)
Lemma order_is pos dim : (pos <= dim)%nat -> is_order (order_of pos dim) (Datatypes.S dim).
Proof.
  intros H. unfold is_order, order_of. replace (seq 0 (Datatypes.S dim)) with (seq 0 pos ++ pos :: seq (Datatypes.S pos) (dim - pos)); [apply Permutation_middle|].
  replace (Datatypes.S dim) with (pos + Datatypes.S (dim - pos))%nat by lia. rewrite seq_app. reflexivity.
Qed.
Lemma order_place pos s (y : list Z) : (pos <= length y)%nat -> place (order_of pos (length y)) s y = ins pos s y.
Proof.
  intros H. unfold place. symmetry. apply scatter_unique.
  - apply order_is. exact H.
  - unfold ins. rewrite app_length. cbn [length]. rewrite firstn_length, skipn_length. lia.
  - intros i j E. unfold order_of in E. unfold ins. destruct i as [|i].
    + cbn in E. injection E as <-. rewrite nth_error_app2 by (rewrite firstn_length; lia). rewrite firstn_length, Nat.min_l, Nat.sub_diag by exact H. reflexivity.
    + cbn [nth_error] in *. destruct (Nat.lt_ge_cases i pos) as [Hi|Hi].
      * rewrite nth_error_app1 in E by (now rewrite seq_length). rewrite (nth_error_nth' _ 0%nat) in E by (now rewrite seq_length). rewrite seq_nth in E by exact Hi. injection E as <-.
        rewrite nth_error_app1 by (rewrite firstn_length; lia). cbn. clear - Hi. revert i Hi y. induction pos as [|p IH]; intros i Hi y; [lia|]. destruct y, i; cbn; try reflexivity. apply IH. lia.
      * rewrite nth_error_app2 in E by (now rewrite seq_length). rewrite seq_length in E.
        assert (L : (i - pos < length y - pos)%nat) by (rewrite <- (seq_length (length y - pos) (Datatypes.S pos)); apply nth_error_Some; congruence).
        rewrite (nth_error_nth' _ 0%nat) in E by (now rewrite seq_length). rewrite seq_nth in E by exact L. assert (j = Datatypes.S i) as -> by (injection E; lia).
        rewrite nth_error_app2 by (rewrite firstn_length; lia). rewrite firstn_length, Nat.min_l by exact H. replace (Datatypes.S i - pos)%nat with (Datatypes.S (i - pos)) by lia. cbn [nth_error].
        clear - Hi. revert i Hi y. induction pos as [|p IH]; intros i Hi y; cbn; [now rewrite Nat.sub_0_r|]. destruct i; [lia|]. destruct y as [|b y]; [|cbn; apply IH; lia].
        assert (Nil : forall m, @nth_error Z [] m = None) by (intros [|m]; reflexivity). cbn [skipn]. now rewrite !Nil.
Qed.

Section Runs.
Variables (K : ring) (a : salgo K) (drop : sstmt K -> bool) (pos : nat) (sizes : list Z) (vel : nat -> list Z).
Notation n := (sa_n K a).
Notation al := (algo_of K a).
Notation dim := (length sizes).
Notation rs := (inner_ranges (repeat 1 dim) sizes).
Hypothesis Hpos : (pos <= dim)%nat.
Hypothesis HZ : Forall (fun n => 3 <= n) sizes.
(* the velocities are -1, 0 and 1 *)
Hypothesis HV : forall k, (k < n)%nat -> length (vel k) = dim /\ Forall (fun v => -1 <= v <= 1) (vel k).
Hypothesis S : scheme_ok K a.
Hypothesis HU : uncoupled a.
Hypothesis HS : still a.
Hypothesis HD : forall s, In s (concat (lpull a)) -> drop s = true -> self s.
Hypothesis HP : forall b, In b (lpull a) -> exists s, In s b /\ drop s = false.
Notation step := (lp_step a drop pos sizes vel).
Notation run := (lp_run a drop pos sizes vel).

Lemma width_one : pull_grid pos n (repeat 1 dim) sizes vel (fun _ => ins pos (Z.of_nat n) sizes).
Proof using Hpos HZ HV.
  constructor; [exact Hpos| | |reflexivity].
  - clear - HZ. induction HZ as [|m l H _ IH]; [apply Forall2_nil|cbn; apply Forall2_cons; [lia|apply IH; now inversion HZ]].
  - intros l Hl. destruct (HV l Hl) as [L H]. rewrite <- L. clear - H. induction H as [|v w H H2 IH]; [apply Forall2_nil|cbn; apply Forall2_cons; [lia|exact IH]].
Qed.
Lemma inbox_inner x : inbox rs x <-> length x = dim /\ forall d, (d < dim)%nat -> 1 <= nth d x 0 < nth d sizes 0 - 1.
Proof using.
  clear. unfold inbox. revert x. induction sizes as [|m l IH]; intros [|i x]; cbn [length repeat].
  - split; [intros _; split; [reflexivity|lia]|constructor].
  - split; [intros H; inversion H|intros [H _]; discriminate].
  - split; [intros H; inversion H|intros [H _]; discriminate].
  - change (inner_ranges (1 :: repeat 1 (length l)) (m :: l)) with ((1, m - 1) :: inner_ranges (repeat 1 (length l)) l). split.
    + intros H. inversion H as [|? ? ? ? H1 H2]; subst. apply IH in H2 as [L H2]. split; [now rewrite L|]. intros [|d] Hd; [exact H1|]. apply H2. lia.
    + intros [L H]. constructor; [apply (H 0%nat); lia|]. apply IH. split; [lia|]. intros d Hd. apply (H (Datatypes.S d)). lia.
Qed.
Lemma from_grid x k : inbox rs x -> (k < n)%nat -> in_grid sizes (from vel x k).
Proof using HV.
  clear Hpos. intros Hx Hk. apply inbox_inner in Hx as [L Hx]. destruct (HV k Hk) as [Lv Hv]. apply grid_nth. unfold from. rewrite map2_length by congruence. split; [exact L|]. intros d Hd.
  rewrite (map2_nth Z.sub 0 0) by lia. specialize (Hx d Hd). assert (H : In (nth d (vel k) 0) (vel k)) by (apply nth_In; lia). pose proof (proj1 (Forall_forall _ _) Hv _ H). cbn in *. lia.
Qed.
Lemma place_elt A (y : list Z) k : length y = dim -> A 0%nat (place (order_of pos dim) (Z.of_nat k) y) = elt K pos A 0 y k.
Proof using Hpos. intros L. clear - Hpos L. unfold elt. rewrite <- L. now rewrite order_place by lia. Qed.
(* One step, whatever the order of the work items of the kernels. *)
Theorem C78_step A A' : step A A' -> forall x k, inbox rs x -> (k < n)%nat ->
  elt K pos A' 0 x k = pull_fun K al (fun j => elt K pos A 0 (periodic sizes (from vel x j)) j) k.
Proof using Hpos HZ HV S HU HS HD HP.
  intros St x k Hx Hk. inversion St as [A0 B C A1 G R E0 E2]; subst. destruct (scheme_algo K a S) as (He & Hs & HR).
  destruct (C76_step K a drop pos (repeat 1 dim) sizes vel _ width_one S HU HS B C HD HP R) as [H _].
  transitivity (elt K pos C 2 x k); [apply E0|]. rewrite (H x k Hx Hk). apply (pull_fun_agree K al _ _ He Hs HR); [|exact Hk]. intros j Hj.
  pose proof (from_grid x j Hx Hj) as Hg. pose proof (grid_length sizes _ Hg) as Lg. rewrite <- (place_elt B _ j Lg).
  rewrite (proj1 (C77_periodic K (order_of pos dim) (Z.of_nat n) sizes (order_is pos dim Hpos) HZ A B G) (Z.of_nat j) _ ltac:(cbn in Hj; lia) Hg).
  apply place_elt. apply (proj1 (proj1 (inner_grid sizes HZ _) (periodic_inner sizes HZ _ Lg))).
Qed.
Lemma periodic_in y : length y = dim -> inbox rs (periodic sizes y).
Proof using HZ. intros L. apply inbox_inner. apply (inner_grid sizes HZ). now apply periodic_inner. Qed.
(* Any number of steps: the run of the scheme on the periodic domain. *)
Definition torus (G : list Z -> vec K) : list Z -> vec K := fun x => pull_fun K al (fun j => G (periodic sizes (from vel x j)) j).
Theorem C78_run t A A' : run t A A' -> forall x k, inbox rs x -> (k < n)%nat -> elt K pos A' 0 x k = iter t torus (fun y j => elt K pos A 0 y j) x k.
Proof using Hpos HZ HV S HU HS HD HP.
  intros R. induction R as [A|t A B C R IH St]; intros x k Hx Hk; [reflexivity|]. rewrite (C78_step B C St x k Hx Hk). cbn [iter]. unfold torus at 1.
  destruct (scheme_algo K a S) as (He & Hs & HR). apply (pull_fun_agree K al _ _ He Hs HR); [|exact Hk]. intros j Hj. apply IH; [|exact Hj]. apply periodic_in.
  apply (grid_length sizes). now apply from_grid.
Qed.
(* There is a run, it does not depend on the order of the work items, and what is in the ghost
   cells and in Fnew at the start does not matter. *)
Lemma step_exists A : exists A', step A A'.
Proof using.
  clear. destruct (gupdate_exists K (order_of pos dim) (Z.of_nat n) sizes dim A) as [B G].
  destruct (has_result K (lblocks a drop pos dim vel (lpull a)) (nest rs) B) as [C R].
  exists (fun k => match k with O => C 2%nat | 2%nat => C 0%nat | _ => C k end). now apply (LPStep K a drop pos sizes vel A B C).
Qed.
Theorem C78_runs t : (forall A, exists A', run t A A') /\
  forall A B A' B', (forall x k, inbox rs x -> (k < n)%nat -> elt K pos A 0 x k = elt K pos B 0 x k) -> run t A A' -> run t B B' ->
    forall x k, inbox rs x -> (k < n)%nat -> elt K pos A' 0 x k = elt K pos B' 0 x k.
Proof using Hpos HZ HV S HU HS HD HP.
  split.
  - clear - t. intros A. induction t as [|t [B IH]]; [exists A; constructor|]. destruct (step_exists B) as [C St]. exists C. now apply (LPMore K a drop pos sizes vel t A B C).
  - intros A B A' B' E RA RB x k Hx Hk. rewrite (C78_run t A A' RA x k Hx Hk), (C78_run t B B' RB x k Hx Hk). clear RA RB A' B'. revert x k Hx Hk.
    destruct (scheme_algo K a S) as (He & Hs & HR). induction t as [|t IH]; intros x k Hx Hk; [now apply E|]. cbn [iter]. unfold torus at 1 3.
    apply (pull_fun_agree K al _ _ He Hs HR); [|exact Hk]. intros j Hj. apply IH; [|exact Hj]. apply periodic_in. apply (grid_length sizes). now apply from_grid.
Qed.
(* The values are those of the generated Cython code. *)
Notation axes := (alone sizes).
Notation c := (only sizes).
Lemma alone_fits : (dim <= 3)%nat -> GlobalProps.fits axes vel n.
Proof using HZ HV.
  clear Hpos. intros H3. split; [now rewrite alone_length|]. split; [now apply alone_ok|]. intros k Hk. destruct (HV k Hk) as [L H]. rewrite alone_length. split; [exact L|]. intros d Hd. rewrite alone_nth by exact Hd. cbn [ax_h].
  assert (I : In (nth d (vel k) 0) (vel k)) by (apply nth_In; lia). pose proof (proj1 (Forall_forall _ _) H _ I). cbn in *. lia.
Qed.
Lemma alone_cells : Forall (fun x => forall c, (c < ax_p x)%nat -> ax_lo x c < ax_hi x c) axes.
Proof using HZ.
  clear - HZ. unfold alone. apply Forall_map. refine (Forall_impl _ _ HZ). intros m H c' Hc. cbn in Hc. assert (c' = 0%nat) as -> by lia. destruct (one_process (m - 2) 1) as [-> ->]; lia.
Qed.
Lemma cython_step L0 (st : fields K * fields K) x k : (dim <= 3)%nat -> inbox rs x -> (k < n)%nat ->
  fst (gen_two K pos axes (cython_program K a pos axes vel) L0 st) c x k = pull_fun K al (fun j => fst st c (periodic sizes (from vel x j)) j) k.
Proof using Hpos HZ HV S.
  intros H3 Hx Hk. pose proof (alone_fits H3) as F. assert (Hp : (pos <= length axes)%nat) by now rewrite alone_length. destruct (scheme_algo K a S) as (He & Hs & HR).
  assert (Hi : inner axes c x) by (apply (inner_grid sizes HZ); now apply inbox_inner).
  pose proof (only_ok sizes) as Hc. unfold gen_two, field_of. cbn [fst]. unfold cython_program. rewrite <- (sizes_len axes c Hc).
  refine (eq_trans (proj1 (C63_cython K a pos (map ax_h axes) (sizes_of axes c) vel _ (grid_proc K a pos axes vel Hp F alone_cells c Hc) S _ L0) x k (proj2 (ranges_inner axes c x Hc) Hi) Hk) _).
  apply (pull_fun_agree K al _ _ He Hs HR); [|exact Hk]. intros j Hj. unfold elt. cbn [arrays3]. rewrite (read_elt K a pos axes vel Hp F _ c x Hc Hi j Hj).
  pose proof (from_grid x j Hx Hj) as Hg. pose proof (grid_length sizes _ Hg) as L. change (shift_cell vel j x) with (from vel x j).
  rewrite (update_spec axes ltac:(rewrite alone_length; exact H3) (alone_ok sizes HZ) (fst st) c (from vel x j) c (periodic sizes (from vel x j)) Hc (proj2 (stored_grid sizes HZ _) Hg) Hc (periodic_inner sizes HZ _ L) (periodic_cell sizes HZ _ L)).
  reflexivity.
Qed.
Theorem C78_cython L0 (st : fields K * fields K) t A A' : (dim <= 3)%nat -> run t A A' ->
  (forall x k, inbox rs x -> (k < n)%nat -> elt K pos A 0 x k = fst st c x k) ->
  forall x k, inbox rs x -> (k < n)%nat -> elt K pos A' 0 x k = fst (iter t (gen_two K pos axes (cython_program K a pos axes vel) L0) st) c x k.
Proof using Hpos HZ HV S HU HS HD HP.
  intros H3 R HA. induction R as [A|t A B C R IH St]; intros x k Hx Hk; [now apply HA|]. cbn [iter]. rewrite (C78_step B C St x k Hx Hk), (cython_step L0 _ x k H3 Hx Hk).
  destruct (scheme_algo K a S) as (He & Hs & HR). apply (pull_fun_agree K al _ _ He Hs HR); [|exact Hk]. intros j Hj. apply (IH HA); [|exact Hj]. apply periodic_in.
  apply (grid_length sizes). now apply from_grid.
Qed.
End Runs.
Print Assumptions C78_step.
Print Assumptions C78_run.
Print Assumptions C78_runs.
Print Assumptions C78_cython.

(* Four cells, two velocities 0 and 1, the scheme of C76_example: two steps of every run. *)
Example C78_example :
  let a := sch true (Num (K := Zring) 2) [(1%nat, Var 0)] in
  (forall k, (k < sa_n Zring a)%nat -> length (velz k) = 1%nat /\ Forall (fun v => -1 <= v <= 1) (velz k)) /\
  (exists A', lp_run a all_printed 0 [6] velz 2 Az A') /\
  forall A', lp_run a all_printed 0 [6] velz 2 Az A' -> elt Zring 0 A' 0 [1] 1 = iter 2 (torus Zring a [6] velz) (fun y j => elt Zring 0 Az 0 y j) [1] 1%nat.
Proof.
  set (a := sch true (Num (K := Zring) 2) [(1%nat, Var 0)]). cbv zeta. destruct C76_example as (S & U & T & _ & P & _). fold a in S, U, T, P.
  assert (HV : forall k, (k < sa_n Zring a)%nat -> length (velz k) = 1%nat /\ Forall (fun v => -1 <= v <= 1) (velz k)).
  { intros k Hk. cbn in Hk. split; [reflexivity|]. repeat constructor; lia. }
  assert (HZ : Forall (fun n => 3 <= n) [6]) by (repeat constructor; lia).
  split; [exact HV|]. split; [apply (C78_runs Zring a all_printed 0 [6] velz ltac:(cbn; lia) HZ HV S U T ltac:(discriminate) P)|].
  intros A' R. apply (C78_run Zring a all_printed 0 [6] velz ltac:(cbn; lia) HZ HV S U T ltac:(discriminate) P 2 Az A' R); [repeat constructor; cbn; lia|cbn; lia].
Qed.
