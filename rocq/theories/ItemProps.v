(* C102: reading, setting and adding to the items of m, m_halo, F, F_halo of a simulation. *)
From Verif Require Import PyBase LinAlg AlgoModel AlgoProofs RelVelProofs KernelProofs SimModel SimProofs AlgoProps SimProps ItemModel.

Section Props.
Context {K : ring} {cell : Type} (cell_eqb : cell -> cell -> bool) (a : algo K) (nb : nat -> cell -> cell)
  (cells : list cell) (B : field K cell -> field K cell) (init : option (list (nat * (cell -> K))))
  (init_moments : bool) {params : Type} (bk : backend).
Notation sim := (sim K cell params).
Notation op := (op K cell params).
Notation stmt := (stmt K cell).
Notation apply := (apply K cell cell_eqb a nb cells B init init_moments params bk).
Notation exec_ops := (exec_ops K cell cell_eqb a nb cells B init init_moments params bk).
Notation run_stmt := (run_stmt K cell cell_eqb a cells params).
Notation read_m := (read_m K cell a params).
Notation F_of := (s_F K cell params).
Notation m_of := (s_m K cell params).
Notation flag := (s_update K cell params).
Notation OWriteF := (OWriteF K cell params).
Notation OWriteM := (OWriteM K cell params).
Notation OReadM := (OReadM K cell params).
Notation OReadF := (OReadF K cell params).
Notation SGet := (SGet K cell).
Notation SSet := (SSet K cell).
Notation SAug := (SAug K cell).

(* Reads and assignments: those of the halo attributes are the operations of C32; the two others cannot be
   set, and the attempt changes nothing. *)
Theorem C102_assign s i v :
  run_stmt (SGet AmH i) s = Done (apply OReadM s) tt /\ run_stmt (SGet Am i) s = Done (apply OReadM s) tt /\
  run_stmt (SGet AFH i) s = Done (apply OReadF s) tt /\ run_stmt (SGet AF i) s = Done (apply OReadF s) tt /\
  run_stmt (SSet AmH i v) s = Done (apply (OWriteM i v) s) tt /\ run_stmt (SSet AFH i v) s = Done (apply (OWriteF i v) s) tt /\
  run_stmt (SSet Am i v) s = Raise s /\ run_stmt (SSet AF i v) s = Raise s.
Proof. repeat split. Qed.

Lemma refresh_flag s : flag (refresh K cell a params s) = false.
Proof. unfold refresh. destruct (flag s) eqn:E; [reflexivity|exact E]. Qed.
Lemma refresh_F s : F_of (refresh K cell a params s) = F_of s.
Proof. unfold refresh. destruct (flag s); reflexivity. Qed.

(* sol.F_halo[i] += w and sol.m_halo[i] += w *)
Theorem C102_add s i w :
  (exists s', run_stmt (SAug AFH i w) s = Done s' tt /\ flag s' = true /\ (forall x k, m_of s' x k = m_of s x k) /\
     forall x k, F_of s' x k = if Nat.eqb k i then (F_of s x i + w x)%K else F_of s x k) /\
  (exists s', run_stmt (SAug AmH i w) s = Done s' tt /\ flag s' = false /\ (forall x k, F_of s' x k = F_of s x k) /\
     forall x k, m_of s' x k = if Nat.eqb k i then (read_m s x i + w x)%K else read_m s x k).
Proof.
  split; eexists; (split; [reflexivity|]); (split; [reflexivity|]); split.
  - reflexivity.
  - intros x k. cbn. unfold write_row, updf. destruct (Nat.eqb_spec k i) as [->|N]; unfold row; cbn; rewrite ?Nat.eqb_refl; reflexivity.
  - intros x k. cbn. now rewrite refresh_F.
  - intros x k. cbn. unfold write_row, updf. destruct (Nat.eqb_spec k i) as [->|N]; unfold row; cbn; rewrite ?Nat.eqb_refl; reflexivity.
Qed.
(* sol.F[i] += w and sol.m[i] += w raise an exception after the inner cells have been changed; the flag does
   not know of the change of F. *)
Theorem C102_add_inner s i w (Dom : cell -> Prop) : (forall x, existsb (cell_eqb x) cells = true <-> Dom x) ->
  (exists s', run_stmt (SAug AF i w) s = Raise s' /\ flag s' = flag s /\ (forall x k, m_of s' x k = m_of s x k) /\
     forall x k, (Dom x -> k = i -> F_of s' x k = (F_of s x i + w x)%K) /\ (~ Dom x \/ k <> i -> F_of s' x k = F_of s x k)) /\
  (exists s', run_stmt (SAug Am i w) s = Raise s' /\ flag s' = false /\ (forall x k, F_of s' x k = F_of s x k) /\
     forall x k, (Dom x -> k = i -> m_of s' x k = (read_m s x i + w x)%K) /\ (~ Dom x \/ k <> i -> m_of s' x k = read_m s x k)).
Proof.
  intros HD. split; eexists; (split; [reflexivity|]); cbn.
  - split; [reflexivity|]. split; [reflexivity|]. intros x k. unfold write_row, updf, inner. split.
    + intros Hx ->. rewrite Nat.eqb_refl. apply HD in Hx. now rewrite Hx.
    + intros [Hx|Hk].
      * destruct (existsb (cell_eqb x) cells) eqn:Ex; [destruct Hx; now apply HD|]. destruct (Nat.eqb_spec k i) as [->|N]; reflexivity.
      * destruct (Nat.eqb_spec k i) as [->|N]; [congruence|reflexivity].
  - split; [apply refresh_flag|]. split; [intros x k; now rewrite refresh_F|]. intros x k. unfold write_row, updf, inner. split.
    + intros Hx ->. rewrite Nat.eqb_refl. apply HD in Hx. now rewrite Hx.
    + intros [Hx|Hk].
      * destruct (existsb (cell_eqb x) cells) eqn:Ex; [destruct Hx; now apply HD|]. destruct (Nat.eqb_spec k i) as [->|N]; reflexivity.
      * destruct (Nat.eqb_spec k i) as [->|N]; [congruence|reflexivity].
Qed.

(* Programs: operations of C32 and statements, exceptions are caught and forgotten. *)
Definition state_of (o : outcome sim unit) : sim := match o with Done s _ => s | Raise s => s end.
Definition exec (l : list (stmt + op)) (s : sim) : sim :=
  fold_left (fun s c => match c with inl c => state_of (run_stmt c s) | inr o => apply o s end) l s.
Definition harmless (c : stmt + op) : Prop :=
  match c with
  | inl (ItemModel.SGet _ _ _ _) => True
  | inl (ItemModel.SSet _ _ p _ _) => p <> AmH
  | inl (ItemModel.SAug _ _ p _ _) => p = AFH
  | inr o => match o with OStep _ _ _ | SimModel.OReadM _ _ _ | SimModel.OReadF _ _ _ | SimModel.OWriteF _ _ _ _ _ | OF2m _ _ _ | OM2f _ _ _ | OParam _ _ _ _ => True | _ => False end
  end.
(* Programs which add to and set the distributions by F_halo, read anything and step: the moments which are
   read are those of the distributions. *)
Theorem C102_programs (Dom : cell -> Prop) (halo : bool) s l :
  is_id (al_n a) (mmul (al_n a) (al_M a) (al_invM a)) -> (halo = false -> forall F x, Dom x -> B F x = F x) -> flag s = true -> Forall harmless l ->
  forall x k, Dom x -> (k < al_n a)%nat -> read_m (exec l s) x k = mvmul (al_n a) (al_M a) (F_of (exec l s) x) k.
Proof.
  intros HM HB Hs Hl x k Hx Hk.
  set (clean (o : op) := match o with OStep _ _ _ | SimModel.OReadM _ _ _ | SimModel.OReadF _ _ _ | SimModel.OWriteF _ _ _ _ _ | OF2m _ _ _ | OM2f _ _ _ | OParam _ _ _ _ => True | _ => False end : Prop).
  (* the program is a sequence of operations *)
  assert (X : forall l, Forall harmless l -> forall s, exists ops, Forall clean ops /\ exec l s = exec_ops ops s).
  { clear s l Hs Hl. intros l Hl. induction Hl as [|c l Hc Hl IH]; intros s; [exists []; split; [constructor|reflexivity]|].
    assert (Y : exists ops, Forall clean ops /\ match c with inl c => state_of (run_stmt c s) | inr o => apply o s end = exec_ops ops s).
    { destruct c as [[p i|p i v|p i w]|o]; cbn in Hc.
      - destruct (C102_assign s i (fun _ => 0%K)) as (H1 & H2 & H3 & H4 & _). destruct p.
        + exists [OReadM]. split; [repeat constructor|]. now rewrite H1.
        + exists [OReadM]. split; [repeat constructor|]. now rewrite H2.
        + exists [OReadF]. split; [repeat constructor|]. now rewrite H3.
        + exists [OReadF]. split; [repeat constructor|]. now rewrite H4.
      - destruct (C102_assign s i v) as (_ & _ & _ & _ & H5 & H6 & H7 & H8). destruct p; [congruence| | |].
        + exists []. split; [constructor|]. now rewrite H7.
        + exists [OWriteF i v]. split; [repeat constructor|]. now rewrite H6.
        + exists []. split; [constructor|]. now rewrite H8.
      - subst p. exists [OWriteF i (fun x => (F_of s x i + w x)%K); OWriteF i (fun x => updf (F_of s x) i (F_of s x i + w x)%K i)].
        split; [repeat constructor|]. reflexivity.
      - exists [o]. split; [|reflexivity]. constructor; [exact Hc|constructor]. }
    destruct Y as (o1 & O1 & E1). destruct (IH (exec_ops o1 s)) as (o2 & O2 & E2). exists (o1 ++ o2). split; [apply Forall_app; now split|].
    unfold exec in *. cbn [fold_left]. rewrite E1, E2. unfold SimModel.exec_ops. now rewrite fold_left_app. }
  destruct (X l Hl s) as (ops & Ho & ->). apply (C32_moments_partial cell_eqb a nb cells B init init_moments bk Dom halo s ops HM HB Hs); try assumption.
  now apply C32_clean_sequences.
Qed.
End Props.
Print Assumptions C102_assign.
Print Assumptions C102_add.
Print Assumptions C102_add_inner.
Print Assumptions C102_programs.

(* ---- examples: the two cells of C32_example ---- *)
Notation run_ex := (run_stmt Zring bool Bool.eqb a_ex [true; false] Z).
Definition exec_ex := exec (K := Zring) (cell := bool) Bool.eqb a_ex nbb [true; false] (fun F => F) None true (params := Z) Two.
Notation SAugE p i w := (SAug Zring bool p i w).
Notation SSetE p i w := (SSet Zring bool p i w).
Notation SGetE p i := (SGet Zring bool p i).
Example C102_example :
  let l := [inl (SGetE Am 0%nat); inl (SAugE AFH 1%nat c0); inr step_; inl (SSetE Am 0%nat c0); inl (SAugE AFH 0%nat c0); inl (SSetE AFH 1%nat c0); inl (SGetE AmH 1%nat)] in
  Forall harmless l /\ s_update _ _ _ sim0 = true /\ (forall x, existsb (Bool.eqb x) [true; false] = true <-> True) /\
  map (s_F _ _ _ (exec_ex l sim0) true) [0; 1]%nat = [-46; 7]%Z /\ map (read_m Zring bool a_ex Z (exec_ex l sim0) true) [0; 1]%nat = [-39; 7]%Z.
Proof.
  split; [repeat constructor; discriminate|]. split; [reflexivity|]. split; [intros []; cbn; tauto|]. split; vm_compute; reflexivity.
Qed.
(* A statement which raises changes the state. *)
Theorem C102_raise_refuted : exists (c : stmt Zring bool) (s s' : sim Zring bool Z) x k, c = SAugE Am 0%nat c0 /\ run_ex c s = Raise s' /\ read_m Zring bool a_ex Z s' x k <> read_m Zring bool a_ex Z s x k.
Proof. eexists _, sim0, _, true, 0%nat. split; [reflexivity|]. split; [reflexivity|]. vm_compute. discriminate. Qed.
(* The exception caught: the moments which are read afterwards are not those of the distributions. *)
Theorem C102_stale_refuted : exists (l : list (stmt Zring bool + op Zring bool Z)) x, l = [inl (SGetE Am 0%nat); inl (SAugE AF 0%nat c0)] /\
  read_m Zring bool a_ex Z (exec_ex l sim0) x 0%nat <> mvmul 2 (al_M a_ex) (s_F _ _ _ (exec_ex l sim0) x) 0%nat.
Proof. eexists _, true. split; [reflexivity|]. vm_compute. discriminate. Qed.
Print Assumptions C102_raise_refuted.
Print Assumptions C102_stale_refuted.
