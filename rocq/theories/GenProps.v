(* C61: the kernels printed for NumPy and for Cython compute the same arrays. *)
From Verif Require Import PyBase AlgoModel AlgoProofs GlobalModel GlobalProofs GenModel GenProofs.
Require Import Lia.
Open Scope Z_scope.

(* The statements of the loop, run one after the other on whole slices, give the arrays of the
   loop, whatever the order of the cells and the values of the local symbols before it. *)
Theorem C61_numpy_is_cython (V : Type) (rs : ranges) (sh : nat -> list Z) (p : list (stmt V)) (cells : list (list Z)) (A : arrays V) (L0 : nat -> V) :
  printable V rs sh p -> NoDup cells -> (forall x, In x cells <-> inbox rs x) ->
  exists A' L', numpy V rs sh p A = Some (A', L') /\ forall n q, A' n q = fst (cython V p cells (A, L0)) n q.
Proof. intros W ND HC. now apply numpy_is_loop. Qed.
Print Assumptions C61_numpy_is_cython.

(* The loops written by the Cython printer go once through each cell. *)
Theorem C61_nest (rs : ranges) : NoDup (nest rs) /\ forall x, In x (nest rs) <-> inbox rs x.
Proof. split; [apply nest_NoDup|apply nest_in]. Qed.
Print Assumptions C61_nest.

(* With a loop for each statement (the setting split) the arrays are the same if there is no
   local symbol. *)
Theorem C61_split (V : Type) (rs : ranges) (sh : nat -> list Z) (p : list (stmt V)) (A : arrays V) (L0 : nat -> V) :
  printable V rs sh p -> Forall (no_symbol V) p ->
  forall n q, fst (cython_split V p (nest rs) (A, L0)) n q = fst (cython V p (nest rs) (A, L0)) n q.
Proof. intros W HN. apply (split_ok V rs sh p (nest rs) W (nest_NoDup rs) (nest_in rs) A L0 HN). Qed.
Print Assumptions C61_split.

(* ------------------------------------------------------------------ the kernels of the algorithms *)
(* Indexed with the components at the place pos, the shifts in the arrays, and no shift for the
   arrays which are written: transport, f2m, m2f, equilibrium, relaxation, source_term,
   one_time_step. *)
Theorem C61_regular (V : Type) (rs : ranges) (sizes : list Z) (pos : nat) (sh : nat -> list Z) (p : list (stmt V)) (A : arrays V) (L0 : nat -> V) :
  regular V rs sizes pos sh p ->
  exists A' L', numpy V rs sh p A = Some (A', L') /\ forall n q, A' n q = fst (cython V p (nest rs) (A, L0)) n q.
Proof.
  intro H. apply C61_numpy_is_cython; [exact (regular_printable V rs sizes pos sh p H)|apply nest_NoDup|apply nest_in].
Qed.
Print Assumptions C61_regular.

Definition halo_ok (vmax sizes : list Z) : Prop := Forall2 (fun h n => 0 <= h /\ 2 * h < n) vmax sizes.
Definition in_halo (vmax c : list Z) : Prop := Forall2 (fun h a => Z.abs a <= h) vmax c.
Lemma inner_length vmax sizes : halo_ok vmax sizes -> length (inner_ranges vmax sizes) = length sizes.
Proof. intro E. assert (length vmax = length sizes) by (induction E; cbn; congruence). unfold inner_ranges. rewrite map_length, combine_length. lia. Qed.
Lemma inner_range vmax sizes : halo_ok vmax sizes -> Forall (fun r => fst r < snd r) (inner_ranges vmax sizes).
Proof. induction 1; cbn; constructor; [cbn; lia|assumption]. Qed.
Lemma inner_fits vmax sizes : halo_ok vmax sizes -> forall c, in_halo vmax c -> fits (inner_ranges vmax sizes) sizes c.
Proof.
  induction 1 as [|h n vmax' sizes' Hh H IH]; intros c Hc; inversion Hc as [|? a ? c' Ha Hc']; subst; unfold fits; cbn.
  - repeat split. constructor.
  - destruct (IH c' Hc') as (I1 & I2 & I3). split; [constructor; [cbn; lia|exact I1]|]. cbn. unfold inner_ranges in I2, I3. lia.
Qed.
Lemma zero_halo vmax sizes : halo_ok vmax sizes -> in_halo vmax (repeat 0 (length sizes)).
Proof. induction 1; cbn; constructor; [lia|assumption]. Qed.
Lemma opp_halo vmax c : in_halo vmax c -> in_halo vmax (map Z.opp c).
Proof. induction 1; cbn; constructor; [lia|assumption]. Qed.
Lemma comp_at pos n l c : (pos <= length c)%nat -> comp pos (indexed_at pos n l c) = l.
Proof.
  intro H. unfold comp, indexed_at, ins. cbn [a_idx]. rewrite app_nth2; rewrite firstn_length; unfold idx_from; rewrite map_length, combine_length, seq_length.
  - replace (pos - Nat.min pos (Nat.min (length c) (length c)))%nat with 0%nat by lia. cbn. lia.
  - lia.
Qed.
Lemma ins_val {X} q (a b : X) l : ins q a l = ins q b l -> a = b.
Proof. unfold ins. intro E. apply app_inv_head in E. now injection E. Qed.

Section Pull.
Variables (V : Type) (pos ns : nat) (vmax sizes : list Z) (v : nat -> list Z).
(* the right hand sides read f at x - v_l and the moments at x *)
Definition pull_reads (e : expr V) : Prop :=
  (forall a, In a (gets V e) -> exists l, (l < ns)%nat /\ (a = f_at pos v l \/ a = m_at pos (length sizes) l)) /\
  (forall j, In j (locs V e) -> (ns <= j)%nat).
(* the local symbols are numbered from ns, the numbers before are for the moments *)
Definition pull_stmt (s : stmt V) : Prop := match s with
  | SSet a e => (exists l, (l < ns)%nat /\ (a = m_at pos (length sizes) l \/ a = fnew_at pos (length sizes) l)) /\ pull_reads e
  | SLoc k e => (ns <= k)%nat /\ pull_reads e
  end.
(* the axes are longer than two times the halo, the velocities are at most the halo *)
Record pull_grid (sh : nat -> list Z) : Prop := {
  gr_pos : (pos <= length sizes)%nat;
  gr_halo : halo_ok vmax sizes;
  gr_vel : forall l, (l < ns)%nat -> in_halo vmax (v l);
  gr_shape : forall n, (n <= 2)%nat -> sh n = ins pos (Z.of_nat ns) sizes }.

Lemma pull_access p a : Forall pull_stmt p -> In a (uses V p) ->
  exists l, (l < ns)%nat /\ (a = f_at pos v l \/ a = m_at pos (length sizes) l \/ a = fnew_at pos (length sizes) l).
Proof.
  intros HP Ha. unfold uses in Ha. apply in_flat_map in Ha as (s & Hs & Ha). rewrite Forall_forall in HP. specialize (HP s Hs).
  apply in_app_or in Ha. destruct s as [w e|k e]; cbn in *.
  - destruct HP as [(l & Hl & Hw) [HR _]]. destruct Ha as [[<-|[]]|Ha]; [exists l; tauto|]. destruct (HR a Ha) as (j & Hj & H). exists j. tauto.
  - destruct HP as (_ & HR & _). destruct Ha as [[]|Ha]. destruct (HR a Ha) as (j & Hj & H). exists j. tauto.
Qed.
Lemma pull_sets p a : Forall pull_stmt p -> In a (sets V p) ->
  exists l, (l < ns)%nat /\ (a = m_at pos (length sizes) l \/ a = fnew_at pos (length sizes) l).
Proof.
  intros HP Ha. unfold sets in Ha. apply in_flat_map in Ha as (s & Hs & Ha). rewrite Forall_forall in HP. specialize (HP s Hs).
  destruct s as [w e|k e]; cbn in *; [|tauto]. destruct HP as [(l & Hl & Hw) HR]. destruct Ha as [<-|[]]. exists l. tauto.
Qed.

Lemma pull_regular sh p : pull_grid sh -> Forall pull_stmt p -> assigned V [] p -> Forall (computed V) p ->
  regular V (inner_ranges vmax sizes) sizes pos sh p.
Proof.
  intros [HP HH HV HS] Hp HD HC. constructor; [now apply inner_range| | |exact HD|exact HC].
  - intros a Ha. destruct (pull_access p a Hp Ha) as (l & Hl & Hc).
    assert (exists c n, (n <= 2)%nat /\ a = indexed_at pos n l c /\ in_halo vmax c) as (c & n & Hn & -> & Hh).
    { destruct Hc as [->|[->| ->]]; [exists (map Z.opp (v l)), 0%nat|exists (repeat 0 (length sizes)), 1%nat|exists (repeat 0 (length sizes)), 2%nat];
        (split; [lia|split; [reflexivity|]]); [apply opp_halo, HV, Hl|now apply zero_halo|now apply zero_halo]. }
    exists l, c, (Z.of_nat ns). split; [reflexivity|]. split; [now apply inner_fits|]. split; [apply HS; exact Hn|lia].
  - intros w a Hw Ha En. rewrite (inner_length _ _ HH). destruct (pull_sets p w Hp Hw) as (l & _ & El). destruct (pull_access p a Hp Ha) as (j & _ & Ej).
    destruct Ej as [->|[->| ->]]; [|exists j; reflexivity|exists j; reflexivity]. destruct El as [->| ->]; discriminate.
Qed.

Lemma pull_own sh p : pull_grid sh -> Forall pull_stmt p -> own_symbols V (inner_ranges vmax sizes) 1 (comp pos) p.
Proof.
  intros [HP HH HV HS] Hp.
  assert (M : forall a, In a (uses V p) -> a_name a = 1%nat -> exists l, (l < ns)%nat /\ a = m_at pos (length sizes) l).
  { intros a Ha En. destruct (pull_access p a Hp Ha) as (l & Hl & [->|[->| ->]]); [discriminate|exists l; tauto|discriminate]. }
  split.
  - intros a b x Ha Hb Na Nb Hx. destruct (M a Ha Na) as (l & Hl & ->). destruct (M b Hb Nb) as (j & Hj & ->).
    unfold m_at, here. rewrite !comp_at by (rewrite repeat_length; exact HP).
    assert (Lx : length x = length (repeat 0 (length sizes))) by (rewrite repeat_length, <- (inner_length _ _ HH); now apply inbox_length).
    rewrite !addr_indexed by exact Lx. split; [now intros ->|]. intro E. apply ins_val in E. lia.
  - intros a k Ha Na Hk. destruct (M a Ha Na) as (l & Hl & ->). unfold m_at, here. rewrite comp_at by (rewrite repeat_length; exact HP).
    apply in_flat_map in Hk as (s & Hs & Hk). rewrite Forall_forall in Hp. specialize (Hp s Hs). destruct s as [w e|j e]; cbn in *.
    + destruct Hp as [_ [_ HL]]. specialize (HL k Hk). lia.
    + destruct Hp as [Hj [_ HL]]. destruct Hk as [<-|Hk]; [lia|]. specialize (HL k Hk). lia.
Qed.

(* The kernel one_time_step: the slices of NumPy give the arrays of the loops, and, if the
   moments are computed before they are used, the arrays f and fnew of the loops of Cython
   where the moments are local variables. *)
Theorem C61_pull sh p A (L0 M0 : nat -> V) : pull_grid sh -> Forall pull_stmt p -> assigned V [] p -> Forall (computed V) p ->
  let cells := nest (inner_ranges vmax sizes) in
  exists A' L', numpy V (inner_ranges vmax sizes) sh p A = Some (A', L') /\
    (forall n q, A' n q = fst (cython V p cells (A, L0)) n q) /\
    (assigned V [] (map (loc_stmt V 1 (comp pos)) p) ->
     forall n q, n <> 1%nat -> A' n q = fst (cython V (map (loc_stmt V 1 (comp pos)) p) cells (A, M0)) n q).
Proof.
  intros G Hp HD HC cells. pose proof (regular_printable V _ _ _ _ _ (pull_regular sh p G Hp HD HC)) as W.
  destruct (numpy_is_loop V _ sh p W cells A L0 (nest_NoDup _) (nest_in _)) as (A' & L' & E & H). exists A', L'. split; [exact E|]. split; [exact H|].
  intros HD' n q Nn. destruct (numpy_is_local V _ sh p 1 (comp pos) cells A L0 M0 W (pull_own sh p G Hp) HD' (nest_NoDup _) (nest_in _)) as (A2 & L2 & E2 & H2).
  rewrite E in E2. injection E2 as <- _. now apply H2.
Qed.
End Pull.
Print Assumptions C61_pull.

(* ------------------------------------------------------------------ examples *)
Notation "a +e b" := (EBin Z.add a b) (at level 50, left associativity).
Notation "a *e b" := (EBin Z.mul a b) (at level 40, left associativity).
Definition look (r : option (arrays Z * nlocals Z)) (n : nat) (q : list Z) : option Z := match r with Some (A, _) => Some (A n q) | None => None end.

(* D1Q2 on 5 cells with the relative velocity u = m0 + 1, the axes in the order space, component
   (pos = 1): m0, u, m1 (with u), relaxation of m1 to m0 * m0, fnew. *)
Definition v2 (l : nat) : list Z := match l with O => [1] | _ => [-1] end.
Definition fe l : expr Z := EGet (f_at 1 v2 l).
Definition me l : expr Z := EGet (m_at 1 1 l).
Definition step2 (u : expr Z) (source : list (stmt Z)) : list (stmt Z) :=
  [SSet (m_at 1 1 0) (fe 0 +e fe 1); SLoc 2 u; SSet (m_at 1 1 1) (fe 0 *e (ENum 1 +e EUn Z.opp (ELoc 2)) +e fe 1 *e (ENum (-1) +e EUn Z.opp (ELoc 2)))] ++
  source ++
  [SSet (m_at 1 1 1) (me 1 +e me 0 *e me 0);
   SSet (fnew_at 1 1 0) (me 0 *e (ENum 1 +e ELoc 2) +e me 1); SSet (fnew_at 1 1 1) (me 0 *e (ENum 1 +e EUn Z.opp (ELoc 2)) +e EUn Z.opp (me 1))].
Definition A2 : arrays Z := fun n q => match n, q with O, [x; k] => x * x + 3 * k | _, _ => 0 end.
Definition sh2 (n : nat) : list Z := [5; 2].

Ltac pull_use := match goal with
  | |- exists l, _ /\ (f_at _ _ ?k = _ \/ _) => exists k; split; [lia|left; reflexivity]
  | |- exists l, _ /\ (m_at _ _ ?k = m_at _ _ _ \/ _) => exists k; split; [lia|left; reflexivity]
  | |- exists l, _ /\ (_ = _ \/ _ ?k = _) => exists k; split; [lia|right; reflexivity]
  | |- exists l, _ /\ (_ = _ \/ m_at _ _ ?k = _) => exists k; split; [lia|right; reflexivity]
  | |- exists l, _ /\ (_ = _ \/ fnew_at _ _ ?k = _) => exists k; split; [lia|right; reflexivity]
  end.
Ltac pull_stmts := cbn [step2 app]; repeat (apply Forall_cons; [|]); try apply Forall_nil;
  (split; [first [lia|pull_use]|split; intros ? H; cbn in H; repeat (destruct H as [H|H]; [subst; first [lia|pull_use]|]); try contradiction]).

Example C61_example :
  let p := step2 (me 0 +e ENum 1) [] in
  pull_grid 1 2 [1] [5] v2 sh2 /\ Forall (pull_stmt Z 1 2 [5] v2) p /\ assigned Z [] p /\ Forall (computed Z) p /\
  assigned Z [] (map (loc_stmt Z 1 (comp 1)) p) /\
  look (numpy Z (inner_ranges [1] [5]) sh2 p A2) 2%nat [3; 1] = Some (-491) /\
  fst (cython Z p (nest (inner_ranges [1] [5])) (A2, fun _ => 0)) 2%nat [3; 1] = -491 /\
  fst (cython Z (map (loc_stmt Z 1 (comp 1)) p) (nest (inner_ranges [1] [5])) (A2, fun _ => 0)) 2%nat [3; 1] = -491.
Proof.
  cbn zeta. split; [|split; [|split; [|split; [|split; [|repeat split; vm_compute; reflexivity]]]]].
  - constructor; [cbn; lia|constructor; [lia|constructor]| |reflexivity].
    intros [|[|l]] Hl; cbn; constructor; try constructor; lia.
  - pull_stmts.
  - cbn; repeat split; intros j; cbn; tauto.
  - repeat constructor.
  - cbn; repeat split; intros j; cbn; tauto.
Qed.

(* ------------------------------------------------------------------ each condition is needed *)
Definition in_arrays (rs : ranges) (sh : nat -> list Z) (p : list (stmt Z)) : Prop := forall a, In a (uses Z p) -> in_array rs (sh (a_name a)) a.
Definition all_aligned (rs : ranges) (p : list (stmt Z)) : Prop := forall a, In a (uses Z p) -> aligned rs a.
Definition differ (rs : ranges) (sh : nat -> list Z) (p : list (stmt Z)) : Prop :=
  exists A n q, look (numpy Z rs sh p A) n q <> Some (fst (cython Z p (nest rs) (A, fun _ => 0)) n q).

Ltac boxes := match goal with H : inbox _ _ |- _ => unfold inbox in H; repeat match goal with
  | H : Forall2 _ (_ :: _) _ |- _ => inversion H; clear H; subst | H : Forall2 _ [] _ |- _ => inversion H; clear H; subst end; cbn in * end.

(* The transport in place: the loop reads what it has written. *)
Theorem C61_in_place_refuted : exists rs sh p,
  Forall (fun r => fst r < snd r) rs /\ in_arrays rs sh p /\ all_aligned rs p /\ assigned Z [] p /\ Forall (computed Z) p /\ differ rs sh p.
Proof.
  exists [(1, 5)], (fun _ => [2; 5]), [SSet (indexed_at 0 0 0 [0]) (EGet (indexed_at 0 0 0 [-1]))].
  split; [repeat constructor|]. split; [|split; [|split; [|split]]].
  - intros a [<-|[<-|[]]] x Hx; boxes; repeat constructor; lia.
  - intros a [<-|[<-|[]]]; reflexivity.
  - cbn. repeat split. intros j [].
  - repeat constructor.
  - exists (fun _ q => nth 1 q 0), 0%nat, [0; 2]. vm_compute. discriminate.
Qed.
Print Assumptions C61_in_place_refuted.

(* The axes of the space in another order: the slices lose the names of the indices. *)
Theorem C61_order_refuted : exists rs sh p,
  Forall (fun r => fst r < snd r) rs /\ in_arrays rs sh p /\ independent Z rs p /\ assigned Z [] p /\ Forall (computed Z) p /\ differ rs sh p.
Proof.
  exists [(0, 2); (0, 2)], (fun _ => [2; 2]), [SSet (mkAcc 1 [IIdx 0 0; IIdx 1 0]) (EGet (mkAcc 0 [IIdx 1 0; IIdx 0 0]))].
  split; [repeat constructor|]. split; [|split; [|split; [|split]]].
  - intros a [<-|[<-|[]]] x Hx; boxes; repeat constructor; lia.
  - intros w t x y [<-|[]] [<-|[<-|[]]] En Hx Hy E; [|discriminate]. boxes. boxes. unfold addr in E. cbn in E. injection E as E1 E2. repeat f_equal; lia.
  - cbn. repeat split. intros j [].
  - repeat constructor.
  - exists (fun _ q => hd 0 q), 1%nat, [1; 0]. vm_compute. discriminate.
Qed.
Print Assumptions C61_order_refuted.

(* An array with the axis x only, as the coordinates: it is aligned with the last axis. *)
Theorem C61_coords_refuted : exists rs sh p,
  Forall (fun r => fst r < snd r) rs /\ in_arrays rs sh p /\ independent Z rs p /\ assigned Z [] p /\ Forall (computed Z) p /\ differ rs sh p.
Proof.
  exists [(0, 2); (0, 2)], (fun n => match n with O => [2] | _ => [2; 2] end), [SSet (mkAcc 1 [IIdx 0 0; IIdx 1 0]) (EGet (mkAcc 0 [IIdx 0 0]))].
  split; [repeat constructor|]. split; [|split; [|split; [|split]]].
  - intros a [<-|[<-|[]]] x Hx; boxes; repeat constructor; lia.
  - intros w t x y [<-|[]] [<-|[<-|[]]] En Hx Hy E; [|discriminate]. boxes. boxes. unfold addr in E. cbn in E. injection E as E1 E2. repeat f_equal; lia.
  - cbn. repeat split. intros j [].
  - repeat constructor.
  - exists (fun _ q => hd 0 q), 1%nat, [1; 0]. vm_compute. discriminate.
Qed.
Print Assumptions C61_coords_refuted.

(* A slice which begins before the array is empty: NumPy raises an error, Cython reads
   outside of the array. *)
Theorem C61_halo_refuted : exists rs sh p,
  Forall (fun r => fst r < snd r) rs /\ all_aligned rs p /\ independent Z rs p /\ assigned Z [] p /\ Forall (computed Z) p /\
  forall A, numpy Z rs sh p A = None.
Proof.
  exists [(0, 4)], (fun _ => [2; 4]), [SSet (indexed_at 0 1 0 [0]) (EGet (indexed_at 0 0 0 [-1]))].
  split; [repeat constructor|]. split; [|split; [|split; [|split]]].
  - intros a [<-|[<-|[]]]; reflexivity.
  - intros w t x y [<-|[]] [<-|[<-|[]]] En Hx Hy E; [|discriminate]. boxes. boxes. unfold addr in E. cbn in E. injection E as E1. repeat f_equal; lia.
  - cbn. repeat split. intros j [].
  - repeat constructor.
  - reflexivity.
Qed.
Print Assumptions C61_halo_refuted.

(* The relative velocity is a conserved moment (demo/1D/burgers.py) and the moment has a source
   term: for NumPy the symbol is a view of the array of the moments and changes with it. *)
Theorem C61_view_refuted : exists u source, let p := step2 u source in
  pull_grid 1 2 [1] [5] v2 sh2 /\ Forall (pull_stmt Z 1 2 [5] v2) p /\ assigned Z [] p /\ assigned Z [] (map (loc_stmt Z 1 (comp 1)) p) /\
  look (numpy Z (inner_ranges [1] [5]) sh2 p A2) 2%nat [3; 1] <>
  Some (fst (cython Z (map (loc_stmt Z 1 (comp 1)) p) (nest (inner_ranges [1] [5])) (A2, fun _ => 0)) 2%nat [3; 1]).
Proof.
  exists (me 0), [SSet (m_at 1 1 0) (me 0 +e ENum 1)]. cbn zeta. split; [|split; [|split; [|split; [|vm_compute; discriminate]]]].
  - constructor; [cbn; lia|constructor; [lia|constructor]| |reflexivity].
    intros [|[|l]] Hl; cbn; constructor; try constructor; lia.
  - pull_stmts.
  - cbn; repeat split; intros j; cbn; tauto.
  - cbn; repeat split; intros j; cbn; tauto.
Qed.
Print Assumptions C61_view_refuted.

(* With a loop for each statement a local symbol has the value of the last cell. *)
Theorem C61_split_refuted : exists u source, let p := step2 u source in
  printable Z (inner_ranges [1] [5]) sh2 p /\ exists A n q,
  fst (cython_split Z p (nest (inner_ranges [1] [5])) (A, fun _ => 0)) n q <> fst (cython Z p (nest (inner_ranges [1] [5])) (A, fun _ => 0)) n q.
Proof.
  exists (me 0 +e ENum 1), [SSet (m_at 1 1 1) (ENum 0)]. cbn zeta. destruct C61_example as (G & _). split.
  - refine (regular_printable Z _ _ _ _ _ (pull_regular Z 1 2 [1] [5] v2 sh2 _ G _ _ _)).
    + pull_stmts.
    + cbn; repeat split; intros j; cbn; tauto.
    + repeat constructor.
  - exists A2, 2%nat, [1; 1]. vm_compute. discriminate.
Qed.
Print Assumptions C61_split_refuted.
