(* C68: a Simulation starts from its dictionary: the user's functions, the generated kernels
   equilibrium and m2f, on every process grid. *)
From Coq Require Import QArith.
From Verif Require Import PyBase VelocityModel VelocityProofs Velocity3Proofs StencilModel StencilProofs GridModel GridProofs StorageModel
  ExchangeProofs StorageProps LinAlg AlgoModel AlgoProofs RelVelProofs KernelProofs GlobalModel GlobalProofs TorusProofs AlgoProps GlobalProps
  GenModel GenProofs GenProps StepGenModel StepGenProofs StepGenProps SchemeModel SchemeProofs SchemeProps BuildModel BuildProofs BuildProps BuildFrame
  DomainModel DomainProofs DomainProps BoundaryModel BoundaryProofs BoundaryProps BoundaryUpdProps VesselProofs VesselProps ChannelProps
  ParallelModel ParallelProofs ObstacleProofs ParallelProps ObstacleProps ParallelMassProps WholeModel WholeProps InitGenModel.
Require Import Lia.
Open Scope Z_scope.

(* ------------------------------------------------- the kernels on the whole domain *)
Section Full.
Variables (K : ring) (a : salgo K) (pos : nat) (sizes : list Z).
Notation n := (sa_n K a).
Hypothesis Hpos : (pos <= length sizes)%nat.
Hypothesis Hsz : Forall (fun s => 0 < s) sizes.
Notation rs := (full_ranges sizes).
Notation dm := (length sizes).
Notation zv := (fun _ : nat => repeat 0 dm).

Lemma full_inner : rs = inner_ranges (repeat 0 dm) sizes.
Proof using. clear. unfold full_ranges, inner_ranges. induction sizes as [|s l IH]; [reflexivity|]. cbn. rewrite IH, Z.sub_0_r. reflexivity. Qed.
Lemma full_grid : pull_grid pos n (repeat 0 dm) sizes zv (fun _ => ins pos (Z.of_nat n) sizes).
Proof using Hpos Hsz.
  constructor; [exact Hpos| | |reflexivity].
  - clear - Hsz. unfold halo_ok. induction Hsz as [|s l Hs Hl IH]; [constructor|]. cbn [length repeat]. constructor; [lia|now apply IH].
  - intros l _. clear. unfold in_halo. induction sizes as [|s l' IH]; [constructor|]. cbn [length repeat]. constructor; [lia|exact IH].
Qed.

(* statements at the cell: the moments and f are read and written *)
Fixpoint plain (e : sym K) : Prop := match e with
  | YNum _ => True
  | YNew k | YMom k => (k < n)%nat
  | YUn _ e => plain e
  | YBin _ e1 e2 => plain e1 /\ plain e2
  | _ => False
  end.
Definition pstmt (s : sstmt K) : Prop := plain (snd s) /\ match fst s with TFn k | TM k => (k < n)%nat | TU _ => False end.
Lemma plain_bound e : plain e -> sbound K n e.
Proof. induction e; cbn; tauto. Qed.
Lemma plain_nomv e : plain e -> nomv K e.
Proof. induction e; cbn; tauto. Qed.
Lemma plain_vels e : plain e -> vels K e = [].
Proof. induction e; cbn; try tauto. intros [H1 H2]. now rewrite IHe1, IHe2. Qed.
Lemma plain_vf e g g' fn m u : plain e -> seval K (mkView g fn m u) e = seval K (mkView g' fn m u) e.
Proof. induction e; cbn; try tauto; try reflexivity; [intros H; now rewrite IHe|]. intros [H1 H2]. now rewrite IHe1, IHe2. Qed.
Lemma plain_gets e b : plain e -> In b (gets K (np_expr K pos dm n zv e)) -> exists k, (k < n)%nat /\ (b = here pos dm 0 k \/ b = here pos dm 1 k).
Proof.
  induction e; cbn [plain np_expr gets]; intros H Hi; try contradiction; try (now apply IHe).
  - destruct Hi as [<-|[]]. exists k. tauto.
  - destruct Hi as [<-|[]]. exists k. tauto.
  - apply in_app_or in Hi as [Hi|Hi]; [apply IHe1|apply IHe2]; tauto.
Qed.
Lemma plain_locs e : plain e -> locs K (np_expr K pos dm n zv e) = [].
Proof. induction e; cbn; try tauto; try reflexivity. intros [H1 H2]. now rewrite IHe1, IHe2. Qed.
Lemma plain_uses sp b : Forall pstmt sp -> In b (uses K (on_cell K a pos dm sp)) -> exists k, (k < n)%nat /\ (b = here pos dm 0 k \/ b = here pos dm 1 k).
Proof.
  intros HF Hb. unfold uses in Hb. apply in_flat_map in Hb as (s' & H1 & H2). unfold on_cell in H1. apply in_map_iff in H1 as (s & <- & Hs).
  destruct (proj1 (Forall_forall _ _) HF s Hs) as [He Ht]. destruct s as [[k|k|j] e]; cbn in He, Ht, H2; try contradiction.
  - destruct H2 as [<-|H2]; [exists k; tauto|]. now apply (plain_gets e).
  - destruct H2 as [<-|H2]; [exists k; tauto|]. now apply (plain_gets e).
Qed.
Lemma plain_regular sp : Forall pstmt sp -> GenProofs.regular K rs sizes pos (fun _ => ins pos (Z.of_nat n) sizes) (on_cell K a pos dm sp).
Proof using Hpos Hsz.
  intros HF. pose proof full_grid as [GP GH GV GS]. constructor.
  - rewrite full_inner. now apply inner_range.
  - intros b Hb. destruct (plain_uses sp b HF Hb) as (k & Hk & Eb). exists k, (repeat 0 dm), (Z.of_nat n). split; [destruct Eb as [->| ->]; reflexivity|].
    split; [|split; [reflexivity|lia]]. rewrite full_inner. apply inner_fits; [exact GH|]. now apply zero_halo.
  - intros w b Hw Hb _. destruct (plain_uses sp b HF Hb) as (k & Hk & Eb). exists k.
    replace (length rs) with dm by (unfold full_ranges; now rewrite map_length). destruct Eb as [->| ->]; reflexivity.
  - assert (A : forall D, assigned K D (on_cell K a pos dm sp)); [|apply A].
    induction HF as [|s sp [He Ht] HF IH]; intros D; [exact I|]. destruct s as [[k|k|j] e]; cbn in He, Ht |- *; try contradiction; (split; [rewrite (plain_locs e He); intros x []|apply IH]).
  - apply Forall_forall. intros s' Hs'. unfold on_cell in Hs'. apply in_map_iff in Hs' as (s & <- & Hs).
    destruct (proj1 (Forall_forall _ _) HF s Hs) as [He Ht]. destruct s as [[k|k|j] e]; cbn in Ht |- *; try contradiction; exact I.
Qed.
Notation vw A x := (mkView (elt K pos A 0 x) (elt K pos A 0 x) (elt K pos A 1 x) (fun _ => 0%K)).
(* both back ends: no error, at each cell the statements of AlgoModel.v, and nothing else *)
Lemma full_run be (sp : list (sstmt K)) (p : list (AlgoModel.stmt K)) A : Forall pstmt sp -> Forall2 (stmt_rel K) sp p ->
  exists B, call K a pos be sizes (on_cell K a pos dm sp) A = Some B /\
  forall x k, inbox rs x -> (k < n)%nat -> elt K pos B 0 x k = vfn (run p (vw A x)) k /\ elt K pos B 1 x k = vm (run p (vw A x)) k.
Proof using Hpos Hsz.
  intros HF HR. pose proof full_grid as G.
  destruct (C63_numpy_run K a pos (repeat 0 dm) sizes zv _ G sp p A (fun _ _ => 0%K)) as (B & L & E & E1 & _).
  - eapply Forall_impl; [|exact HF]. intros s [He Ht]. split; [destruct (fst s); [exact Ht|exact Ht|exact I]|now apply plain_bound].
  - eapply Forall_impl; [|exact HF]. intros s [He _]. now apply plain_nomv.
  - eapply Forall_impl; [|exact HF]. intros s [He Ht]. destruct s as [[k|k|j] e]; cbn in *; [exact I|exact I|contradiction].
  - assert (A' : forall D, defined K D sp); [|apply A'].
    clear - HF. induction HF as [|s sp [He Ht] HF IH]; intros D; [exact I|]. destruct s as [t e]. cbn. split; [|apply IH]. cbn in He. rewrite (plain_vels e He). intros x [].
  - exact HR.
  - assert (V : forall x k, inbox rs x -> (k < n)%nat -> elt K pos B 0 x k = vfn (run p (vw A x)) k /\ elt K pos B 1 x k = vm (run p (vw A x)) k).
    { intros x k Hx Hk. assert (Lx : length x = dm) by (pose proof (inbox_length rs x Hx) as L'; unfold full_ranges in L'; now rewrite map_length in L').
      destruct (E1 x k Lx Hk) as [-> ->].
      assert (T := numpy_no_vf K (list Z) (shift_cell zv) (in_cells (repeat 0 dm) sizes) p).
      assert (NV : Forall (no_vf K) p).
      { clear - HF HR. induction HR as [|s r sp p [_ Hr] HR IH]; [constructor|]. inversion HF as [|? ? [He _] HF']; subst. constructor; [|now apply IH].
        intros g g' fn m u. rewrite <- !Hr. now apply plain_vf. }
      specialize (T NV (elt K pos A 0, (elt K pos A 1, fun _ _ => 0%K)) (fun x => vw A x)). specialize (T ltac:(intros y _; cbn; auto)).
      rewrite full_inner in Hx. destruct (T x (proj2 (in_cells_spec (repeat 0 dm) sizes x) Hx)) as (T1 & T2 & _). split; [exact (f_equal (fun f => f k) T1)|exact (f_equal (fun f => f k) T2)]. }
    unfold numpy_kernel in E. fold (on_cell K a pos dm sp) in E. rewrite <- full_inner in E. destruct be; cbn [call].
    + destruct (C61_regular K rs sizes pos (fun _ => ins pos (Z.of_nat n) sizes) (on_cell K a pos dm sp) A (fun _ => 0%K) (plain_regular sp HF)) as (A' & L' & E' & H').
      rewrite E in E'. injection E' as <- <-. eexists. split; [reflexivity|]. intros x k Hx Hk. unfold elt. rewrite <- !H'. now apply V.
    + rewrite E. now exists B.
Qed.
End Full.

Section Kernels.
Variables (K : ring) (a : salgo K) (pos : nat) (sizes : list Z).
Notation n := (sa_n K a).
Notation rs := (full_ranges sizes).
Hypothesis Hpos : (pos <= length sizes)%nat.
Hypothesis Hsz : Forall (fun s => 0 < s) sizes.
Hypothesis S : scheme_ok K a.
Lemma p_assign (t : nat -> target) (e : nat -> sym K) : (forall k, (k < n)%nat -> pstmt K a (t k, e k)) -> Forall (pstmt K a) (sassign K t 0 n e).
Proof. intros H. apply Forall_forall. intros s Hs. unfold sassign in Hs. apply in_map_iff in Hs as (k & <- & Hk). apply in_seq in Hk. apply H. lia. Qed.
Lemma p_sum m (g : nat -> sym K) : (forall j, (j < m)%nat -> plain K a (g j)) -> plain K a (ysum K m g).
Proof.
  intros H. unfold ysum. assert (X : forall l, (forall j, In j l -> (j < m)%nat) -> plain K a (fold_right (fun j acc => yadd K (g j) acc) (YNum 0%K) l)).
  { induction l as [|j l IH]; intros Hl; [exact I|]. cbn. split; [apply H, Hl; now left|apply IH; intros; apply Hl; now right]. }
  apply X. intros j Hj. apply in_seq in Hj. lia.
Qed.
Lemma p_sub (t : term K) : below K n t -> plain K a (tsub K YMom t).
Proof.
  unfold below. induction t as [c|i|o t IH|o t1 IH1 t2 IH2]; cbn; intros H; [exact I|apply H; now left|now apply IH|].
  split; [apply IH1|apply IH2]; intros i Hi; apply H, in_or_app; tauto.
Qed.
(* The generated kernels on the whole domain, for both back ends: no error; the moments become
   their equilibria, the distributions M^-1 of the moments, the moments M of the distributions;
   the other array keeps its values. *)
Theorem C68_kernels be (A : arrays K) :
  (exists B, call K a pos be sizes (gen_equilibrium K a pos (length sizes)) A = Some B /\
     forall x k, inbox rs x -> (k < n)%nat -> elt K pos B 0 x k = elt K pos A 0 x k /\ elt K pos B 1 x k = teval K (elt K pos A 1 x) (sa_eq K a k)) /\
  (exists B, call K a pos be sizes (gen_m2f K a pos (length sizes)) A = Some B /\
     forall x k, inbox rs x -> (k < n)%nat -> elt K pos B 0 x k = mvmul n (sa_invM K a) (elt K pos A 1 x) k /\ elt K pos B 1 x k = elt K pos A 1 x k) /\
  (exists B, call K a pos be sizes (gen_f2m K a pos (length sizes)) A = Some B /\
     forall x k, inbox rs x -> (k < n)%nat -> elt K pos B 0 x k = elt K pos A 0 x k /\ elt K pos B 1 x k = mvmul n (sa_M K a) (elt K pos A 0 x) k).
Proof using Hpos Hsz S.
  destruct (scheme_algo K a S) as (He & _ & _). split; [|split].
  - destruct (full_run K a pos sizes Hpos Hsz be (sequilibrium K (still K a)) (equilibrium_local (algo_of K (still K a))) A) as (B & E & V).
    + apply (p_assign TM). intros k Hk. split; [|exact Hk]. apply p_sub. apply (below_le K (sa_nc K a)); [apply (so_nc K a S)|now apply (so_eq K a S)].
    + apply rel_equilibrium.
    + exists B. split; [exact E|]. intros x k Hx Hk. destruct (V x k Hx Hk) as [-> ->].
      destruct (equilibrium_spec K (algo_of K (still K a)) (mkView (elt K pos A 0 x) (elt K pos A 0 x) (elt K pos A 1 x) (fun _ => 0%K)) He) as (_ & E2 & E3).
      rewrite E2. split; [reflexivity|exact (E3 k Hk)].
  - destruct (full_run K a pos sizes Hpos Hsz be (sm2f K (still K a)) (m2f_local (algo_of K (still K a))) A) as (B & E & V).
    + apply (p_assign TFn). intros k Hk. split; [|exact Hk]. apply p_sum. intros j Hj. split; [exact I|exact Hj].
    + apply rel_m2f.
    + exists B. split; [exact E|]. intros x k Hx Hk. destruct (V x k Hx Hk) as [-> ->].
      destruct (m2f_spec K (algo_of K (still K a)) (mkView (elt K pos A 0 x) (elt K pos A 0 x) (elt K pos A 1 x) (fun _ => 0%K)) eq_refl) as (_ & E2 & E3).
      rewrite E2. split; [exact (E3 k Hk)|reflexivity].
  - destruct (full_run K a pos sizes Hpos Hsz be (sf2m K (still K a) YNew) (f2m_local (algo_of K (still K a)) vfn) A) as (B & E & V).
    + apply (p_assign TM). intros k Hk. split; [|exact Hk]. apply p_sum. intros j Hj. split; [exact I|exact Hj].
    + apply rel_f2m. reflexivity.
    + exists B. split; [exact E|]. intros x k Hx Hk. destruct (V x k Hx Hk) as [-> ->].
      destruct (f2m_spec K (algo_of K (still K a)) vfn (mkView (elt K pos A 0 x) (elt K pos A 0 x) (elt K pos A 1 x) (fun _ => 0%K)) eq_refl ltac:(reflexivity)) as (_ & E2 & E3).
      rewrite E2. split; [reflexivity|exact (E3 k Hk)].
Qed.

(* ------------------------------------------------- the assignments *)
Variable consm : list (nat * nat).
Notation row := (row_of K a consm).
Notation data := (list (ikey * (list Q -> K))).
(* the last value given to the row r, else w *)
Definition row_value (l : data) (w : K) (r : nat) (x : list Q) : K :=
  fold_left (fun acc p => match row (fst p) with Some r' => if Nat.eqb r' r then snd p x else acc | None => acc end) l w.
Lemma elt_row X r v x k : length x = length sizes -> set_row K pos X r v (ins pos (Z.of_nat k) x) = if Nat.eqb r k then v x else X (ins pos (Z.of_nat k) x).
Proof using Hpos.
  intros Lx. unfold set_row. assert (E1 : nth pos (ins pos (Z.of_nat k) x) 0 = Z.of_nat k).
  { unfold ins. rewrite app_nth2; rewrite firstn_length; [|lia]. replace (pos - Nat.min pos (length x))%nat with 0%nat by lia. reflexivity. }
  assert (E2 : drop_at pos (ins pos (Z.of_nat k) x) = x).
  { unfold drop_at, ins. rewrite firstn_app, firstn_firstn, firstn_length, skipn_app, firstn_length. replace (Nat.min pos pos) with pos by lia.
    replace (pos - Nat.min pos (length x))%nat with 0%nat by lia. replace (Datatypes.S pos - Nat.min pos (length x))%nat with 1%nat by lia.
    rewrite (skipn_all2 (n:=Datatypes.S pos) (firstn pos x)) by (rewrite firstn_length; lia). cbn. rewrite app_nil_r. apply firstn_skipn. }
  rewrite E1, E2. destruct (Nat.eqb_spec r k) as [->|Ne]; [now rewrite Z.eqb_refl|]. destruct (Z.eqb_spec (Z.of_nat k) (Z.of_nat r)); [lia|reflexivity].
Qed.
Lemma set_rows_value g (l : data) : (forall p, In p l -> row (fst p) <> None) -> forall X, exists Y, set_rows K a pos consm g l X = Some Y /\
  forall x k, length x = length sizes -> Y (ins pos (Z.of_nat k) x) = row_value l (X (ins pos (Z.of_nat k) x)) k (point g x).
Proof using Hpos.
  induction l as [|[key v] l IH]; intros Hl X; [exists X; split; [reflexivity|intros; reflexivity]|]. cbn [set_rows].
  destruct (row key) as [r|] eqn:Er; [|exfalso; exact (Hl (key, v) (or_introl eq_refl) Er)].
  destruct (IH (fun p Hp => Hl p (or_intror Hp)) (set_row K pos X r (fun i => v (point g i)))) as (Y & EY & V). exists Y. split; [exact EY|].
  intros x k Lx. rewrite (V x k Lx), (elt_row X r _ x k Lx). unfold row_value. cbn [fold_left fst snd]. now rewrite Er.
Qed.
Lemma set_rows_none g (l : data) X : (exists p, In p l /\ row (fst p) = None) -> set_rows K a pos consm g l X = None.
Proof using.
  clear. intros (p & Hp & E). revert X. induction l as [|[key v] l IH]; intros X; [destruct Hp|]. cbn [set_rows]. destruct Hp as [Hp|Hp]; [subst p; cbn in E; now rewrite E|].
  destruct (row key); [now apply IH|reflexivity].
Qed.
Lemma row_value_last (l : data) w r x : 
  (forall l1 l2 key v, l = l1 ++ (key, v) :: l2 -> row key = Some r -> (forall p, In p l2 -> row (fst p) <> Some r) -> row_value l w r x = v x) /\
  ((forall p, In p l -> row (fst p) <> Some r) -> row_value l w r x = w).
Proof using.
  clear. assert (X : forall (l : data) w, (forall p, In p l -> row (fst p) <> Some r) -> row_value l w r x = w).
  { clear. induction l as [|[k v] l IH]; intros w H; [reflexivity|]. unfold row_value. cbn [fold_left fst snd].
    pose proof (H (k, v) (or_introl eq_refl)) as H0. cbn in H0. destruct (row k) as [r'|].
    - destruct (Nat.eqb_spec r' r) as [->|Ne]; [congruence|]. apply IH. intros p Hp. apply H. now right.
    - apply IH. intros p Hp. apply H. now right. }
  split; [|apply X]. intros l1 l2 key v -> Er Hl. unfold row_value. rewrite fold_left_app. cbn [fold_left fst snd]. rewrite Er, Nat.eqb_refl. now apply X.
Qed.

(* ------------------------------------------------- one process *)
Notation init be mom g l := (initialization K a pos consm be mom g sizes (Some l) (fun _ _ => 0%K)).
Lemma init_moments be g (l : data) : (forall p, In p l -> row (fst p) <> None) -> exists B, init be true g l = Some B /\
  forall x k, inbox rs x -> (k < n)%nat ->
    let m r := row_value l 0%K r (point g x) in
    elt K pos B 0 x k = mvmul n (sa_invM K a) (fun j => teval K m (sa_eq K a j)) k /\ elt K pos B 1 x k = teval K m (sa_eq K a k) /\ elt K pos B 2 x k = elt K pos B 0 x k.
Proof using Hpos Hsz S.
  intros Hl. unfold initialization. destruct (set_rows_value g l Hl (fun _ => 0%K)) as (Y & EY & VY). rewrite EY.
  set (A1 := fun k : nat => if Nat.eqb k 1 then Y else fun _ : list Z => 0%K).
  destruct (proj1 (C68_kernels be A1)) as (B1 & E1 & V1). rewrite E1. destruct (proj1 (proj2 (C68_kernels be B1))) as (B2 & E2 & V2). rewrite E2.
  eexists. split; [reflexivity|]. intros x k Hx Hk. cbv zeta. set (m := fun r : nat => row_value l 0%K r (point g x)).
  assert (Lx : length x = length sizes) by (pose proof (inbox_length rs x Hx) as L; unfold full_ranges in L; now rewrite map_length in L).
  assert (VM : forall j, (j < n)%nat -> elt K pos B1 1 x j = teval K m (sa_eq K a j)).
  { intros j Hj. rewrite (proj2 (V1 x j Hx Hj)). apply teval_ext. intros i Hi. unfold elt, A1. cbn [Nat.eqb]. now rewrite VY. }
  assert (V : forall i, elt K pos (fun k : nat => if Nat.eqb k 2 then B2 0%nat else B2 k) i x k = elt K pos B2 (if Nat.eqb i 2 then 0%nat else i) x k) by (intros [|[|[|i]]]; reflexivity).
  rewrite !V. cbn [Nat.eqb]. destruct (V2 x k Hx Hk) as [-> ->]. split; [|split; [now apply VM|reflexivity]]. apply mvmul_ext. exact VM.
Qed.
Lemma init_distributions be g (l : data) : (forall p, In p l -> row (fst p) <> None) -> exists B, init be false g l = Some B /\
  forall x k, inbox rs x -> (k < n)%nat ->
    elt K pos B 0 x k = row_value l 0%K k (point g x) /\ elt K pos B 1 x k = mvmul n (sa_M K a) (elt K pos B 0 x) k /\ elt K pos B 2 x k = elt K pos B 0 x k.
Proof using Hpos Hsz S.
  intros Hl. unfold initialization. destruct (set_rows_value g l Hl (fun _ => 0%K)) as (Y & EY & VY). rewrite EY.
  set (A1 := fun k : nat => if Nat.eqb k 0 then Y else fun _ : list Z => 0%K).
  destruct (proj2 (proj2 (C68_kernels be A1))) as (B1 & E1 & V1). rewrite E1.
  eexists. split; [reflexivity|]. intros x k Hx Hk.
  assert (Lx : length x = length sizes) by (pose proof (inbox_length rs x Hx) as L; unfold full_ranges in L; now rewrite map_length in L).
  assert (V0 : forall j, (j < n)%nat -> elt K pos B1 0 x j = row_value l 0%K j (point g x)).
  { intros j Hj. rewrite (proj1 (V1 x j Hx Hj)). unfold elt, A1. cbn [Nat.eqb]. now rewrite VY. }
  assert (V : forall i j, elt K pos (fun k : nat => if Nat.eqb k 2 then B1 0%nat else B1 k) i x j = elt K pos B1 (if Nat.eqb i 2 then 0%nat else i) x j) by (intros [|[|[|i]]] j; reflexivity).
  split; [rewrite V; cbn [Nat.eqb]; now apply V0|]. split; [|rewrite !V; reflexivity].
  rewrite V. cbn [Nat.eqb]. rewrite (proj2 (V1 x k Hx Hk)). apply mvmul_ext. intros j Hj. rewrite V. cbn [Nat.eqb]. symmetry. exact (proj1 (V1 x j Hx Hj)).
Qed.
Lemma init_none be mom g (l : data) : (exists p, In p l /\ row (fst p) = None) -> init be mom g l = None.
Proof using. clear. intros H. unfold initialization. now rewrite (set_rows_none g l _ H). Qed.
End Kernels.

(* ------------------------------------------------- the dictionary *)
Section Spec.
Variable K : ring.
Variable simp : term K -> term K.
Variable ds : list (sdict K).
Notation n := (SchemeModel.total (sizes K ds)).
Notation data := (list (ikey * (list Q -> K))).
(* The key is the number r or the symbol number r of the conserved moments, in the order of the
   dictionary; a negative number counts from the end. *)
Definition refers (k : ikey) (r : nat) : Prop := match k with
  | ISym c => nth_error (conserved K ds) r = Some c
  | IInt z => z = Z.of_nat r \/ z = Z.of_nat r - Z.of_nat n
  end.
Definition known (k : ikey) : Prop := exists r, (r < n)%nat /\ refers k r.
(* v is the value of the last entry of "init" for r at the point x, 0 without an entry *)
Definition given_value (l : data) (r : nat) (x : list Q) (v : K) : Prop :=
  (exists l1 k w l2, l = l1 ++ (k, w) :: l2 /\ refers k r /\ (forall p, In p l2 -> ~ refers (fst p) r) /\ v = w x) \/
  ((forall p, In p l -> ~ refers (fst p) r) /\ v = 0%K).
(* The conserved moments have the values of the user, all the moments are at equilibrium. *)
Definition initial_state (l : data) (x : list Q) (f : vec K) : Prop :=
  (forall r c b i, nth_error (conserved K ds) r = Some c -> is_moment K simp ds c b i -> given_value l r x (mom K ds f b i)) /\
  (forall val : vec K, (forall c b i, is_moment K simp ds c b i -> val c = mom K ds f b i) ->
   forall b i d, nth_error ds b = Some d -> (i < nv K d)%nat -> mom K ds f b i = eqv K d i val).
(* the functions of the user only see the numbers *)
Definition regular_data (l : data) : Prop := forall p x y, In p l -> Forall2 Qeq x y -> snd p x = snd p y.

Lemma given_unique l r x v v' : given_value l r x v -> given_value l r x v' -> v = v'.
Proof.
  intros [(l1 & k & w & l2 & E1 & E2 & E3 & ->)|[E1 ->]] [(l1' & k' & w' & l2' & E1' & E2' & E3' & ->)|[E1' ->]]; [| | |reflexivity].
  - subst l. assert (X : (k, w) = (k', w')); [|now injection X as _ ->]. clear - E1' E2 E2' E3 E3'. revert l1' E1'. induction l1 as [|q l1 IH]; intros [|q' l1'] E; cbn in E.
    + now injection E as -> -> _.
    + injection E as -> E. exfalso. apply (E3 (k', w')); [rewrite E; apply in_or_app; right; now left|exact E2'].
    + injection E as -> E. exfalso. apply (E3' (k, w)); [rewrite <- E; apply in_or_app; right; now left|exact E2].
    + injection E as -> E. now apply (IH l1').
  - exfalso. apply (E1' (k, w)); [rewrite E1; apply in_or_app; right; now left|exact E2].
  - exfalso. apply (E1 (k', w')); [rewrite E1'; apply in_or_app; right; now left|exact E2'].
Qed.
Lemma given_ser l r x y v : regular_data l -> Forall2 Qeq x y -> given_value l r x v -> given_value l r y v.
Proof.
  intros Hr Hxy [(l1 & k & w & l2 & E1 & E2 & E3 & ->)|[E1 ->]]; [left|right; now split].
  exists l1, k, w, l2. repeat split; try assumption. apply (Hr (k, w)); [rewrite E1; apply in_or_app; right; now left|exact Hxy].
Qed.

Variable inv : nat -> mat K -> option (mat K).
Variables (rel : option (list (term K))) (dm : nat) (hdt : K) (a : salgo K).
Hypothesis HI : inv_spec K inv.
Hypothesis HSi : simp_spec K simp.
Hypothesis D : dict_ok K simp ds.
Hypothesis O : ordered K simp ds.
Hypothesis EB : build K inv simp rel dm hdt ds = Some a.
Hypothesis HR : forall l j, rel = Some l -> BuildProofs.closed K ds (nth j l (Num 0%K)).
Hypothesis HPl : forall d t, In d ds -> In t (sd_P K d) -> below K dm t.
Notation cs := (conserved K ds).
Notation consm := (scheme_consm K inv simp ds).

Lemma start_consm : consm = ranks cs.
Proof using HI D EB.
  unfold scheme_consm. unfold build, before_swap in *.
  destruct (matrices K inv ds) as [[M N]|] eqn:EM; [|discriminate]. destruct (equilibrium K simp M 0 ds) as [EQ|] eqn:EE; [|discriminate].
  destruct (_ && _)%bool; [|discriminate]. destruct (get_conserved _ 0 (sizes K ds) (map (sd_cons K) ds) []) as [cm|] eqn:EC; [|discriminate].
  cbn [b_consm]. destruct (C22_conserved_found K (fun k => eqexpr_of K (nth k EQ (Num 0%K))) (sizes K ds) (map (sd_cons K) ds)) as [_ CF]; [unfold sizes; now rewrite !map_length|].
  destruct (CF cm EC) as [_ CK]. specialize (CK (do_distinct K simp ds D)). change (concat (map (sd_cons K) ds)) with cs in CK. unfold ranks. now rewrite <- CK, map_length.
Qed.
Lemma get_nth (l : list nat) s c r : odict_get (combine l (seq s (length l))) c = Some r -> (s <= r)%nat /\ nth_error l (r - s) = Some c.
Proof using.
  clear. revert s. induction l as [|x l IH]; intros s H; [discriminate|]. cbn in H. destruct (Nat.eqb_spec c x) as [->|Ne].
  - injection H as <-. split; [lia|]. now rewrite Nat.sub_diag.
  - apply IH in H as [H1 H2]. split; [lia|]. replace (r - s)%nat with (Datatypes.S (r - Datatypes.S s))%nat by lia. exact H2.
Qed.
Lemma start_size : sa_n K a = n.
Proof using HI D EB. exact (built_size K inv simp rel dm hdt ds a HI D EB). Qed.
Lemma start_le r c : nth_error cs r = Some c -> (r < n)%nat.
Proof using HI D EB.
  intros H. destruct (build_built K simp inv hdt rel dm ds a HI D EB) as (M & N & sg & B). pose proof (bu_le _ _ _ _ _ _ _ _ _ _ _ B).
  assert (L : (r < length cs)%nat) by (apply nth_error_Some; congruence). exact (Nat.lt_le_trans _ _ _ L H0).
Qed.
Lemma row_refers k r : row_of K a consm k = Some r <-> (r < n)%nat /\ refers k r.
Proof using HI D EB.
  pose proof start_size as Es. destruct k as [c|z]; cbn [row_of refers].
  - rewrite start_consm. split.
    + intros H. apply get_nth in H as [_ H]. rewrite Nat.sub_0_r in H. split; [now apply start_le in H|exact H].
    + intros [_ H]. exact (ranks_get cs r c (do_distinct K simp ds D) H).
  - rewrite Es. clear. split.
    + destruct ((0 <=? z) && (z <? Z.of_nat n)) eqn:E1.
      * intros H. injection H as <-. apply andb_prop in E1 as [H1 H2]. lia.
      * destruct ((- Z.of_nat n <=? z) && (z <? 0)) eqn:E2; [|discriminate]. intros H. injection H as <-. apply andb_prop in E2 as [H1 H2]. lia.
    + intros [H1 [H2|H2]].
      * replace ((0 <=? z) && (z <? Z.of_nat n)) with true by (symmetry; apply andb_true_intro; lia). f_equal. lia.
      * replace ((0 <=? z) && (z <? Z.of_nat n)) with false by (symmetry; apply andb_false_intro1; lia).
        replace ((- Z.of_nat n <=? z) && (z <? 0)) with true by (symmetry; apply andb_true_intro; lia). f_equal. lia.
Qed.
Lemma row_known k : row_of K a consm k <> None <-> known k.
Proof using HI D EB.
  unfold known. split.
  - intros H. destruct (row_of K a consm k) as [r|] eqn:Er; [|congruence]. exists r. now apply row_refers.
  - intros (r & H). apply row_refers in H. congruence.
Qed.
Lemma row_value_given l r x : (r < n)%nat -> given_value l r x (row_value K a consm l 0%K r x).
Proof using HI D EB.
  intros Hr. destruct (row_value_last K a consm l 0%K r x) as [H1 H2].
  assert (RR : forall k, row_of K a consm k = Some r <-> refers k r) by (intros k; rewrite row_refers; tauto).
  assert (X : (forall p, In p l -> ~ refers (fst p) r) \/ exists l1 k w l2, l = l1 ++ (k, w) :: l2 /\ refers k r /\ (forall p, In p l2 -> ~ refers (fst p) r)).
  { clear - RR. induction l as [|[k w] l [IH|(l1 & k' & w' & l2 & -> & IH)]]; [left; intros p []| |right; exists ((k, w) :: l1), k', w', l2; now split].
    destruct (row_of K a consm k) as [r'|] eqn:Er; [destruct (Nat.eq_dec r' r) as [->|Ne]|].
    - right. exists [], k, w, l. split; [reflexivity|]. split; [now apply RR|exact IH].
    - left. intros p [<-|Hp]; [cbn; rewrite <- RR; congruence|now apply IH].
    - left. intros p [<-|Hp]; [cbn; rewrite <- RR; congruence|now apply IH]. }
  destruct X as [X|(l1 & k & w & l2 & El & Ek & X)].
  - right. split; [exact X|]. apply H2. intros p Hp. rewrite RR. now apply X.
  - left. exists l1, k, w, l2. split; [exact El|]. split; [exact Ek|]. split; [exact X|]. apply (H1 l1 l2 k w El); [now apply RR|]. intros p Hp. rewrite RR. now apply X.
Qed.
Lemma row_value_ser l r x y : regular_data l -> Forall2 Qeq x y -> row_value K a consm l 0%K r x = row_value K a consm l 0%K r y.
Proof using.
  intros Hr Hxy. unfold row_value. generalize (0%K : K). induction l as [|p l IH]; intros w; [reflexivity|]. cbn [fold_left].
  rewrite (Hr p x y (or_introl eq_refl) Hxy). apply IH. intros q u v Hq. apply Hr. now right.
Qed.

(* the value at the point x *)
Definition start_value (l : data) (x : list Q) : vec K :=
  let m r := row_value K a consm l 0%K r x in mvmul (sa_n K a) (sa_invM K a) (fun j => teval K m (sa_eq K a j)).
Lemma start_value_spec l x : initial_state l x (start_value l x).
Proof using HI HSi D O EB.
  destruct (build_built K simp inv hdt rel dm ds a HI D EB) as (M & N & sg & B). pose proof (do_distinct K simp ds D) as ND.
  set (f := start_value l x). set (m := fun r => row_value K a consm l 0%K r x).
  assert (FM : forall k, (k < n)%nat -> mvmul n M f (sg k) = teval K m (sa_eq K a k)).
  { intros k Hk. unfold f, start_value. cbv zeta. fold m. rewrite (bu_n _ _ _ _ _ _ _ _ _ _ _ B).
    transitivity (mvmul n (sa_M K a) (mvmul n (sa_invM K a) (fun j => teval K m (sa_eq K a j))) k); [apply sum_ext; intros j _; now rewrite (bu_M _ _ _ _ _ _ _ _ _ _ _ B)|].
    refine (mvmul_inverse K n _ _ _ k _ Hk). pose proof (bu_inverse _ _ _ _ _ _ _ _ _ _ _ B) as [I1 _]. intros i j Hi Hj. unfold mmul.
    rewrite (sum_ext K n _ (fun q => (M (sg i) q * N q (sg j))%K)) by (intros q _; now rewrite (bu_M _ _ _ _ _ _ _ _ _ _ _ B), (bu_invM _ _ _ _ _ _ _ _ _ _ _ B)).
    change (sum n _) with (mmul n M N (sg i) (sg j)). rewrite I1 by now apply (bu_lt _ _ _ _ _ _ _ _ _ _ _ B). unfold idm.
    destruct (Nat.eqb_spec i j) as [->|Ne]; [now rewrite Nat.eqb_refl|]. destruct (Nat.eqb_spec (sg i) (sg j)) as [Es|]; [|reflexivity]. apply (bu_inj _ _ _ _ _ _ _ _ _ _ _ B) in Es. congruence. }
  set (val := fun c => match odict_get (ranks cs) c with Some r => m r | None => 0%K end).
  assert (V0 : values K cs m val) by (intros r c Hr; unfold val, ranks; now rewrite (ranks_get cs r c ND Hr)).
  pose proof (do_sized K simp ds D) as SZ.
  assert (EV : forall v, values K cs m v -> forall b i d, nth_error ds b = Some d -> (i < nv K d)%nat -> mom K ds f b i = eqv K d i v).
  { intros v Hv b i d H1 H3. pose proof (off_total K ds b d i H1 H3) as Hlt. destruct (bu_surj _ _ _ _ _ _ _ _ _ _ _ B _ Hlt) as (k & Hk & Es).
    rewrite <- (bu_moments _ _ _ _ _ _ _ _ _ _ _ B f b d i H1 H3), <- Es, FM by exact Hk. rewrite (bu_eq _ _ _ _ _ _ _ _ _ _ _ B), Es.
    rewrite (rename_eval K n cs m v) by first [exact ND|exact Hv|apply closed_eq; exact D].
    rewrite (nth_concat K (eqs K simp) (Num 0%K) ds b d i); [|apply Forall_forall; intros y Hy; apply eqs_length; exact (proj1 (Forall_forall _ _) SZ y Hy)|exact H1|exact H3].
    exact (eqs_eval K simp d i v HSi H3). }
  assert (CM : forall r c b i, nth_error cs r = Some c -> is_moment K simp ds c b i -> mom K ds f b i = m r).
  { intros r c b i Hr Hm. destruct Hm as (d & H1 & H2 & H3 & H4 & H5). rewrite (EV val V0 b i d H1 H3), <- (eqs_eval K simp d i val HSi H3), H4. cbn. symmetry. now apply V0. }
  split.
  - intros r c b i Hr Hm. rewrite (CM r c b i Hr Hm). apply row_value_given. now apply start_le in Hr.
  - intros v Hv. apply EV. intros r c Hr. destruct (bu_found _ _ _ _ _ _ _ _ _ _ _ B c (nth_error_In _ _ Hr)) as (b & i & Hm).
    rewrite (Hv c b i Hm). symmetry. now apply (CM r c).
Qed.
(* The description determines the values. *)
Theorem C68_determined l x f f' : initial_state l x f -> initial_state l x f' -> agree K n f f'.
Proof using HI D O EB.
  intros [A1 A2] [B1 B2]. destruct (build_built K simp inv hdt rel dm ds a HI D EB) as (M & N & sg & B). pose proof (do_distinct K simp ds D) as ND.
  assert (EC : forall c b i, is_moment K simp ds c b i -> mom K ds f b i = mom K ds f' b i).
  { intros c b i Hm. pose proof Hm as (d & H1 & H2 & _). assert (Hc : In c cs) by (apply in_concat; exists (sd_cons K d); split; [apply in_map; now apply nth_error_In in H1|exact H2]).
    destruct (In_nth_error _ _ Hc) as [r Hr]. eapply given_unique; [exact (A1 r c b i Hr Hm)|exact (B1 r c b i Hr Hm)]. }
  set (val := fun c => match odict_get (ranks cs) c with Some r => mvmul n M f (sg r) | None => 0%K end).
  assert (HV : forall c b i, is_moment K simp ds c b i -> val c = mom K ds f b i).
  { intros c b i Hm. pose proof Hm as (d & H1 & H2 & H3 & _).
    assert (Hc : In c cs) by (apply in_concat; exists (sd_cons K d); split; [apply in_map; now apply nth_error_In in H1|exact H2]).
    destruct (In_nth_error _ _ Hc) as [r Hr]. unfold val, ranks. rewrite (ranks_get cs r c ND Hr).
    rewrite (bu_front _ _ _ _ _ _ _ _ _ _ _ B O r c b i Hr Hm). exact (bu_moments _ _ _ _ _ _ _ _ _ _ _ B f b d i H1 H3). }
  assert (EM : agree K n (mvmul n M f) (mvmul n M f')).
  { intros k Hk. destruct (off_ex K ds k Hk) as (b & d & i & H1 & H3 & ->). rewrite !(bu_moments _ _ _ _ _ _ _ _ _ _ _ B _ b d i H1 H3).
    rewrite (A2 val HV b i d H1 H3). symmetry. apply (B2 val); [|exact H1|exact H3]. intros c b' i' Hm. rewrite (HV c b' i' Hm). now apply (EC c). }
  pose proof (bu_inverse _ _ _ _ _ _ _ _ _ _ _ B) as [_ I2]. intros k Hk.
  transitivity (mvmul n N (mvmul n M f) k); [symmetry; now apply mvmul_inverse|]. transitivity (mvmul n N (mvmul n M f') k); [|now apply mvmul_inverse].
  apply mvmul_ext. exact EM.
Qed.
End Spec.

(* ------------------------------------------------- the processes *)
Section Sizes.
Variable axes : list axis.
Hypothesis Hok : Forall ax_ok axes.
Hypothesis NE : Forall (fun x => forall c, (c < ax_p x)%nat -> ax_lo x c < ax_hi x c) axes.
Lemma sizes_pos c : coords_ok axes c -> Forall (fun s => 0 < s) (sizes_of axes c).
Proof using Hok NE.
  intros Hc. unfold sizes_of. revert Hok NE. induction Hc as [|x k l c Hk Hc IH]; intros Hok NE; [constructor|].
  inversion Hok as [|? ? (A1 & A2 & A3 & A4) O2]; subst. inversion NE as [|? ? N1 N2]; subst. constructor; [|now apply IH].
  change (0 < ax_size x k). unfold ax_size. specialize (N1 k Hk). lia.
Qed.
Lemma inner_full c i : coords_ok axes c -> inner axes c i -> inbox (full_ranges (sizes_of axes c)) i.
Proof using Hok.
  intros Hc Hi. apply (ranges_inner axes c i Hc) in Hi. unfold ranges_of, sizes_of in *. clear - Hok Hc Hi. revert Hok i Hi. unfold full_ranges, inner_ranges, inbox.
  induction Hc as [|x k l c Hk Hc IH]; intros Hok i Hi; [exact Hi|]. inversion Hok as [|? ? (A1 & A2 & A3 & A4) O2]; subst.
  cbn in Hi |- *. inversion Hi as [|? y ? i' H1 H2]; subst. constructor; [|now apply IH]. cbn in *. lia.
Qed.
End Sizes.

Section Start.
Variables (dimz : Z) (schemes : list (list Z)) (st : stencil) (r : list Z) (g : grid) (es : list DomainModel.elem) (labs : list Z) (conds : Z -> list (nat * method)).
Variables (Dm : dom) (ms : list (method * list blink)).
Hypothesis E : serial dimz schemes st r g es labs conds Dm ms.
Variables (K : ring) (qk : Q -> K).
Variable inv : nat -> mat K -> option (mat K).
Variable simp : term K -> term K.
Variables (rel : option (list (term K))) (dm : nat) (hdt : K) (ds : list (sdict K)) (a : salgo K).
Hypothesis HI : inv_spec K inv.
Hypothesis HSi : simp_spec K simp.
Hypothesis D : dict_ok K simp ds.
Hypothesis O : ordered K simp ds.
Hypothesis EB : build K inv simp rel dm hdt ds = Some a.
Hypothesis HR : forall l j, rel = Some l -> BuildProofs.closed K ds (nth j l (Num 0%K)).
Hypothesis HPl : forall d t, In d ds -> In t (sd_P K d) -> below K dm t.
Notation n := (SchemeModel.total (sizes K ds)).
Notation consm := (scheme_consm K inv simp ds).
Variable l : list (ikey * (list Q -> K)).
Hypothesis Hl : regular_data K l.

(* An unknown key is an error on every process. *)
Theorem C68_unknown be mom ps pos c : (exists p, In p l /\ ~ known K ds (fst p)) -> start_at K a pos consm be mom g ps (Some l) c = None.
Proof using HI D EB.
  intros (p & Hp & Hn). unfold start_at. apply init_none. exists p. split; [exact Hp|].
  destruct (row_of K a consm (fst p)) eqn:Er; [|reflexivity]. destruct Hn. apply (row_known K simp ds inv rel dm hdt a HI D EB). congruence.
Qed.

Hypothesis Hk : forall p, In p l -> known K ds (fst p).
Lemma rows_known p : In p l -> row_of K a consm (fst p) <> None.
Proof using HI D EB Hk. intros Hp. apply (row_known K simp ds inv rel dm hdt a HI D EB). now apply Hk. Qed.
Lemma start_scheme : scheme_ok K a.
Proof using HI D O EB HR HPl. exact (built_ok K inv simp rel dm hdt ds a HI D O EB HR HPl). Qed.

Section Procs.
Variables (ps : list nat) (Ds : list nat -> dom) (mss : list nat -> list (method * list blink)) (pos : nat).
Hypothesis HP : parallel st g es labs conds ps Ds mss.
Hypothesis NE : Forall (fun x => forall c, (c < ax_p x)%nat -> ax_lo x c < ax_hi x c) (proc_axes g ps).
Hypothesis Hpos : (pos <= dim g)%nat.
Notation PA := (proc_axes g ps).
Lemma start_pos c : coords_ok PA c -> (pos <= length (sizes_of PA c))%nat.
Proof using Hpos. intros Hc. rewrite sizes_len by exact Hc. now rewrite pa_len. Qed.
Lemma start_point c i : coords_ok PA c -> inner PA c i -> Forall2 Qeq (point (local_grid g ps c) i) (point g (cell_of g (globc PA c i))).
Proof using E.
  intros Hc [Li _]. erewrite cell_of_glob; [apply point_ser|exact E|exact Hc|now rewrite Li, pa_len].
Qed.
Lemma start_moments be c : coords_ok PA c -> start_at K a pos consm be true g ps (Some l) c <> None /\
  forall i, inner PA c i -> agree K n (fst (start K a pos consm be true g ps (Some l)) c i) (start_value K simp ds inv a l (point g (cell_of g (globc PA c i)))) /\
  (be = Cython -> agree K n (snd (start K a pos consm be true g ps (Some l)) c i) (start_value K simp ds inv a l (point g (cell_of g (globc PA c i))))).
Proof using E HI D O EB HR HPl Hl Hk HP NE Hpos.
  intros Hc. pose proof (proj1 HP) as Hok.
  destruct (init_moments K a pos (sizes_of PA c) (start_pos c Hc) (sizes_pos PA Hok NE c Hc) start_scheme consm be (local_grid g ps c) l rows_known) as (B & EB' & V).
  assert (ES : start_at K a pos consm be true g ps (Some l) c = Some B) by exact EB'. split; [congruence|]. intros i Hi. pose proof (inner_full PA Hok c i Hc Hi) as Hx.
  assert (VV : agree K n (fun k => elt K pos B 0 i k) (start_value K simp ds inv a l (point g (cell_of g (globc PA c i))))).
  { intros k Hkn. rewrite <- (start_size K simp ds inv rel dm hdt a HI D EB) in Hkn. destruct (V i k Hx Hkn) as (V0 & _). cbv beta. rewrite V0. unfold start_value. cbv zeta. apply mvmul_ext.
    intros j _. apply teval_ext. intros q _. apply (row_value_ser K simp ds inv a l q _ _ Hl). now apply start_point. }
  unfold start. cbn [fst snd]. rewrite ES. split; [exact VV|]. intros ->. intros k Hkn. rewrite <- (VV k Hkn).
  rewrite <- (start_size K simp ds inv rel dm hdt a HI D EB) in Hkn. destruct (V i k Hx Hkn) as (_ & _ & V2). exact V2.
Qed.
Lemma start_distr be c : coords_ok PA c -> start_at K a pos consm be false g ps (Some l) c <> None /\
  forall i, inner PA c i -> agree K n (fst (start K a pos consm be false g ps (Some l)) c i) (fun k => row_value K a consm l 0%K k (point g (cell_of g (globc PA c i)))).
Proof using E HI D O EB HR HPl Hl Hk HP NE Hpos.
  intros Hc. pose proof (proj1 HP) as Hok.
  destruct (init_distributions K a pos (sizes_of PA c) (start_pos c Hc) (sizes_pos PA Hok NE c Hc) start_scheme consm be (local_grid g ps c) l rows_known) as (B & EB' & V).
  assert (ES : start_at K a pos consm be false g ps (Some l) c = Some B) by exact EB'. split; [congruence|]. intros i Hi k Hkn. pose proof (inner_full PA Hok c i Hc Hi) as Hx.
  rewrite <- (start_size K simp ds inv rel dm hdt a HI D EB) in Hkn. destruct (V i k Hx Hkn) as (V0 & _).
  unfold start. cbn [fst]. rewrite ES. change (elt K pos B 0 i k = row_value K a consm l 0%K k (point g (cell_of g (globc PA c i)))). rewrite V0.
  apply (row_value_ser K simp ds inv a l k _ _ Hl). now apply start_point.
Qed.
End Procs.

(* One field of the whole domain is the start on every process grid, for both back ends and every
   order of the storage. *)
Definition started (mom : bool) (G0 : list Z -> vec K) : Prop :=
  forall ps Ds mss pos be, parallel st g es labs conds ps Ds mss -> Forall (fun x => forall c, (c < ax_p x)%nat -> ax_lo x c < ax_hi x c) (proc_axes g ps) -> (pos <= dim g)%nat ->
  (forall c, coords_ok (proc_axes g ps) c -> start_at K a pos consm be mom g ps (Some l) c <> None) /\
  holds K (proc_axes g ps) n (fst (start K a pos consm be mom g ps (Some l))) G0.
Theorem C68_start : exists G0, started true G0 /\ forall y, initial_state K simp ds l (point g (cell_of g y)) (G0 y).
Proof using E HI HSi D O EB HR HPl Hl Hk.
  exists (fun y => start_value K simp ds inv a l (point g (cell_of g y))). split.
  - intros ps Ds mss pos be HP NE Hpos. split.
    + intros c Hc. exact (proj1 (start_moments ps Ds mss pos HP NE Hpos be c Hc)).
    + intros c i Hc Hi. exact (proj1 (proj2 (start_moments ps Ds mss pos HP NE Hpos be c Hc) i Hi)).
  - intros y. now apply (start_value_spec K simp ds inv rel dm hdt a HI HSi D O EB).
Qed.
(* "init": {"type": "distributions"}: the keys are the numbers of the distributions *)
Theorem C68_distributions : exists G0, started false G0 /\ forall y k, (k < n)%nat -> given_value K ds l k (point g (cell_of g y)) (G0 y k).
Proof using E HI D O EB HR HPl Hl Hk.
  exists (fun y k => row_value K a consm l 0%K k (point g (cell_of g y))). split.
  - intros ps Ds mss pos be HP NE Hpos. split.
    + intros c Hc. exact (proj1 (start_distr ps Ds mss pos HP NE Hpos be c Hc)).
    + intros c i Hc Hi. exact (proj2 (start_distr ps Ds mss pos HP NE Hpos be c Hc) i Hi).
  - intros y k Hkn. now apply (row_value_given K simp ds inv rel dm hdt a HI D EB).
Qed.
End Start.

(* ------------------------------------------------- a whole simulation, from its dictionary *)
Section Simulation.
Variables (dimz : Z) (schemes : list (list Z)) (st : stencil) (r : list Z) (g : grid) (es : list DomainModel.elem) (labs : list Z) (conds : Z -> list (nat * method)).
Variables (Dm : dom) (ms : list (method * list blink)).
Hypothesis E : serial dimz schemes st r g es labs conds Dm ms.
Variables (K : ring) (qk : Q -> K).
Variable inv : nat -> mat K -> option (mat K).
Variable simp : term K -> term K.
Variables (dm : nat) (hdt : K) (ds : list (sdict K)) (a : salgo K).
Hypothesis HI : inv_spec K inv.
Hypothesis HSi : simp_spec K simp.
Hypothesis D : dict_ok K simp ds.
Hypothesis O : ordered K simp ds.
Hypothesis EB : build K inv simp None dm hdt ds = Some a.
Hypothesis HPl : forall d t, In d ds -> In t (sd_P K d) -> below K dm t.
Hypothesis Hsz : map (nv K) ds = map (@length Z) schemes.
Notation n := (SchemeModel.total (sizes K ds)).
Variable l : list (ikey * (list Q -> K)).
Hypothesis Hl : regular_data K l.
Hypothesis Hk : forall p, In p l -> known K ds (fst p).
Notation begin be ps pos := (start K a pos (scheme_consm K inv simp ds) be true g ps (Some l)).

Theorem C68_simulation (phis : nat -> Z -> list Q -> nat -> K) : quiet st r g ms -> (forall t, ParallelProps.regular (phis t)) ->
  exists G : nat -> list Z -> vec K,
  (forall x, initial_state K simp ds l (point g (cell_of g x)) (G 0%nat x)) /\
  (forall t x, exists f, (forall j, (j < n)%nat -> arrives st r g ms K qk (phis t) (G t) x j (f j)) /\ collided K simp hdt ds f (G (S t) x)) /\
  forall ps Ds mss pos, parallel st g es labs conds ps Ds mss -> Forall (fun x => forall c, (c < ax_p x)%nat -> ax_lo x c < ax_hi x c) (proc_axes g ps) -> (pos <= dim g)%nat ->
  (forall L0 t, holds K (proc_axes g ps) n (fst (cy_run st r g K qk a pos ps mss phis L0 t (begin Cython ps pos))) (G t)) /\
  ((forall d t, In d ds -> In t (sd_s K d) -> vars K t = []) -> forall t,
     holds K (proc_axes g ps) n (fst (np_run st r g K qk a pos ps mss phis t (begin Numpy ps pos))) (G t) /\
     np_fine st r g K qk a pos ps mss Numpy (phis t) (np_run st r g K qk a pos ps mss phis t (begin Numpy ps pos))).
Proof using E HI HSi D O EB HPl Hsz Hl Hk.
  intros HQ Hphis.
  destruct (C68_start dimz schemes st r g es labs conds Dm ms E K inv simp None dm hdt ds a HI HSi D O EB ltac:(intros; discriminate) HPl l Hl Hk) as (G0 & S0 & I0).
  destruct (C65_simulation dimz schemes st r g es labs conds Dm ms E K qk inv simp dm hdt ds a HI HSi D O EB HPl Hsz phis G0 HQ Hphis) as (G & <- & G1 & G2).
  exists G. split; [exact I0|]. split; [exact G1|]. intros ps Ds mss pos HP NE Hpos. split.
  - exact (proj1 (G2 ps Ds mss pos HP NE Hpos (begin Cython ps pos) (proj2 (S0 ps Ds mss pos Cython HP NE Hpos)))).
  - exact (proj2 (G2 ps Ds mss pos HP NE Hpos (begin Numpy ps pos) (proj2 (S0 ps Ds mss pos Numpy HP NE Hpos)))).
Qed.

(* In a closed vessel the mass is, at all times, the sum of the values of the user's function at
   the fluid cells. *)
Theorem C68_mass ps Ds mss css pos rk c b i phis :
  vessel dimz schemes st r g es Dm conds (labels_of g labs) ms -> (forall d, In d ds -> sd_src K d = []) ->
  parallel st g es labs conds ps Ds mss -> Forall (fun x => forall c, (c < ax_p x)%nat -> ax_lo x c < ax_hi x c) (proc_axes g ps) -> (pos <= dim g)%nat ->
  NoDup css -> (forall c, In c css <-> coords_ok (proc_axes g ps) c) ->
  nth_error (conserved K ds) rk = Some c -> is_moment K simp ds c b i -> even_moment r K ds b i ->
  (forall t, ParallelProps.regular (phis t) /\ at_rest r n (phis t)) ->
  let mass := fluid_total g ps Ds css (fun f => mom K ds f b i) in
  exists rho : cell -> K, (forall x, In x (fluid_cells g Dm) -> given_value K ds l rk (point g x) (rho x)) /\
  (forall L0 t, mass (fst (cy_run st r g K qk a pos ps mss phis L0 t (begin Cython ps pos))) = sumL (fluid_cells g Dm) rho) /\
  ((forall d t, In d ds -> In t (sd_s K d) -> vars K t = []) -> forall t, mass (fst (np_run st r g K qk a pos ps mss phis t (begin Numpy ps pos))) = sumL (fluid_cells g Dm) rho).
Proof using E HI HSi D O EB HPl Hsz Hl Hk.
  intros V Hsrc HP NE Hpos Hnd Hcs Hr Hm He Hphis mass.
  destruct (C68_start dimz schemes st r g es labs conds Dm ms E K inv simp None dm hdt ds a HI HSi D O EB ltac:(intros; discriminate) HPl l Hl Hk) as (G0 & S0 & I0).
  destruct (C65_vessel dimz schemes st r g es labs conds Dm ms E K qk inv simp dm hdt ds a HI D O EB HPl Hsz Hsrc ps Ds mss css pos HP NE Hpos Hnd Hcs c b i phis Hm He Hphis V) as [C1 C2].
  assert (Hq : forall f f', agree K (length (concat schemes)) f f' -> mom K ds f b i = mom K ds f' b i).
  { intros f f' Hf. apply mom_agree. intros k Hkn. apply Hf.
    rewrite <- (whole_na schemes K inv simp dm hdt ds a HI D EB Hsz), (whole_size K inv simp dm hdt ds a HI D EB). exact Hkn. }
  pose proof (fun F G H => fluid_total_ref dimz schemes st r g es labs conds Dm ms E ps Ds mss HP css Hnd Hcs K (fun f => mom K ds f b i) F G Hq H) as FT.
  rewrite <- (whole_na schemes K inv simp dm hdt ds a HI D EB Hsz), (whole_size K inv simp dm hdt ds a HI D EB) in FT.
  exists (fun x => mom K ds (G0 (wrapg g x)) b i). split; [|split].
  - intros x Hx. destruct (fluid_inside dimz schemes st r g es labs conds Dm ms E x Hx) as (Lx & _ & Hint).
    rewrite <- (cell_wrapg g x Lx Hint) at 1. exact (proj1 (I0 (wrapg g x)) rk c b i Hr Hm).
  - intros L0 t. unfold mass. rewrite C1. apply FT. exact (proj2 (S0 ps Ds mss pos Cython HP NE Hpos)).
  - intros Hn t. unfold mass. rewrite (C2 Hn). apply FT. exact (proj2 (S0 ps Ds mss pos Numpy HP NE Hpos)).
Qed.
End Simulation.
Print Assumptions C68_kernels.
Print Assumptions C68_unknown.
Print Assumptions C68_determined.
Print Assumptions C68_start.
Print Assumptions C68_distributions.
Print Assumptions C68_simulation.
Print Assumptions C68_mass.

(* ------------------------------------------------- example *)
(* The line of C65_example: "init": {rho: f}, with f(x) = floor(10 x). *)
Definition ifun (x : list Q) : Z := Qround.Qfloor (10 * hd 0 x)%Q.
Definition idata : list (ikey * (list Q -> Zring)) := [(IInt 0, fun _ => 7); (ISym 5, ifun)].
Lemma idata_regular : regular_data Zring idata.
Proof.
  intros p x y [<-|[<-|[]]] H; [reflexivity|]. change (ifun x = ifun y). unfold ifun. apply Qround.Qfloor_comp. destruct H as [|u v x y Huv _]; [reflexivity|]. cbn [hd]. now rewrite Huv.
Qed.
Lemma idata_known p : In p idata -> known Zring [dw] (fst p).
Proof. intros [<-|[<-|[]]]; exists 0%nat; (split; [cbn; lia|]); [now left|reflexivity]. Qed.
Example C68_example : exists a, bw = Some a /\
  exists rho, (forall x, In x (fluid_cells (sline 6) (sD 6 wall34)) -> given_value Zring [dw] idata 0 (point (sline 6) x) (rho x)) /\
  forall L0 t, fluid_total (sline 6) [2%nat] mDs wcs (fun f => mom Zring [dw] f 0 0) (fst (cy_run sst [1; 0] (sline 6) Zring (fun _ => 0) a 0 [2%nat] mlinks wphi L0 t
    (start Zring a 0 (scheme_consm Zring (zinv [mat2 [[0; 1]; [1; -1]]]) nosimp [dw]) Cython true (sline 6) [2%nat] (Some idata)))) = sumL (fluid_cells (sline 6) (sD 6 wall34)) rho.
Proof.
  destruct (built_ex bw) as [a Ea]; [vm_compute; reflexivity|]. exists a. split; [exact Ea|]. destruct dw_ok as [H1 H2].
  assert (Hs : simp_spec Zring nosimp) by (intros v t; reflexivity).
  destruct (C68_mass 1 [[1; 2]] sst [1; 0] (sline 6) wall34 [5] bb (sD 6 wall34) mms mserial Zring (fun _ => 0) (zinv [mat2 [[0; 1]; [1; -1]]]) nosimp 1 1 [dw] a (zinv_ok _) Hs H1 H2 Ea)
    with (l := idata) (ps := [2%nat]) (Ds := mDs) (mss := mlinks) (css := wcs) (pos := 0%nat) (rk := 0%nat) (c := 5%nat) (b := 0%nat) (i := 0%nat) (phis := wphi) as (rho & R1 & R2 & _); try reflexivity.
  - intros d t [<-|[]] Ht. cbn in Ht. destruct Ht as [<-|[<-|[]]]; intros x Hx; cbn in Hx; intuition lia.
  - exact idata_regular.
  - exact idata_known.
  - exact mvessel.
  - intros d [<-|[]]. reflexivity.
  - exact wparallel.
  - repeat constructor. intros [|[|c]] Hc; [vm_compute; reflexivity|vm_compute; reflexivity|cbn in Hc; lia].
  - cbn. lia.
  - repeat constructor; cbn; intuition discriminate.
  - intros c. symmetry. apply wcoords.
  - now apply dw_moment.
  - apply (const_even _ Zring _ _ _ 1). intros d j Hd Hj. injection Hd as <-. reflexivity.
  - intros t. split; [|intros lab x k Hk; reflexivity]. intros lab x y k Hxy. reflexivity.
  - exists rho. split; [exact R1|exact R2].
Qed.
Definition irun (be : backend) (t : nat) : option (list (list Z) * Z) :=
  match bw with
  | None => None
  | Some a => let s := start Zring a 0 (scheme_consm Zring (zinv [mat2 [[0; 1]; [1; -1]]]) nosimp [dw]) be true (sline 6) [2%nat] (Some idata) in
     Some (look_run (fst match be with
      | Cython => cy_run sst [1; 0] (sline 6) Zring (fun _ => 0) a 0 [2%nat] mlinks wphi (fun _ => 0) t s
      | _ => np_run sst [1; 0] (sline 6) Zring (fun _ => 0) a 0 [2%nat] mlinks wphi t s end))
  end.
(* the densities 10, 20, 50, 60: the entry of rho replaces the entry 0; f = (3 rho, -2 rho) *)
Example C68_values : irun Cython 0 = Some ([[30; -20]; [60; -40]; [150; -100]; [180; -120]], 140) /\ irun Numpy 0 = irun Cython 0 /\
  irun Cython 1 = Some ([[-340; 280]; [510; -420]; [-1220; 1000]; [1830; -1500]], 140) /\ irun Numpy 2 = irun Cython 2.
Proof. repeat split; vm_compute; reflexivity. Qed.
