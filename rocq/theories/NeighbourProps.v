(* C95: source terms which read neighbouring cells. *)
From Verif Require Import PyBase LinAlg AlgoModel AlgoProofs NeighbourModel.
From Coq Require Import Ring Bool.

Section Step.
Variable K : ring.
Add Ring KringN : (rth K).
Variables cell off : Type.
Variable nb : nat -> cell -> cell.
Variable sh : off -> cell -> cell.
Variable inner : cell -> bool.
Open Scope ring_scope'.
Notation field := (field K cell).

(* The array m0 after the rows j < k have been replaced by those of E in the inner cells. *)
Definition mid (m0 E : field) (k : nat) : field := fun y j =>
  if inner y && (j <? k)%nat then E y j else m0 y j.
Definition views (F m u : field) : cell -> view K := fun y => view_at nb F F (m y) (u y) y.
Definition rows (t : nat -> target) (n : nat) (e : (cell -> view K) -> cell -> nat -> K) : list (gstmt K cell) :=
  map (fun k => (t k, fun V x => e V x k)) (seq 0 n).

Lemma grun_app (p q : list (gstmt K cell)) st : grun nb inner (p ++ q) st = grun nb inner q (grun nb inner p st).
Proof. apply fold_left_app. Qed.

Lemma grun_TM F m0 u n e E :
  (forall k m, (k < n)%nat -> (forall y j, m y j = mid m0 E k y j) ->
     forall x, inner x = true -> e (views F m u) x k = E x k) ->
  exists m', grun nb inner (rows TM n e) (F, (m0, u)) = (F, (m', u)) /\ forall y j, m' y j = mid m0 E n y j.
Proof.
  induction n as [|n IH]; intros H.
  - exists m0. split; [reflexivity|]. intros y j. unfold mid. cbn. rewrite andb_false_r. reflexivity.
  - destruct IH as (m' & R & P).
    { intros k m Hk. apply H. lia. }
    unfold rows. rewrite seq_S, map_app. rewrite grun_app.
    change (map (fun k => (TM k, fun V x => e V x k)) (seq 0 n)) with (rows TM n e). rewrite R.
    exists (fun x => if inner x then updf (m' x) n (e (views F m' u) x n) else m' x).
    split; [reflexivity|]. intros y j. unfold mid. destruct (inner y) eqn:Ey; cbn [andb].
    + unfold updf. destruct (Nat.eqb_spec j n) as [->|Hj].
      * rewrite (proj2 (Nat.ltb_lt n (S n))) by lia. apply H; [lia|exact P|exact Ey].
      * rewrite P. unfold mid. rewrite Ey. cbn [andb].
        destruct (Nat.ltb_spec j n), (Nat.ltb_spec j (S n)); try lia; reflexivity.
    + rewrite P. unfold mid. rewrite Ey. reflexivity.
Qed.
Lemma grun_TFn F m u n (e : vec K -> vec K) :
  exists F', grun nb inner (rows TFn n (fun V x => e (vm (V x)))) (F, (m, u)) = (F', (m, u)) /\
    forall x j, F' x j = if inner x && (j <? n)%nat then e (m x) j else F x j.
Proof.
  induction n as [|n (F' & R & P)].
  - exists F. split; [reflexivity|]. intros. cbn. rewrite andb_false_r. reflexivity.
  - unfold rows. rewrite seq_S, map_app, grun_app.
    change (map (fun k => (TFn k, fun V x => e (vm (V x)) k)) (seq 0 n)) with (rows TFn n (fun V x => e (vm (V x)))).
    rewrite R. exists (fun x => if inner x then updf (F' x) n (e (m x) n) else F' x).
    split; [reflexivity|]. intros x j. destruct (inner x) eqn:Ex; cbn [andb].
    + unfold updf. destruct (Nat.eqb_spec j n) as [->|Hj].
      * rewrite (proj2 (Nat.ltb_lt n (S n))) by lia. reflexivity.
      * rewrite P, Ex. cbn [andb]. destruct (Nat.ltb_spec j n), (Nat.ltb_spec j (S n)); try lia; reflexivity.
    + rewrite P, Ex. reflexivity.
Qed.

Variable a : algo K.
Variable src : nsources K off.
Notation n := (al_n a).

(* The half step as one writes it: m_k + dt/2 * source of the moments of the cells around. *)
Definition half_around (m : field) : field := fun x k =>
  match nsource_of src k with
  | Some g => (m x k + al_hdt a * g (fun d => m (sh d x)))%K
  | None => m x k
  end.
(* A source is a function of the n moments of the cells, and the source of moment k does not
   read the moments before k which have a source (C31). *)
Definition reads_around : Prop := forall k g w w', nsource_of src k = Some g ->
  (forall d j, (j < n)%nat -> (k <= j)%nat \/ nsource_of src j = None -> w d j = w' d j) -> g w = g w'.

Lemma half_ok F m0 u : reads_around ->
  exists m', grun nb inner (with_nsource sh a src) (F, (m0, u)) = (F, (m', u)) /\
    forall y j, m' y j = mid m0 (half_around m0) n y j.
Proof.
  intros Hr.
  destruct src as [|s0 rest] eqn:Es.
  - exists m0. split; [reflexivity|]. intros y j. unfold mid, half_around. rewrite Es. cbn. now destruct (_ && _).
  - rewrite <- Es in *.
    assert (W : with_nsource sh a src = rows TM n (fun V x k => half_around (fun y => vm (V y)) x k)).
    { rewrite Es. unfold with_nsource, nsource_term_local, rows, half_around. rewrite Es. reflexivity. }
    rewrite W. apply grun_TM. intros k m Hk Hm x Hx. unfold half_around, views. cbn.
    assert (Hxk : m x k = m0 x k).
    { rewrite Hm. unfold mid. rewrite Hx, Nat.ltb_irrefl. reflexivity. }
    destruct (nsource_of src k) as [g|] eqn:Eg; [|exact Hxk]. rewrite Hxk. f_equal. f_equal.
    apply (Hr k g _ _ Eg). intros d j Hj Hor. rewrite Hm. unfold mid.
    destruct (inner (sh d x)); [|reflexivity]. cbn [andb]. destruct (Nat.ltb_spec j k); [|reflexivity].
    unfold half_around. destruct Hor as [?|E]; [lia|]. rewrite E. reflexivity.
Qed.
Lemma relax_ok F m0 u : al_relvel a = None -> eq_ok K a ->
  exists m', grun nb inner (map lift (relaxation_local a)) (F, (m0, u)) = (F, (m', u)) /\
    forall y j, m' y j = mid m0 (fun x k => (m0 x k + al_s a (m0 x) k * (al_eq a (m0 x) k - m0 x k))%K) n y j.
Proof.
  intros R (Hn & Heq & Hs & Hc).
  assert (W : map lift (relaxation_local a) = rows TM n (fun V x k =>
    ((1 - al_s a (vm (V x)) k) * vm (V x) k + al_s a (vm (V x)) k * al_eq a (vm (V x)) k)%K)).
  { unfold relaxation_local, rows, assign. rewrite R, Nat.sub_0_r, map_map. reflexivity. }
  rewrite W. apply grun_TM. intros k m Hk Hm x Hx. unfold views. cbn.
  assert (A : forall i, (i < al_nc a)%nat -> m x i = m0 x i).
  { intros i Hi. rewrite Hm. unfold mid. rewrite Hx. cbn [andb]. destruct (i <? k)%nat; [|reflexivity].
    rewrite (Hc (m0 x) i Hi). ring. }
  rewrite (Heq (m x) (m0 x) A k Hk), (Hs (m x) (m0 x) A k Hk).
  replace (m x k) with (m0 x k). 2:{ rewrite Hm. unfold mid. rewrite Hx, Nat.ltb_irrefl. reflexivity. }
  ring.
Qed.

(* One step of the NumPy kernel.  The moments m0 are those of the distributions in the inner
   cells only; everywhere else they are what the array m holds, before and after each half step. *)
Theorem C95_step F m u : al_relvel a = None -> eq_ok K a -> reads_around ->
  exists m0 m1 m2 m3 F',
    neighbour_step nb sh a inner src (F, (m, u)) = (F', (m3, u)) /\
    (forall x k, inner x = true -> (k < n)%nat ->
       m0 x k = mvmul n (al_M a) (fun j => F (nb j x) j) k /\
       m1 x k = half_around m0 x k /\
       m2 x k = (m1 x k + al_s a (m1 x) k * (al_eq a (m1 x) k - m1 x k))%K /\
       m3 x k = half_around m2 x k /\
       F' x k = mvmul n (al_invM a) (m3 x) k) /\
    (forall x k, inner x = false ->
       m0 x k = m x k /\ m1 x k = m x k /\ m2 x k = m x k /\ m3 x k = m x k /\ F' x k = F x k).
Proof.
  intros R He Hr. unfold neighbour_step, neighbour_pull. rewrite !grun_app.
  assert (W : map lift (f2m_local a vf) =
    rows TM n (fun (V : cell -> view K) x => mvmul n (al_M a) (vf (V x)))).
  { unfold f2m_local, rows, assign. rewrite R, Nat.sub_0_r, map_map. reflexivity. }
  destruct (grun_TM F m u n (fun V x => mvmul n (al_M a) (vf (V x)))
    (fun x => mvmul n (al_M a) (fun j => F (nb j x) j))) as (m0 & R0 & P0).
  { intros. reflexivity. }
  rewrite W, R0.
  destruct (half_ok F m0 u Hr) as (m1 & R1 & P1). rewrite R1.
  destruct (relax_ok F m1 u R He) as (m2 & R2 & P2). rewrite R2.
  destruct (half_ok F m2 u Hr) as (m3 & R3 & P3). rewrite R3.
  assert (W' : map lift (m2f_local a) =
    rows TFn n (fun (V : cell -> view K) x => mvmul n (al_invM a) (vm (V x)))).
  { unfold m2f_local, rows, assign. rewrite R, Nat.sub_0_r, map_map. reflexivity. }
  destruct (grun_TFn F m3 u n (mvmul n (al_invM a))) as (F' & R4 & P4). rewrite W', R4.
  exists m0, m1, m2, m3, F'. split; [reflexivity|]. split.
  - intros x k Hx Hk. specialize (P0 x k). specialize (P1 x k). specialize (P2 x k). specialize (P3 x k).
    specialize (P4 x k). unfold mid in P0, P1, P2, P3.
    rewrite Hx, (proj2 (Nat.ltb_lt k n) Hk) in P0, P1, P2, P3, P4. auto.
  - intros x k Hx. specialize (P0 x k). specialize (P1 x k). specialize (P2 x k). specialize (P3 x k).
    specialize (P4 x k). unfold mid in P0, P1, P2, P3. rewrite Hx in P0, P1, P2, P3, P4. cbn [andb] in P0, P1, P2, P3, P4.
    repeat split; congruence.
Qed.

(* Where all the cells which are read, directly or through a cell which is read, are inner
   cells, the old moments do not matter. *)
Theorem C95_interior F m m' u x : al_relvel a = None -> eq_ok K a -> reads_around ->
  inner x = true -> (forall d, inner (sh d x) = true) -> (forall d d', inner (sh d' (sh d x)) = true) ->
  forall k, (k < n)%nat ->
    fst (neighbour_step nb sh a inner src (F, (m, u))) x k =
    fst (neighbour_step nb sh a inner src (F, (m', u))) x k.
Proof.
  intros R He Hr Hx H1 H2 k Hk.
  destruct (C95_step F m u R He Hr) as (m0 & m1 & m2 & m3 & F' & -> & P & _).
  destruct (C95_step F m' u R He Hr) as (m0' & m1' & m2' & m3' & F'' & -> & P' & _). cbn [fst].
  assert (E0 : forall y j, inner y = true -> (j < n)%nat -> m0 y j = m0' y j).
  { intros y j Hy Hj. rewrite (proj1 (P y j Hy Hj)), (proj1 (P' y j Hy Hj)). reflexivity. }
  assert (EH : forall (w w' : field) y j, (j < n)%nat -> (forall i, (i < n)%nat -> w y i = w' y i) ->
    (forall d i, (i < n)%nat -> w (sh d y) i = w' (sh d y) i) -> half_around w y j = half_around w' y j).
  { intros w w' y j Hj A B. unfold half_around. rewrite (A j Hj).
    destruct (nsource_of src j) as [g|] eqn:Eg; [|reflexivity]. f_equal. f_equal.
    apply (Hr j g _ _ Eg). intros d i Hi _. apply B. exact Hi. }
  assert (E2 : forall y j, inner y = true -> (forall d, inner (sh d y) = true) -> (j < n)%nat -> m2 y j = m2' y j).
  { intros y j Hy Hd Hj.
    assert (E1 : forall i, (i < n)%nat -> m1 y i = m1' y i).
    { intros i Hi. rewrite (proj1 (proj2 (P y i Hy Hi))), (proj1 (proj2 (P' y i Hy Hi))).
      apply EH; [exact Hi|intros; now apply E0|intros; apply E0; auto]. }
    destruct He as (Hn & Heq & Hs & Hc).
    assert (A : forall i, (i < al_nc a)%nat -> m1 y i = m1' y i) by (intros; apply E1; lia).
    rewrite (proj1 (proj2 (proj2 (P y j Hy Hj)))), (proj1 (proj2 (proj2 (P' y j Hy Hj)))).
    rewrite (Heq _ _ A j Hj), (Hs _ _ A j Hj), (E1 j Hj). reflexivity. }
  rewrite (proj2 (proj2 (proj2 (proj2 (P x k Hx Hk))))), (proj2 (proj2 (proj2 (proj2 (P' x k Hx Hk))))).
  apply mvmul_ext. intros i Hi.
  rewrite (proj1 (proj2 (proj2 (proj2 (P x i Hx Hi))))), (proj1 (proj2 (proj2 (proj2 (P' x i Hx Hi))))).
  apply EH; [exact Hi|intros; apply E2; auto|intros; apply E2; auto].
Qed.
End Step.
Print Assumptions C95_step.
Print Assumptions C95_interior.

(* Sources which read their own cell: the same step as that of AlgoModel (C31, C34, C63). *)
Theorem C95_own_cell (K : arith) cell (nb : nat -> cell -> cell) (a : algo K) inner st : al_relvel a = None ->
  neighbour_step nb (fun (_ : unit) x => x) a inner
    (map (fun p => (fst p, fun w => snd p (w tt))) (al_source a)) st =
  numpy_run nb inner (pull_local a) st.
Proof.
  intros R.
  assert (L : forall (p : list (stmt K)) st, grun nb inner (map lift p) st = numpy_run nb inner p st).
  { induction p as [|s p IH]; intros s0; [reflexivity|]. cbn. unfold grun, numpy_run in IH. rewrite <- IH.
    reflexivity. }
  rewrite <- L. unfold neighbour_step, neighbour_pull, pull_local. rewrite R, !map_app. cbn [map app].
  assert (S : forall (src : list (nat * (vec K -> K))) k,
    nsource_of (map (fun p => (fst p, fun w : unit -> vec K => snd p (w tt))) src) k =
    match find (fun p => Nat.eqb (fst p) k) (rev src) with Some p => Some (fun w => snd p (w tt)) | None => None end).
  { intros src k. unfold nsource_of. rewrite <- map_rev. induction (rev src) as [|p l IH]; [reflexivity|].
    cbn. destruct (Nat.eqb (fst p) k); [reflexivity|exact IH]. }
  assert (T : with_nsource (fun (_ : unit) (x : cell) => x) a (map (fun p => (fst p, fun w => snd p (w tt))) (al_source a)) =
    map lift (with_source a)).
  { unfold with_source, with_nsource. destruct (al_source a) as [|s0 r0] eqn:Es; [reflexivity|].
    cbn [map].
    change ((fst s0, fun w : unit -> vec K => snd s0 (w tt)) :: map (fun p => (fst p, fun w => snd p (w tt))) r0)
      with (map (fun p : nat * (vec K -> K) => (fst p, fun w : unit -> vec K => snd p (w tt))) (s0 :: r0)).
    rewrite <- Es. unfold nsource_term_local, source_term_local, assign. rewrite Nat.sub_0_r, map_map.
    apply map_ext. intros k. rewrite S. unfold lift, source_of. cbn [fst snd].
    destruct (find _ _); reflexivity. }
  rewrite T. reflexivity.
Qed.
Print Assumptions C95_own_cell.

(* After the user looked at the moments, those of the cells outside of the inner ones are the
   moments of the distributions of these cells before the transport. *)
Theorem C95_look (K : ring) cell off (nb : nat -> cell -> cell) (sh : off -> cell -> cell) inner (a : algo K) src F m u :
  al_relvel a = None -> eq_ok K a -> reads_around K off a src ->
  exists F' m', neighbour_step nb sh a inner src (f2m_all a (F, (m, u))) = (F', (m', u)) /\
    forall x k, inner x = false -> F' x k = F x k /\ m' x k = sum (al_n a) (fun j => al_M a k j * F x j)%K.
Proof.
  intros R He Hr.
  destruct (C95_step K cell off nb sh inner a src F (fun x => mvmul (al_n a) (al_M a) (F x)) u R He Hr)
    as (m0 & m1 & m2 & m3 & F' & Hs & _ & Q).
  exists F', m3. split; [exact Hs|]. intros x k Hx. destruct (Q x k Hx) as (_ & _ & _ & -> & ->). split; reflexivity.
Qed.
Print Assumptions C95_look.
(* One step on several processes: the distributions of a cell are those of the moments kept by
   its process, which stepped on its own cells; the moments of the other cells in its array stay. *)
Theorem C95_world (K : ring) nb (a : algo K) src N F ps x p :
  al_relvel a = None -> eq_ok K a -> reads_around K Z a src -> find (fun p => owns p x) ps = Some p ->
  exists F' ps' p', world_step nb a src N (F, ps) = (F', ps') /\ In p' ps' /\ (forall y, owns p' y = owns p y) /\
    (forall k, (k < al_n a)%nat -> F' x k = sum (al_n a) (fun j => al_invM a k j * np_m p' x j)%K) /\
    (forall k, (k < al_n a)%nat -> exists m0 m1 m2 : field K Z,
       (forall y i, owns p y = true -> (i < al_n a)%nat -> m0 y i = sum (al_n a) (fun j => al_M a i j * F (nb j y mod N)%Z j)%K) /\
       (forall y i, owns p y = true -> (i < al_n a)%nat -> m1 y i = half_around K Z Z (fun d x => (x + d)%Z) a src m0 y i) /\
       (forall y i, owns p y = true -> (i < al_n a)%nat -> m2 y i = (m1 y i + al_s a (m1 y) i * (al_eq a (m1 y) i - m1 y i))%K) /\
       (forall y i, owns p y = false -> m0 y i = np_m p y i /\ m1 y i = np_m p y i /\ m2 y i = np_m p y i) /\
       np_m p' x k = half_around K Z Z (fun d x => (x + d)%Z) a src m2 x k) /\
    (forall y k, owns p y = false -> np_m p' y k = np_m p y k).
Proof.
  intros R He Hr Hf. destruct (find_some _ _ Hf) as [Hin Hown].
  destruct (C95_step K Z Z nb (fun d x => (x + d)%Z) (owns p) a src (fun x => F (x mod N)%Z) (np_m p) (fun _ _ => r0) R He Hr)
    as (m0 & m1 & m2 & m3 & G & Hs & P & Q).
  unfold world_step. eexists. eexists. exists (mkNproc (np_lo K p) (np_hi K p) m3).
  assert (Hr' : proc_run K nb a src N F p = (G, (m3, fun _ _ => r0))) by exact Hs.
  split; [reflexivity|]. split.
  { apply in_map_iff. exists p. split; [|exact Hin]. rewrite Hr'. reflexivity. }
  split; [reflexivity|]. split.
  { intros k Hk. rewrite Hf, Hr'. cbn [fst]. apply (P x k Hown Hk). }
  split.
  - intros k Hk. exists m0, m1, m2.
    split; [intros y i Hy Hi; apply (P y i Hy Hi)|]. split; [intros y i Hy Hi; apply (P y i Hy Hi)|].
    split; [intros y i Hy Hi; apply (P y i Hy Hi)|]. split; [|apply (P x k Hown Hk)].
    intros y i Hy. destruct (Q y i Hy) as (A & B & C & _). auto.
  - intros y k Hy. apply (Q y k Hy).
Qed.
Print Assumptions C95_world.

(* ---- examples and refutations ----
   One velocity, 1: the moment is the distribution, it is conserved; its source is the
   moment of the cell on the left. *)
Definition a_n : algo Zring := mkAlgo 1 1 1 idm idm (fun _ => idm) (fun m => m) (fun _ _ => 0%Z : Zring) None [] 1%Z.
Definition src_n : nsources Zring Z := [(0%nat, fun w => w (-1)%Z 0%nat)].
Definition nb_n (k : nat) (x : Z) : Z := (x - 1)%Z.
Definition sh_n (d x : Z) : Z := (x + d)%Z.
Lemma a_n_hyps : al_relvel a_n = None /\ eq_ok Zring a_n /\ reads_around Zring Z a_n src_n.
Proof.
  split; [reflexivity|]. split.
  - split; [cbn; lia|]. split; [intros m m' H k Hk; apply H; exact Hk|]. split; [intros m m' H k Hk; reflexivity|reflexivity].
  - intros k g w w' E H. unfold nsource_of in E. cbn in E. destruct k as [|k]; [|discriminate]. injection E as <-.
    apply H; [cbn; lia|left; lia].
Qed.
(* Five inner cells, the values x + 2 in cell x; the cell 4 reads inner cells only, and the
   old moments (here 100) matter in the cells 1 and 2. *)
Definition inner_n (x : Z) : bool := ((1 <=? x) && (x <=? 5))%Z.
Definition st_n (c : Z) : field Zring Z * (field Zring Z * field Zring Z) :=
  ((fun x _ => x + 2)%Z, ((fun _ _ => c), fun _ _ => 0%Z)).
Example C95_example : inner_n 4 = true /\ inner_n (sh_n (-1) 4) = true /\ inner_n (sh_n (-1) (sh_n (-1) 4)) = true /\
  map (fun x => fst (neighbour_step nb_n sh_n a_n inner_n src_n (st_n 100)) x 0%nat) [1; 2; 3; 4; 5]%Z = [202; 107; 12; 16; 20]%Z /\
  map (fun x => fst (neighbour_step nb_n sh_n a_n inner_n src_n (st_n 7)) x 0%nat) [1; 2; 3; 4; 5]%Z = [16; 14; 12; 16; 20]%Z.
Proof. repeat split; vm_compute; reflexivity. Qed.

(* The user looks at the moments between two steps (simulation.m calls f2m on the whole
   arrays): the second step is not the same. *)
Theorem C95_reading_refuted : exists (a : algo Zring) src (F : field Zring Z) (m u : field Zring Z),
  al_relvel a = None /\ eq_ok Zring a /\ reads_around Zring Z a src /\ (forall x, m x = mvmul (al_n a) (al_M a) (F x)) /\
  let step := neighbour_step nb_n sh_n a inner_n src in
  let exchange st := ((fun x : Z => fst st ((x - 1) mod 5 + 1)%Z), snd st) : field Zring Z * (field Zring Z * field Zring Z) in
  let s1 := step (exchange (F, (m, u))) in
  fst (step (exchange s1)) 1%Z 0%nat <> fst (step (exchange (f2m_all a (exchange s1)))) 1%Z 0%nat.
Proof.
  exists a_n, src_n, (fun _ _ => 1%Z), (fun x => mvmul 1 idm (fun _ => 1%Z : Zring)), (fun _ _ => 0%Z).
  destruct a_n_hyps as (H1 & H2 & H3). split; [exact H1|]. split; [exact H2|]. split; [exact H3|].
  split; [reflexivity|]. vm_compute. discriminate.
Qed.
Print Assumptions C95_reading_refuted.
Example C95_look_example : inner_n 0 = false /\
  fst (snd (neighbour_step nb_n sh_n a_n inner_n src_n (f2m_all a_n (st_n 7)))) 0%Z 0%nat = 2%Z.
Proof. split; reflexivity. Qed.

(* Four periodic cells, the same uniform state everywhere, on one process and on two: the
   results differ (and are not uniform any more). *)
Definition uniform (v : Z) : field Zring Z := fun _ _ => v.
Theorem C95_processes_refuted : exists (a : algo Zring) src,
  al_relvel a = None /\ eq_ok Zring a /\ reads_around Zring Z a src /\
  let one := fst (world_step nb_n a src 4 (uniform 1, [mkNproc 0 4 (uniform 1)])%Z) in
  let two := fst (world_step nb_n a src 4 (uniform 1, [mkNproc 0 2 (uniform 1); mkNproc 2 4 (uniform 1)])%Z) in
  one 2%Z 0%nat <> two 2%Z 0%nat /\ one 0%Z 0%nat <> one 1%Z 0%nat.
Proof.
  exists a_n, src_n. destruct a_n_hyps as (H1 & H2 & H3). split; [exact H1|]. split; [exact H2|]. split; [exact H3|].
  split; vm_compute; discriminate.
Qed.
Print Assumptions C95_processes_refuted.
Example C95_world_example : let ps := [mkNproc 0 2 (uniform 1); mkNproc 2 4 (uniform 5)]%Z in
  find (fun p => owns p 2%Z) ps = Some (mkNproc 2 4 (uniform 5))%Z /\
  map (fun p => (np_m p 1%Z 0%nat, np_m p 2%Z 0%nat)) (snd (world_step nb_n a_n src_n 4 (uniform 1, ps)%Z)) = [(4, 1); (5, 11)]%Z.
Proof. split; vm_compute; reflexivity. Qed.

(* Cython: the element of the local array which is read in the place of moment k of the cell
   ix + d is the moment k + ix + d of the cell ix; it is outside of the array of the n moments
   from the cell ix = n - k - d on, whatever the source. *)
Theorem C95_local_array k ix d n :
  (local_position k ix d = Z.of_nat k <-> ix + d = 0)%Z /\
  (Z.of_nat n - Z.of_nat k - d <= ix -> Z.of_nat n <= local_position k ix d)%Z.
Proof. unfold local_position. lia. Qed.
Print Assumptions C95_local_array.
Example C95_local_example : local_position 0 1 (-1) = 0%Z /\ local_position 0 9 (-1) = 8%Z /\ local_position 0 10 (-1) = 9%Z.
Proof. repeat split; reflexivity. Qed.
