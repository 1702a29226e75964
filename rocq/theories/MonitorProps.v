(* C46: timings of nested monitored calls. *)
From Verif Require Import PyBase MonitorModel.

(* Call trees, the events they produce. *)
Inductive call := Call (f : nat) (t0 : Z) (sub : list call) (t1 : Z).
Fixpoint events (c : call) : list event :=
  let '(Call f t0 sub t1) := c in Start f t0 :: flat_map events sub ++ [Stop f t1].
Definition dur (c : call) : Z := let '(Call _ t0 _ t1) := c in (t1 - t0)%Z.
Definition durs (cs : list call) : Z := zsum (map dur cs).
Fixpoint names (c : call) : list nat := let '(Call f _ sub _) := c in f :: flat_map names sub.
(* No monitored function is called again while it runs. *)
Fixpoint nonrec (c : call) : Prop :=
  let '(Call f _ sub _) := c in
  ~ In f (flat_map names sub) /\ fold_right (fun c P => nonrec c /\ P) True sub.
Definition nonrecs (cs : list call) : Prop := fold_right (fun c P => nonrec c /\ P) True cs.
(* Every call with its duration and its own time, in the order of the starts. *)
Fixpoint calls (c : call) : list (nat * (Z * Z)) :=
  let '(Call f t0 sub t1) := c in
  (f, (t1 - t0, (t1 - t0) - zsum (map dur sub)))%Z :: flat_map calls sub.
Definition of (f : nat) (l : list (nat * (Z * Z))) : list (Z * Z) :=
  map snd (filter (fun p => Nat.eqb (fst p) f) l).

Fixpoint csize (c : call) : nat := let '(Call _ _ sub _) := c in S (list_sum (map csize sub)).

Lemma csize_cons f a sub b cs :
  list_sum (map csize (Call f a sub b :: cs)) = S (list_sum (map csize sub) + list_sum (map csize cs)).
Proof. reflexivity. Qed.

Lemma durs_cons f a sub b cs : durs (Call f a sub b :: cs) = (b - a + durs cs)%Z.
Proof. reflexivity. Qed.

Definition entries (m : mon) (f : nat) : list (Z * Z) :=
  match dget (m_func m) f with Some (tot, own) => rev (combine tot own) | None => [] end.
Definition aligned (m : mon) : Prop :=
  forall f tot own, dget (m_func m) f = Some (tot, own) -> length tot = length own.
Definition own_sum (m : mon) : Z := zsum (map (fun p => snd (snd p)) (data m)).

Lemma dget_dset d f p g : dget (dset d f p) g =
  if Nat.eqb f g then match dget d f with Some _ => Some p | None => None end else dget d g.
Proof.
  induction d as [|[h q] d IH]; cbn; [now destruct (Nat.eqb f g)|].
  destruct (Nat.eqb_spec h f) as [->|Hh]; cbn.
  - destruct (Nat.eqb_spec f g); reflexivity.
  - rewrite IH. destruct (Nat.eqb_spec h g) as [->|]; [|reflexivity].
    destruct (Nat.eqb_spec f g) as [->|]; congruence.
Qed.
Lemma dget_app d f p g : dget d f = None ->
  dget (d ++ [(f, p)]) g = if Nat.eqb f g then Some p else dget d g.
Proof.
  induction d as [|[h q] d IH]; cbn; [reflexivity|].
  destruct (Nat.eqb_spec h f) as [->|Hh]; [discriminate|]. intros H. rewrite IH by exact H.
  destruct (Nat.eqb_spec h g) as [->|]; [|reflexivity]. destruct (Nat.eqb_spec f g); congruence.
Qed.
Definition dsum (d : list (nat * perf)) : Z := zsum (map (fun p => zsum (snd (snd p))) d).
Lemma own_sum_dsum m : own_sum m = dsum (m_func m).
Proof. unfold own_sum, data, dsum. now rewrite map_map. Qed.
Lemma dsum_dset d f p q : dget d f = Some q ->
  dsum (dset d f p) = (dsum d - zsum (snd q) + zsum (snd p))%Z.
Proof.
  induction d as [|[h r] d IH]; cbn [dget dset]; [discriminate|].
  assert (X : forall a (l : list (nat * perf)), dsum (a :: l) = (zsum (snd (snd a)) + dsum l)%Z) by reflexivity.
  destruct (Nat.eqb_spec h f) as [->|Hh]; rewrite !X; cbn [snd].
  - intros E. injection E as ->. lia.
  - intros E. rewrite IH by exact E. lia.
Qed.
Lemma dsum_app d f : dsum (d ++ [(f, ([], []))]) = dsum d.
Proof.
  assert (X : forall a (l : list (nat * perf)), dsum (a :: l) = (zsum (snd (snd a)) + dsum l)%Z) by reflexivity.
  induction d as [|a d IH]; [reflexivity|]. cbn [app]. rewrite !X, IH. reflexivity.
Qed.

Lemma run_app es1 : forall m es2, run m (es1 ++ es2) =
  match run m es1 with Some m' => run m' es2 | None => None end.
Proof. induction es1 as [|e es1 IH]; intros m es2; cbn; [reflexivity|]. destruct (step m e); auto. Qed.
Lemma zsum_app a b : zsum (a ++ b) = (zsum a + zsum b)%Z.
Proof. induction a as [|x a IH]; [reflexivity|]. cbn [app]. change (x + zsum (a ++ b) = x + zsum a + zsum b)%Z. lia. Qed.
Lemma of_app f a b : of f (a ++ b) = of f a ++ of f b.
Proof. unfold of. now rewrite filter_app, map_app. Qed.
Lemma of_notin f : forall n cs, list_sum (map csize cs) <= n -> ~ In f (flat_map names cs) -> of f (flat_map calls cs) = [].
Proof.
  induction n as [|n IH]; intros cs Hn H.
  - destruct cs as [|[g a sub b] cs]; [reflexivity|cbn in Hn; lia].
  - induction cs as [|[g a sub b] cs IHc]; [reflexivity|]. rewrite csize_cons in Hn.
    cbn [flat_map names calls] in *. rewrite of_app. rewrite IHc.
    + unfold of. cbn [filter fst app]. destruct (Nat.eqb_spec g f) as [->|Hg].
      * exfalso. apply H. now left.
      * fold (of f (flat_map calls sub)). rewrite IH; [reflexivity| |].
        { lia. }
        { intros C. apply H. right. apply in_or_app. now left. }
    + lia.
    + intros C. apply H. right. apply in_or_app. now right.
Qed.

(* State after a sequence of calls. *)
Definition after (m m' : mon) (cs : list call) : Prop :=
  (exists p up, m_path m = p :: up /\ m_path m' = (p + durs cs)%Z :: up) /\
  (forall f, entries m' f = entries m f ++ of f (flat_map calls cs)) /\
  (forall f, ~ In f (flat_map names cs) -> dget (m_func m') f = dget (m_func m) f) /\
  aligned m' /\ own_sum m' = (own_sum m + durs cs)%Z.

Lemma run_calls : forall n cs m, list_sum (map csize cs) <= n -> nonrecs cs -> m_path m <> [] -> aligned m ->
  exists m', run m (flat_map events cs) = Some m' /\ after m m' cs.
Proof.
  induction n as [|n IH]; intros cs m Hn Hrec Hp Ha.
  - destruct cs as [|[g a sub b] cs]; [|cbn in Hn; lia].
    exists m. split; [reflexivity|]. destruct (m_path m) as [|p up] eqn:E; [congruence|].
    split; [exists p, up; split; [exact E|cbn; rewrite E; f_equal; lia]|].
    split; [intros f; cbn; now rewrite app_nil_r|]. split; [reflexivity|]. split; [exact Ha|]. unfold durs. cbn. lia.
  - revert m Hp Ha. induction cs as [|[f t0 sub t1] cs IHc]; intros m Hp Ha.
    { apply IH; [apply Nat.le_0_l|exact I|exact Hp|exact Ha]. }
    cbn [nonrecs fold_right nonrec] in Hrec. destruct Hrec as [[Hf Hsub] Hcs].
    rewrite csize_cons in Hn.
    assert (Hn1 : list_sum (map csize sub) <= n) by lia.
    assert (Hn2 : list_sum (map csize cs) <= S n) by lia.
    destruct (m_path m) as [|p up] eqn:Ep; [congruence|]. clear Hp.
    (* register and start *)
    assert (S1 : exists tot own m1, step m (Start f t0) = Some m1 /\ length tot = length own /\
       entries m f = rev (combine tot own) /\ (dget (m_func m1) f = Some (t0 :: tot, 0%Z :: own)) /\
       (forall g, g <> f -> dget (m_func m1) g = dget (m_func m) g) /\
       m_path m1 = 0%Z :: p :: up /\ aligned m1 /\ own_sum m1 = own_sum m).
    { cbn [step]. unfold register. destruct (dget (m_func m) f) as [[tot own]|] eqn:E.
      - exists tot, own. unfold start_timing. rewrite E. eexists. split; [reflexivity|].
        pose proof (Ha f tot own E) as Hl. split; [exact Hl|].
        split; [unfold entries; now rewrite E|]. cbn [m_func m_path].
        split; [rewrite dget_dset, Nat.eqb_refl, E; reflexivity|].
        split; [intros g Hg; rewrite dget_dset; destruct (Nat.eqb_spec f g); congruence|].
        split; [now rewrite Ep|]. split.
        + intros g tg og. cbn [m_func]. rewrite dget_dset. destruct (Nat.eqb_spec f g) as [->|]; [|apply Ha].
          rewrite E. intros X. injection X as <- <-. cbn. lia.
        + rewrite !own_sum_dsum. cbn [m_func]. rewrite (dsum_dset _ _ _ _ E). cbn. lia.
      - exists [], []. unfold start_timing. cbn [m_func].
        assert (E1 : dget (m_func m ++ [(f, ([], []))]) f = Some ([], [])) by (rewrite dget_app by exact E; now rewrite Nat.eqb_refl).
        rewrite E1. eexists. split; [reflexivity|]. split; [reflexivity|]. split; [unfold entries; now rewrite E|].
        cbn [m_func m_path].
        split; [rewrite dget_dset, Nat.eqb_refl, E1; reflexivity|].
        split; [intros g Hg; rewrite dget_dset, !dget_app by exact E; destruct (Nat.eqb_spec f g); congruence|].
        split; [now rewrite Ep|]. split.
        + intros g tg og. cbn [m_func]. rewrite dget_dset. destruct (Nat.eqb_spec f g) as [->|].
          * rewrite E1. intros X. injection X as <- <-. reflexivity.
          * rewrite dget_app by exact E. destruct (Nat.eqb_spec f g); [congruence|]. apply Ha.
        + rewrite !own_sum_dsum. cbn [m_func]. rewrite (dsum_dset _ _ _ _ E1), dsum_app. cbn. lia. }
    destruct S1 as (tot & own & m1 & Es & Hl & Hent & Hd1 & Ho1 & Hp1 & Ha1 & Hs1).
    destruct (IH sub m1) as (m2 & Er & (q & up2 & Hq1 & Hq2) & He2 & Hn2' & Ha2 & Hs2); auto; [congruence|].
    rewrite Hp1 in Hq1. injection Hq1 as <- <-.
    pose proof (Hn2' f Hf) as Hd2. rewrite Hd1 in Hd2.
    set (m3 := mkMon (dset (m_func m2) f ((t1 - t0)%Z :: tot, (t1 - t0 - durs sub)%Z :: own)) ((p + (t1 - t0))%Z :: up)).
    assert (E3 : step m2 (Stop f t1) = Some m3).
    { cbn [step]. unfold stop_timing. rewrite Hd2, Hq2. cbv zeta. rewrite Z.add_0_l. reflexivity. }
    assert (Ha3 : aligned m3).
    { intros g tg og. cbn [m3 m_func]. rewrite dget_dset. destruct (Nat.eqb_spec f g) as [->|]; [|apply Ha2].
      rewrite Hd2. intros X. injection X as <- <-. cbn. lia. }
    destruct (IHc Hn2 Hcs m3) as (m4 & E4 & (p4 & up4 & Hp4 & Hp4') & He4 & Hn4 & Ha4 & Hs4); [cbn; congruence|exact Ha3|].
    exists m4. split.
    { cbn [flat_map events]. rewrite <- app_comm_cons, <- app_assoc. cbn [app run]. rewrite Es, run_app, Er.
      cbn [app run]. rewrite E3. exact E4. }
    cbn [m3 m_path] in Hp4. injection Hp4 as <- <-.
    split; [exists p, up; split; [exact Ep|rewrite Hp4'; f_equal; rewrite durs_cons; lia]|].
    split; [|split; [|split; [exact Ha4|]]].
    + intros g. rewrite He4. cbn [flat_map]. rewrite of_app, app_assoc. f_equal.
      cbn [calls]. change ((f, ((t1 - t0)%Z, (t1 - t0 - zsum (map dur sub))%Z)) :: flat_map calls sub)
        with ([(f, ((t1 - t0)%Z, (t1 - t0 - durs sub)%Z))] ++ flat_map calls sub).
      rewrite of_app. unfold entries at 1. cbn [m3 m_func]. rewrite dget_dset.
      destruct (Nat.eqb_spec f g) as [<-|Hg].
      * rewrite Hd2. cbn [combine rev]. rewrite Hent. rewrite (of_notin f n sub Hn1 Hf), app_nil_r.
        unfold of. cbn [filter fst]. rewrite Nat.eqb_refl. reflexivity.
      * assert (of g [(f, ((t1 - t0)%Z, (t1 - t0 - durs sub)%Z))] = []) as ->.
        { unfold of. cbn [filter fst]. destruct (Nat.eqb_spec f g); [congruence|reflexivity]. }
        cbn [app]. fold (entries m2 g). rewrite He2. f_equal. unfold entries. now rewrite Ho1 by congruence.
    + intros g Hg. cbn [flat_map names] in Hg.
      assert (g <> f /\ ~ In g (flat_map names sub) /\ ~ In g (flat_map names cs)) as (G1 & G2 & G3).
      { repeat split; intros C; apply Hg; [left; congruence|right; apply in_or_app; now left|].
        right. apply in_or_app. now right. }
      rewrite Hn4 by exact G3. cbn [m3 m_func]. rewrite dget_dset.
      destruct (Nat.eqb_spec f g); [congruence|]. rewrite Hn2' by exact G2. now apply Ho1.
    + rewrite Hs4. rewrite (own_sum_dsum m3). cbn [m3 m_func]. rewrite (dsum_dset _ _ _ _ Hd2).
      rewrite <- own_sum_dsum, Hs2, Hs1, durs_cons. unfold zsum. cbn [snd fold_right]. lia.
Qed.

(* C46: for every forest of calls without recursion, no error occurs, the timer of
   every function holds exactly its calls with their durations and own times, the
   own times of all functions add up to the time of the outermost calls (kept in
   the root), and the current node is the root again. *)
Theorem C46_own_times cs : nonrecs cs ->
  exists m, run mon0 (flat_map events cs) = Some m /\
    m_path m = [durs cs] /\
    (forall f, entries m f = of f (flat_map calls cs)) /\
    zsum (map (fun p => snd (snd p)) (data m)) = durs cs.
Proof.
  intros H. destruct (run_calls _ cs mon0 (le_n _) H) as (m & E & (p & up & H1 & H2) & He & _ & _ & Hs).
  - discriminate.
  - intros f tot own. discriminate.
  - exists m. split; [exact E|]. injection H1 as <- <-. split; [now rewrite H2|].
    split; [intros f; rewrite He; reflexivity|]. exact Hs.
Qed.

(* With increasing clock values all durations and own times are nonnegative. *)
Fixpoint seqd (lo : Z) (cs : list call) (hi : Z) : Prop :=
  match cs with
  | [] => (lo <= hi)%Z
  | Call _ a _ b :: r => (lo <= a <= b)%Z /\ seqd b r hi
  end.
Fixpoint clocked (c : call) : Prop :=
  let '(Call _ t0 sub t1) := c in
  seqd t0 sub t1 /\ fold_right (fun c P => clocked c /\ P) True sub.
Lemma seqd_durs cs : forall lo hi, seqd lo cs hi -> (0 <= durs cs <= hi - lo)%Z.
Proof.
  induction cs as [|[f a sub b] cs IH]; intros lo hi; [cbn; unfold durs; cbn; lia|].
  cbn [seqd]. intros [H1 H2]. apply IH in H2. rewrite durs_cons. lia.
Qed.
Lemma calls_nonneg : forall n cs, list_sum (map csize cs) <= n -> fold_right (fun c P => clocked c /\ P) True cs ->
  Forall (fun p => 0 <= snd (snd p) <= fst (snd p))%Z (flat_map calls cs).
Proof.
  induction n as [|n IH]; intros cs Hn H.
  - destruct cs as [|[g a sub b] cs]; [constructor|cbn in Hn; lia].
  - induction cs as [|[g a sub b] cs IHc]; [constructor|].
    cbn [fold_right clocked] in H. destruct H as [[H1 H2] H3]. rewrite csize_cons in Hn.
    cbn [flat_map calls]. apply Forall_app. split; [|apply IHc; [lia|exact H3]].
    constructor; [|apply IH; [lia|exact H2]]. cbn [fst snd].
    apply seqd_durs in H1. unfold durs in H1. lia.
Qed.
Theorem C46_nonneg cs lo hi m : nonrecs cs -> seqd lo cs hi -> fold_right (fun c P => clocked c /\ P) True cs ->
  run mon0 (flat_map events cs) = Some m ->
  (forall f p, In p (entries m f) -> 0 <= snd p <= fst p)%Z /\
  (0 <= zsum (map (fun p => snd (snd p)) (data m)) <= hi - lo)%Z.
Proof.
  intros Hr Hs Hc E. destruct (C46_own_times cs Hr) as (m' & E' & _ & He & Ho).
  rewrite E in E'. injection E' as <-. split.
  - intros f p Hp. rewrite He in Hp. pose proof (calls_nonneg _ cs (le_n _) Hc) as HF.
    unfold of in Hp. apply in_map_iff in Hp. destruct Hp as (q & <- & Hq). apply filter_In in Hq.
    rewrite Forall_forall in HF. exact (HF q (proj1 Hq)).
  - rewrite Ho. now apply seqd_durs.
Qed.

(* Recursion: the entry of the outer call is lost (its start stays in the list)
   and the own times no longer add up, already for one function calling itself. *)
Theorem C46_recursion_refuted : exists c m, clocked c /\ run mon0 (events c) = Some m /\
  zsum (map (fun p => snd (snd p)) (data m)) <> dur c /\
  exists p, In p (entries m 0) /\ (snd p > dur c)%Z.
Proof.
  exists (Call 0 10 [Call 0 11 [] 12] 13)%Z. eexists.
  split; [cbn; lia|]. split; [reflexivity|]. split; [cbn; lia|].
  exists (12, 11)%Z. split; [right; left; reflexivity|]. cbn. lia.
Qed.
(* An exception caught by the caller: 1 calls 2, which raises at once; the time of
   1 is then added to the node of 2 and the own time is computed from it; the
   current node is not the root at the end. *)
Theorem C46_exception_refuted : exists es m, es = [Start 1 0; Start 2 5; Stop 1 9]%Z /\
  run mon0 es = Some m /\ length (m_path m) = 2 /\
  exists p, In p (entries m 2) /\ fst p = 5%Z /\ m_path m = [9; 0]%Z.
Proof.
  eexists. eexists. split; [reflexivity|]. split; [reflexivity|]. split; [reflexivity|].
  exists (5, 0)%Z. cbn. auto.
Qed.

(* one_time_step (1) calling transport (2) and relaxation (3) twice. *)
Definition cs_ex : list call :=
  [Call 1 0 [Call 2 1 [] 4; Call 3 5 [] 9] 10; Call 1 20 [Call 2 20 [Call 4 21 [] 22] 25; Call 3 26 [] 29] 31]%Z.
Example C46_ex : nonrecs cs_ex /\ seqd 0 cs_ex 31 /\
  option_map data (run mon0 (flat_map events cs_ex)) =
    Some [(1, (2, 21%Z, 6%Z)); (2, (2, 8%Z, 7%Z)); (3, (2, 7%Z, 7%Z)); (4, (1, 1%Z, 1%Z))].
Proof. split; [cbn; intuition discriminate|]. split; [cbn; lia|reflexivity]. Qed.

Print Assumptions C46_own_times.
Print Assumptions C46_nonneg.
Print Assumptions C46_recursion_refuted.
Print Assumptions C46_exception_refuted.
