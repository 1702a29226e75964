(* Property C83: processes which run at their own pace compute what they compute with a common
   clock, and none of them waits for ever. *)
From Verif Require Import PyBase GridModel GridProofs StorageModel ExchangeProofs AsyncModel AsyncProofs.
Open Scope Z_scope.

(* hypotheses: the axes of C12; eqM, eqV are the equalities of the private memories and of the contents
   of a cell; the computations depend only on the values in the memories *)
Definition program_ok {V M : Type} (axes : list axis) (eqM : M -> M -> Prop) (eqV : V -> V -> Prop) (prog : list (item (V := V) (M := M))) : Prop :=
  (length axes <= 3)%nat /\ Forall ax_ok axes /\ (forall m, eqM m m) /\ (forall v, eqV v v) /\ (forall u v w, eqV u v -> eqV v w -> eqV u w) /\
  Forall (item_ok axes eqM eqV) prog.
Definition of_processes (axes : list axis) (es : list (proc * event)) : Prop := Forall (fun ce => coords_ok axes (fst ce)) es.

(* an execution which cannot go on is complete, and its result is that of the common clock *)
Theorem C83_result : forall V M axes eqM eqV (prog : list (item (V := V) (M := M))) S es st,
  program_ok axes eqM eqV prog -> of_processes axes es -> execution axes prog (start S) es = Some st ->
  (forall c e, coords_ok axes c -> step axes prog st c e = None) ->
  forall c, coords_ok axes c -> pc st c = length prog /\ eqmem axes eqM eqV (mem st c) (sync axes prog S c).
Proof.
  intros V M axes eqM eqV prog S es st (Hd & Ha & Hr & Hr1 & Hr2 & Hp) He Hx Hs c Hc.
  assert (Hi : inv axes eqM eqV prog S st) by (eapply execution_inv; try eassumption; now apply inv_start).
  assert (E : pc st c = length prog) by (eapply stuck_end; eassumption).
  split; [exact E|]. eapply at_end; eassumption.
Qed.
(* a process which is not in an exchange has the values of the common clock, wherever the others are *)
Theorem C83_any_time : forall V M axes eqM eqV (prog : list (item (V := V) (M := M))) S es st,
  program_ok axes eqM eqV prog -> of_processes axes es -> execution axes prog (start S) es = Some st ->
  forall c, coords_ok axes c -> (forall j, got st c j = false) -> eqmem axes eqM eqV (mem st c) (sync axes (firstn (pc st c) prog) S c).
Proof.
  intros V M axes eqM eqV prog S es st (Hd & Ha & Hr & Hr1 & Hr2 & Hp) He Hx c Hc Hg.
  assert (Hi : inv axes eqM eqV prog S st) by (eapply execution_inv; try eassumption; now apply inv_start).
  eapply at_any_time in Hi; eassumption.
Qed.
(* every execution ends: each process has a bounded number of events *)
Theorem C83_ends : forall V M axes eqM eqV (prog : list (item (V := V) (M := M))) S es st,
  program_ok axes eqM eqV prog -> of_processes axes es -> execution axes prog (start S) es = Some st ->
  forall c, (events_of c es <= 5 * length prog)%nat.
Proof.
  intros V M axes eqM eqV prog S es st (Hd & Ha & Hr & Hr1 & Hr2 & Hp) He Hx c.
  assert (Hi : inv axes eqM eqV prog S st) by (eapply execution_inv; try eassumption; now apply inv_start).
  pose proof (execution_work axes prog es (start S) st c Hx) as H1. assert (H2 : (work st c <= 5 * length prog)%nat) by (eapply work_bound; eassumption). lia.
Qed.
Lemma events_cons c c' e es : events_of c' ((c, e) :: es) = ((if proc_dec c c' then 1 else 0) + events_of c' es)%nat.
Proof. unfold events_of. cbn [filter fst]. now destruct (proc_dec c c'). Qed.
Fixpoint total (ps : list proc) (es : list (proc * event)) : nat := match ps with [] => 0 | c :: ps' => events_of c es + total ps' es end.
Lemma total_cons c e es ps : (total ps es <= total ps ((c, e) :: es))%nat /\ (In c ps -> (S (total ps es) <= total ps ((c, e) :: es))%nat).
Proof.
  induction ps as [|a ps [IH1 IH2]]; cbn [total]; [split; [lia|intros []]|]. rewrite events_cons. split; [lia|].
  destruct (proc_dec c a) as [|Hne]; [lia|]. intros [->|Hi]; [congruence|]. specialize (IH2 Hi). lia.
Qed.
Lemma events_total ps es : Forall (fun ce : proc * event => In (fst ce) ps) es -> (length es <= total ps es)%nat.
Proof.
  induction es as [|[c e] es IH]; intros H; [cbn; lia|]. inversion H as [|x y Hc Hes]; subst. specialize (IH Hes).
  destruct (total_cons c e es ps) as [_ H1]. specialize (H1 Hc). cbn [length]. lia.
Qed.
Theorem C83_total : forall V M axes eqM eqV (prog : list (item (V := V) (M := M))) S es st ps,
  program_ok axes eqM eqV prog -> of_processes axes es -> (forall c, coords_ok axes c -> In c ps) -> execution axes prog (start S) es = Some st ->
  (length es <= length ps * (5 * length prog))%nat.
Proof.
  intros V M axes eqM eqV prog S es st ps Hp He Hps Hx.
  assert (H : (length es <= total ps es)%nat).
  { apply events_total. unfold of_processes in He. rewrite Forall_forall in *. intros ce Hce. apply Hps, He, Hce. }
  pose proof (fun c => C83_ends V M axes eqM eqV prog S es st Hp He Hx c) as Hb. clear - H Hb.
  enough (total ps es <= length ps * (5 * length prog))%nat by lia. clear H.
  induction ps as [|a l IH]; cbn [total length]; [lia|]. specialize (Hb a). lia.
Qed.
(* one call of update: the values of C12 *)
Lemma sync_exchanges V M axes ds : forall (S : proc -> memory (V := V) (M := M)) c, eqA axes eq (snd (sync axes (map Exch ds) S c))
  (fold_left (fun A d => exchange axes d A) ds (fun c => snd (S c)) c).
Proof.
  induction ds as [|d ds IH]; intros S c; [intros i _; reflexivity|]. cbn [map]. unfold sync in *. cbn [fold_left]. apply IH.
Qed.
Theorem C83_update : forall V M axes (S : proc -> memory (V := V) (M := M)) es st,
  (length axes <= 3)%nat -> Forall ax_ok axes -> of_processes axes es ->
  let prog := map Exch (seq 0 (length axes)) in
  execution axes prog (start S) es = Some st -> (forall c e, coords_ok axes c -> step axes prog st c e = None) ->
  forall c i, coords_ok axes c -> length i = length axes -> snd (mem st c) i = update axes (fun c => snd (S c)) c i.
Proof.
  intros V M axes S es st Hd Ha He prog Hx Hs c i Hc Hi.
  assert (Hp : program_ok axes (fun _ _ : M => True) (@eq V) prog).
  { split; [exact Hd|]. split; [exact Ha|]. split; [auto|]. split; [auto|]. split; [congruence|]. subst prog. rewrite Forall_forall. intros it Hit. apply in_map_iff in Hit. destruct Hit as [d [<- Hd']].
    apply in_seq in Hd'. cbn. lia. }
  destruct (C83_result V M axes _ _ prog S es st Hp He Hx Hs c Hc) as [_ [_ H]]. rewrite (H i Hi). exact (sync_exchanges V M axes _ S c i Hi).
Qed.

(* ---- examples ---- two processes, 4 cells, one ghost cell on each side; a time step x <- x + low
   ghost after each update *)
Definition axis2 : axis := mkAxis 4 2 1.
Definition prog2 : list (item (V := Z) (M := unit)) :=
  [Exch 0; Loc (fun _ x => (fst x, fun i => snd x i + snd x (map Z.pred i))); Exch 0; Loc (fun _ x => (fst x, fun i => snd x i + snd x (map Z.pred i)))].
Definition S2 : proc -> memory (V := Z) (M := unit) := fun c => (tt, fun i => match c, i with [k], [x] => if (1 <=? x) && (x <=? 2) then 10 * Z.of_nat k + x else 99 | _, _ => 0 end).
(* one process runs ahead: the second one sends its first two messages, then the first one goes to
   its second exchange before the second one has received anything *)
Definition es2 : list (proc * event) :=
  let p := [0%nat] in let q := [1%nat] in
  [(q, ESend 1); (p, ESend 1); (q, ESend 0); (p, ERecv 1); (p, ESend 0); (p, ERecv 0); (p, ENext); (p, ENext); (p, ESend 0); (p, ESend 1);
   (q, ERecv 0); (q, ERecv 1); (q, ENext); (q, ENext); (q, ERecv 1); (q, ERecv 0); (q, ESend 0); (q, ESend 1); (q, ENext); (p, ERecv 0); (q, ENext); (p, ERecv 1); (p, ENext); (p, ENext)].
Lemma axis2_ok : Forall ax_ok [axis2].
Proof. constructor; [|constructor]. split; [cbn; lia|]. split; [cbn; lia|]. split; [cbn; lia|]. intros [|[|c]] Hc; cbn in Hc |- *; try lia; vm_compute; discriminate. Qed.
Lemma prog2_ok : program_ok [axis2] eq eq prog2.
Proof.
  split; [cbn; lia|]. split; [exact axis2_ok|]. split; [auto|]. split; [auto|]. split; [congruence|].
  assert (H : item_ok (V := Z) [axis2] (@eq unit) (@eq Z) (Loc (fun _ x => (fst x, fun i => snd x i + snd x (map Z.pred i))))).
  { intros c x y [H1 H2]. split; [exact H1|]. intros i Hi. cbn [snd]. rewrite (H2 i Hi), (H2 (map Z.pred i)); [reflexivity|]. rewrite map_length. exact Hi. }
  constructor; [cbn; lia|]. constructor; [exact H|]. constructor; [cbn; lia|]. constructor; [exact H|]. constructor.
Qed.
Definition inside (st : option (astate (V := Z) (M := unit))) : list (list Z) :=
  match st with Some st => map (fun c => map (fun x => snd (mem st c) [x]) [1; 2]) [[0%nat]; [1%nat]] | None => [] end.
Example C83_example : program_ok [axis2] eq eq prog2 /\ of_processes [axis2] es2 /\
  inside (execution [axis2] prog2 (start S2) es2) = map (fun c => map (fun x => snd (sync [axis2] prog2 S2 c) [x]) [1; 2]) [[0%nat]; [1%nat]] /\
  inside (execution [axis2] prog2 (start S2) es2) = [[36; 16]; [16; 36]] /\
  (* a receive before its message is not possible *)
  execution [axis2] prog2 (start S2) [([0%nat], ERecv 0)] = None.
Proof.
  split; [exact prog2_ok|]. split.
  { unfold of_processes, es2. repeat (constructor; [constructor; [cbn; lia|constructor]|]). constructor. }
  split; [vm_compute; reflexivity|]. split; [vm_compute; reflexivity|]. vm_compute; reflexivity.
Qed.
(* fewer cells than ghost cells: the cells which are sent are received at the same time, the result
   depends on the pace of the processes *)
Definition thin : axis := mkAxis 2 2 2.
Definition S3 : proc -> memory (V := Z) (M := unit) := fun c => (tt, fun i => match c, i with [k], [x] => 10 * Z.of_nat k + x | _, _ => 0 end).
Definition read (st : option (astate (V := Z) (M := unit))) (c : proc) (i : list Z) : option (nat * Z) := option_map (fun s => (pc s c, snd (mem s c) i)) st.
Lemma read_some st c i p v : read st c i = Some (p, v) -> exists s, st = Some s /\ pc s c = p /\ snd (mem s c) i = v.
Proof. destruct st as [s|]; [|discriminate]. intros [= <- <-]. now exists s. Qed.
Theorem C83_thin_refuted : exists axes (prog : list (item (V := Z) (M := unit))) S es es',
  (length axes <= 3)%nat /\ Forall (fun a => 0 <= ax_n a /\ (1 <= ax_p a)%nat /\ 0 <= ax_h a) axes /\ of_processes axes es /\ of_processes axes es' /\
  exists st st' c i, execution axes prog (start S) es = Some st /\ execution axes prog (start S) es' = Some st' /\ coords_ok axes c /\ length i = length axes /\
    pc st c = length prog /\ pc st' c = length prog /\ snd (mem st c) i <> snd (mem st' c) i.
Proof.
  set (p := [0%nat]). set (q := [1%nat]).
  exists [thin], [Exch 0], S3,
    [(p, ESend 0); (p, ESend 1); (q, ESend 0); (q, ESend 1); (p, ERecv 0); (p, ERecv 1); (q, ERecv 0); (q, ERecv 1); (p, ENext); (q, ENext)],
    [(q, ESend 0); (q, ESend 1); (p, ERecv 0); (p, ERecv 1); (p, ESend 0); (p, ESend 1); (q, ERecv 0); (q, ERecv 1); (p, ENext); (q, ENext)].
  split; [cbn; lia|]. split; [repeat constructor; cbn; lia|].
  split; [unfold of_processes; repeat (constructor; [constructor; [cbn; lia|constructor]|]); constructor|].
  split; [unfold of_processes; repeat (constructor; [constructor; [cbn; lia|constructor]|]); constructor|].
  assert (H1 : forall es1, es1 = [(p, ESend 0); (p, ESend 1); (q, ESend 0); (q, ESend 1); (p, ERecv 0); (p, ERecv 1); (q, ERecv 0); (q, ERecv 1); (p, ENext); (q, ENext)] ->
    read (execution [thin] [Exch 0] (start S3) es1) q [4] = Some (1%nat, 3)) by (intros es1 ->; vm_compute; reflexivity).
  assert (H2 : forall es1, es1 = [(q, ESend 0); (q, ESend 1); (p, ERecv 0); (p, ERecv 1); (p, ESend 0); (p, ESend 1); (q, ERecv 0); (q, ERecv 1); (p, ENext); (q, ENext)] ->
    read (execution [thin] [Exch 0] (start S3) es1) q [4] = Some (1%nat, 12)) by (intros es1 ->; vm_compute; reflexivity).
  specialize (H1 _ eq_refl). specialize (H2 _ eq_refl). apply read_some in H1, H2. destruct H1 as [st [E1 [P1 V1]]]. destruct H2 as [st' [E2 [P2 V2]]].
  exists st, st', q, [4]. split; [exact E1|]. split; [exact E2|]. split; [constructor; [cbn; lia|constructor]|]. split; [reflexivity|].
  split; [exact P1|]. split; [exact P2|]. rewrite V1, V2. discriminate.
Qed.
Print Assumptions C83_result.
Print Assumptions C83_any_time.
Print Assumptions C83_ends.
Print Assumptions C83_total.
Print Assumptions C83_update.
Print Assumptions C83_thin_refuted.
