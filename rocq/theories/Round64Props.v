(* C92 in binary64: an example, and what is lost with rounded numbers. *)
From Coq Require Import QArith.
From Coq.Floats Require Import SpecFloat.
From Verif Require Import PyBase VelocityModel VelocityProofs Velocity3Proofs StencilModel StencilProofs GridModel GridProofs StorageModel
  ExchangeProofs StorageProps LinAlg AlgoModel AlgoProofs RelVelProofs KernelProofs GlobalModel GlobalProofs TorusProofs AlgoProps GlobalProps
  GenModel GenProofs GenProps StepGenModel StepGenProofs StepGenProps
  DomainModel DomainProofs DomainProps BoundaryModel BoundaryProofs BoundaryProps BoundaryUpdProps
  VesselProofs VesselProps ChannelProps ParallelModel ParallelProofs ObstacleProofs ParallelProps ObstacleProps ParallelMassProps WholeModel WholeProps
  RoundModel RoundProofs RoundProps.
Require Import Lia.
Open Scope Z_scope.

(* The velocities 1, -1, the moments f0 + f1 (conserved) and f0 - f1; the equilibrium of the
   second one is eq * m0, its parameter s. *)
Definition one64 : B64 := of_Z64 1.
Definition half64 : B64 := dyadic64 1 (-1).
Definition tenth64 : B64 := dyadic64 7205759403792794 (-56).
Definition m64 (l : list (list B64)) (i j : nat) : B64 := nth j (nth i l []) (S754_zero false).
Definition sch64 (s eq : B64) : salgo B64 :=
  mkSalgo B64 2 1 1 (m64 [[one64; one64]; [one64; SFopp one64]]) (m64 [[half64; half64]; [half64; SFopp half64]])
    (fun i j => Num (K := B64) (if Nat.eqb i j then one64 else S754_zero false))
    (fun k => match k with O => Var 0 | _ => Bin (K := B64) mul64 (Num (K := B64) eq) (Var 0) end)
    (fun k => Num (K := B64) (match k with O => S754_zero false | _ => s end)) None [] half64.
Lemma sch64_ok s eq : scheme_ok B64 (sch64 s eq) /\ numpy_ok B64 (sch64 s eq).
Proof.
  split; constructor; cbn; try discriminate.
  - lia.
  - intros k Hk i Hi. destruct k as [|k]; cbn in Hi; lia.
  - intros k Hk. destruct k; [reflexivity|lia].
  - intros k Hk i [].
  - intros i j _ _ k [].
  - intros k g [].
  - reflexivity.
Qed.

(* ------------------------------------------------- the same bits on one and on two processes *)
Definition F64 p : fields B64 := fun c i k => mul64 tenth64 (of_Z64 (10 * (globc (proc_axes (sline 6) [p]) c i)@0 + Z.of_nat k)).
Definition phi64 (_ : nat) (_ : Z) (_ : list Q) (_ : nat) : B64 := S754_zero false.
Definition sp64 : list (sstmt B64) := spull B64 (sch64 tenth64 tenth64).
Definition cy64 p t : fields B64 := fst (cy_all [[1; 2]] sst [1; 0] (sline 6) B64 (fun _ => one64) sp64 0 [p] (links_at sst (sline 6) wall34 [5] bb [p]) phi64 (fun _ _ => S754_nan) t (F64 p, F64 p)).
Definition np64 p t : fields B64 := fst (np_all [[1; 2]] sst [1; 0] (sline 6) B64 (fun _ => one64) sp64 0 [p] (links_at sst (sline 6) wall34 [5] bb [p]) phi64 t (F64 p, F64 p)).
Lemma parallel64 p : In p [1; 2]%nat -> parallel sst (sline 6) wall34 [5] bb [p] (dom_at (sline 6) wall34 [p]) (links_at sst (sline 6) wall34 [5] bb [p]).
Proof.
  intros [<-|[<-|[]]]; [|exact wparallel].
  eapply C57_exists; [exact mserial|apply sok; cbn; auto; lia|]. right. intros c Hc.
  assert (E : c = [0%nat]).
  { pose proof (Forall2_length _ _ _ Hc) as L. destruct c as [|c0 [|c1 c]]; try discriminate. inversion Hc as [|? ? ? ? H0 H3]. cbn in H0. destruct c0; [reflexivity|lia]. }
  subst c. split.
  - split; [reflexivity|]. split.
    + intros d Hd. assert (d = 0%nat) as -> by (cbn in Hd; lia). vm_compute. split; (discriminate || reflexivity).
    + intros v d Hv Hd. assert (d = 0%nat) as -> by (cbn in Hd; lia). cbn in Hv. destruct Hv as [<-|[<-|[]]]; vm_compute; discriminate.
  - intros e [<-|[]] d Hd. assert (d = 0%nat) as -> by (cbn in Hd; lia). left. vm_compute. reflexivity.
Qed.
Example C92_example : kernel_ok B64 2 sp64 /\ kernel_numpy B64 sp64 /\
  serial 1 [[1; 2]] sst [1; 0] (sline 6) wall34 [5] bb (sD 6 wall34) mms /\ quiet sst [1; 0] (sline 6) mms /\
  (forall p, In p [1; 2]%nat -> parallel sst (sline 6) wall34 [5] bb [p] (dom_at (sline 6) wall34 [p]) (links_at sst (sline 6) wall34 [5] bb [p])) /\
  (* the cell 4: the cell 5 of one process, the cell 2 of the second of two *)
  cy64 1 1 [0%nat] [5] 0%nat = cy64 2 1 [1%nat] [2] 0%nat /\ np64 1 1 [0%nat] [5] 0%nat = cy64 2 1 [1%nat] [2] 0%nat /\
  np64 2 1 [1%nat] [2] 0%nat = cy64 2 1 [1%nat] [2] 0%nat /\
  cy64 1 1 [0%nat] [5] 0%nat = S754_finite false 4724276009111651 (-50).
Proof.
  destruct (sch64_ok tenth64 tenth64) as [S N]. split; [exact (C92_pull B64 (sch64 tenth64 tenth64) S)|]. split; [exact (proj1 (C92_numpy B64 (sch64 tenth64 tenth64) S N))|].
  split; [exact mserial|]. split.
  { eapply C57_quiet; [exact mserial|]. intros m b (L & HL & _). apply (in_map fst) in HL. vm_compute in HL. unfold simple. intuition. }
  split; [exact parallel64|]. split; [vm_compute; reflexivity|]. split; [vm_compute; reflexivity|]. split; [vm_compute; reflexivity|]. vm_compute. reflexivity.
Qed.

(* ------------------------------------------------- what is lost *)
(* The exact sum of all the values of the inner cells. *)
Definition qplus (x y : option Q) : option Q := match x, y with Some x, Some y => Some (x + y)%Q | _, _ => None end.
Definition exact_sum (axes : list axis) (cs : list (list nat)) (n : nat) (F : fields B64) : option Q :=
  fold_right (fun c acc => fold_right (fun i acc => fold_right (fun k acc => qplus (to_Q (F c i k)) acc) acc (seq 0 n)) acc (loop_cells axes c)) (Some 0%Q) cs.
(* C63_conservation holds for exact numbers.  Here all its conditions but the laws of a ring
   hold, in binary64: the mass is not constant, with both back ends. *)
Definition ax64 : list axis := [mkAxis 4 1 1].
Definition vel64 (k : nat) : list Z := match k with O => [1] | _ => [-1] end.
Definition G64 : fields B64 := fun _ _ k => match k with O => one64 | _ => dyadic64 1 (-53) end.
Theorem C92_mass_refuted : exists (a : salgo B64) axes vel cs (F : fields B64) (q q' : Q),
  scheme_ok B64 a /\ numpy_ok B64 a /\ GlobalProps.fits axes vel (sa_n B64 a) /\ Forall (fun x => 0 < ax_n x) axes /\
  Forall (fun x => forall c, (c < ax_p x)%nat -> ax_lo x c < ax_hi x c) axes /\
  sa_source B64 a = [] /\ sa_relvel B64 a = None /\ inverse (sa_n B64 a) (sa_M B64 a) (sa_invM B64 a) /\ (forall j, (j < sa_n B64 a)%nat -> sa_M B64 a 0%nat j = one64) /\ (0 < sa_nc B64 a)%nat /\
  NoDup cs /\ (forall c, In c cs <-> coords_ok axes c) /\
  exact_sum axes cs (sa_n B64 a) F = Some q /\
  exact_sum axes cs (sa_n B64 a) (fst (gen_two B64 0 axes (cython_program B64 a 0 axes vel) (fun _ => S754_zero false) (F, F))) = Some q' /\
  exact_sum axes cs (sa_n B64 a) (fst (gen_one B64 0 axes (sa_n B64 a) (numpy_program B64 a 0 axes vel) (F, F))) = Some q' /\ ~ (q == q')%Q.
Proof.
  destruct (sch64_ok (S754_zero false) (S754_zero false)) as [S N].
  exists (sch64 (S754_zero false) (S754_zero false)), ax64, vel64, [[0%nat]], G64. eexists. eexists.
  split; [exact S|]. split; [exact N|]. split; [|split; [|split; [|split; [reflexivity|split; [reflexivity|split; [|split; [|split; [|split; [|split; [|split; [vm_compute; reflexivity|split; [vm_compute; reflexivity|split; [vm_compute; reflexivity|vm_compute; discriminate]]]]]]]]]]]]].
  - split; [cbn; lia|]. split.
    + constructor; [|constructor]. repeat split; try (cbn; lia). cbn. intros [|c] Hc; [vm_compute; discriminate|lia].
    + intros k Hk. split; [destruct k; reflexivity|]. intros [|d] Hd; cbn in Hd; [|lia]. destruct k; cbn; lia.
  - repeat constructor.
  - repeat constructor. cbn. intros [|c] Hc; [vm_compute; reflexivity|lia].
  - split; intros i j Hi Hj; cbn in Hi, Hj; destruct i as [|[|i]], j as [|[|j]]; try lia; vm_compute; reflexivity.
  - intros j Hj. cbn in Hj. destruct j as [|[|j]]; try lia; reflexivity.
  - cbn. lia.
  - repeat constructor. intros [].
  - intros c. split.
    + intros [<-|[]]. repeat constructor.
    + intros Hc. pose proof (Forall2_length _ _ _ Hc) as L. destruct c as [|c0 [|c1 c]]; try discriminate. inversion Hc as [|? ? ? ? H0 H3]. cbn in H0. destruct c0; [now left|lia].
Qed.
Print Assumptions C92_mass_refuted.

(* The coordinates of domain.py: dx = 0.2, five cells of [0, 1]; the middle cell has the
   coordinate 0.5000000000000001 on one process and 0.5 on the second of three. *)
Definition fifth64 : f64 := dyadic64 7205759403792794 (-55).
Theorem C92_coordinates_refuted : exists lo dx n h p p' c i c' i',
  let x := mkAxis n p h in let x' := mkAxis n p' h in
  ax_ok x /\ ax_ok x' /\ coords_ok [x] [c] /\ coords_ok [x'] [c'] /\ inner [x] [c] [i] /\ inner [x'] [c'] [i'] /\
  globc [x] [c] [i] = globc [x'] [c'] [i'] /\ coord64 lo dx x c i <> coord64 lo dx x' c' i' /\
  (* the exact coordinates are equal *)
  (0 + (1 # 5) * inject_Z ((globc [x] [c] [i])@0) + (1 # 10) == 1 # 2)%Q.
Proof.
  exists (S754_zero false), fifth64, 5, 1, 1%nat, 3%nat, 0%nat, 3, 1%nat, 1. cbv zeta.
  split; [|split; [|split; [|split; [|split; [|split; [|split; [vm_compute; reflexivity|split; [vm_compute; discriminate|vm_compute; reflexivity]]]]]]]].
  - repeat split; try (cbn; lia). cbn. intros [|c] Hc; [vm_compute; discriminate|lia].
  - repeat split; try (cbn; lia). cbn. intros [|[|[|c]]] Hc; [vm_compute; discriminate..|lia].
  - repeat constructor.
  - repeat constructor.
  - split; [reflexivity|]. intros [|d] Hd; cbn in Hd; [vm_compute; split; (discriminate || reflexivity)|lia].
  - split; [reflexivity|]. intros [|d] Hd; cbn in Hd; [vm_compute; split; (discriminate || reflexivity)|lia].
Qed.
Print Assumptions C92_coordinates_refuted.
(* The circle of centre (0.25, 0.5) and radius 0.25: the middle cell of five times five is
   outside with one process, inside with three along x. *)
Theorem C92_edge_refuted : exists lo dx n h p p' c i c' i' cx cy radius,
  let x := mkAxis n p h in let x' := mkAxis n p' h in let y := mkAxis n 1 h in
  ax_ok x /\ ax_ok x' /\ ax_ok y /\ inner [x] [c] [i] /\ inner [x'] [c'] [i'] /\ globc [x] [c] [i] = globc [x'] [c'] [i'] /\
  circle64 cx cy radius (coord64 lo dx x c i) (coord64 lo dx y 0 i) = false /\ circle64 cx cy radius (coord64 lo dx x' c' i') (coord64 lo dx y 0 i) = true.
Proof.
  exists (S754_zero false), fifth64, 5, 1, 1%nat, 3%nat, 0%nat, 3, 1%nat, 1, (dyadic64 1 (-2)), (dyadic64 1 (-1)), (dyadic64 1 (-2)). cbv zeta.
  split; [|split; [|split; [|split; [|split; [|split; [vm_compute; reflexivity|split; vm_compute; reflexivity]]]]]].
  - repeat split; try (cbn; lia). cbn. intros [|c] Hc; [vm_compute; discriminate|lia].
  - repeat split; try (cbn; lia). cbn. intros [|[|[|c]]] Hc; [vm_compute; discriminate..|lia].
  - repeat split; try (cbn; lia). cbn. intros [|c] Hc; [vm_compute; discriminate|lia].
  - split; [reflexivity|]. intros [|d] Hd; cbn in Hd; [vm_compute; split; (discriminate || reflexivity)|lia].
  - split; [reflexivity|]. intros [|d] Hd; cbn in Hd; [vm_compute; split; (discriminate || reflexivity)|lia].
Qed.
Print Assumptions C92_edge_refuted.
