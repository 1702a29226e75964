(* C86: the values of a simulation with a relative velocity. *)
From Coq Require Import QArith.
From Verif Require Import PyBase VelocityModel VelocityProofs Velocity3Proofs StencilModel StencilProofs GridModel GridProofs StorageModel
  ExchangeProofs StorageProps LinAlg AlgoModel AlgoProofs RelVelProofs KernelProofs GlobalModel GlobalProofs TorusProofs AlgoProps GlobalProps
  GenModel GenProofs GenProps StepGenModel StepGenProofs StepGenProps SchemeModel SchemeProofs SchemeProps BuildModel BuildProofs BuildProps BuildFrame
  DomainModel DomainProofs DomainProps BoundaryModel BoundaryProofs BoundaryProps BoundaryUpdProps VesselProofs VesselProps ChannelProps
  ParallelModel ParallelProofs ObstacleProofs ParallelProps ObstacleProps ParallelMassProps WholeModel WholeProps InitGenModel InitGenProps DuctProps FlowProofs FlowProps MovingProps.
Require Import Lia.
Open Scope Z_scope.

(* the simulation of C86_example *)
Definition run3 (be : backend) (t : nat) : option (Z * list (list Z)) :=
  match b3 with
  | None => None
  | Some a =>
      let start be := start Zring a 0 (scheme_consm Zring (zinv cands) nosimp [d4 None]) be true v3line [2%nat] (Some [(ISym 5, ifun)]) in
      let F := fst match be with
        | Cython => cy_run st3 [0; 2; 1] v3line Zring (fun _ => 0) a 0 [2%nat] mss3 wphi (fun _ => 0) t (start Cython)
        | _ => np_run st3 [0; 2; 1] v3line Zring (fun _ => 0) a 0 [2%nat] mss3 wphi t (start Numpy) end in
      Some (fluid_total v3line [2%nat] Ds3 wcs (fun f : vec Zring => mom Zring [d4 None] f 0 1) F, map (fun p => map (F [fst p] [snd p]) [0; 1; 2]%nat) [(0%nat, 1); (0%nat, 2); (0%nat, 3); (1%nat, 1); (1%nat, 2); (1%nat, 3)])
  end.
(* The states change, the total of the density remains 210; the cells which touch no wall also have
   another density than at the start. *)
Example C86_values :
  run3 Cython 0 = Some (210, [[-170; 100; 80]; [-740; 400; 360]; [-1710; 900; 840]; [-3080; 1600; 1520]; [-4850; 2500; 2400]; [-7020; 3600; 3480]]) /\
  run3 Cython 1 = Some (210, [[153810; -76500; -77040]; [299080; -149240; -149640]; [474910; -237140; -237560]; [666340; -332840; -333280]; [873370; -436340; -436800]; [-2023240; 1010240; 1012080]]) /\
  run3 Numpy 1 = Some (210, [[153810; -76500; -77040]; [299080; -149240; -149640]; [474910; -237140; -237560]; [666340; -332840; -333280]; [873370; -436340; -436800]; [-2023240; 1010240; 1012080]]).
Proof. repeat split; vm_compute; reflexivity. Qed.
