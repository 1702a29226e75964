-Q theories Verif
theories/PyBase.v
theories/VelocityModel.v
theories/VelocityProofs.v
theories/PermuteProofs.v
theories/Velocity3Proofs.v
theories/VelocityProps.v
theories/StencilModel.v
theories/StencilProofs.v
theories/StencilProps.v
theories/GridModel.v
theories/GridProofs.v
theories/GridProps.v
theories/StorageModel.v
theories/StorageProofs.v
theories/ExchangeProofs.v
theories/StorageProps.v
theories/LinAlg.v
theories/SchemeModel.v
theories/SchemeProofs.v
theories/SchemeProps.v
theories/AlgoModel.v
theories/AlgoProofs.v
theories/RelVelProofs.v
theories/GlobalModel.v
theories/GlobalProofs.v
theories/KernelProofs.v
theories/TorusProofs.v
theories/AlgoProps.v
theories/GlobalProps.v
theories/SimModel.v
theories/SimProofs.v
theories/SimProps.v
theories/TransformModel.v
theories/TransformProps.v
theories/EquivModel.v
theories/EquivProps.v
theories/Equiv2Model.v
theories/Equiv2Proofs.v
theories/Equiv2Props.v
theories/Equiv2Example.v
theories/UtilsModel.v
theories/UtilsProps.v
theories/MonitorModel.v
theories/MonitorProps.v
theories/GeometryModel.v
theories/GeometryProps.v
theories/DomainModel.v
theories/DomainProofs.v
theories/DomainProps.v
theories/BoundaryModel.v
theories/BoundaryProofs.v
theories/BoundaryProps.v
theories/BoundaryUpdProps.v
theories/BoundaryBouzidiProps.v
theories/ElementModel.v
theories/ElementProofs.v
theories/ElementLinesProofs.v
theories/ElementFrameProofs.v
theories/ElementProps.v
theories/ElementCylProofs.v
theories/ElementCylProps.v
theories/ElementNormalProps.v
theories/Hdf5Model.v
theories/Hdf5Proofs.v
theories/Hdf5Props.v
theories/StabilityModel.v
theories/StabilityProofs.v
theories/StabilityStepProofs.v
theories/StabilityListProofs.v
theories/StabilityMatrixProofs.v
theories/StabilityProps.v
theories/StabilitySchemeModel.v
theories/StabilitySchemeProofs.v
theories/StabilityWaveProofs.v
theories/StabilitySchemeProps.v
theories/StabilitySpectrumProps.v
theories/VesselProofs.v
theories/VesselProps.v
theories/ChannelProps.v
theories/ParallelModel.v
theories/ParallelProofs.v
theories/ObstacleProofs.v
theories/ParallelProps.v
theories/ObstacleProps.v
theories/ParallelMassProps.v
theories/GenModel.v
theories/GenProofs.v
theories/GenProps.v
theories/InitProps.v
theories/ParamModel.v
theories/ParamProps.v
theories/WallModel.v
theories/WallProps.v
theories/StlModel.v
theories/StlProofs.v
theories/StlProps.v
theories/StepGenModel.v
theories/StepGenProofs.v
theories/StepGenProps.v
theories/BuildModel.v
theories/BuildProofs.v
theories/BuildProps.v
theories/BuildFrame.v
theories/WholeModel.v
theories/WholeProps.v
theories/ArgsModel.v
theories/ArgsProps.v
theories/DuctProps.v
theories/InitGenModel.v
theories/InitGenProps.v
theories/LayoutModel.v
theories/LayoutProofs.v
theories/LayoutProps.v
theories/TextModel.v
theories/TextProofs.v
theories/TextProps.v
theories/FlowProofs.v
theories/FlowProps.v
theories/MovingProps.v
theories/MovingValues.v
theories/BoundsProps.v
theories/MirrorProps.v
theories/TimedModel.v
theories/TimedProofs.v
theories/TimedProps.v
theories/SourceFrame.v
theories/SourceFrameProps.v
theories/LoopyModel.v
theories/LoopyProofs.v
theories/LoopyStepProps.v
theories/LoopyGhostProps.v
theories/LoopyRunProps.v
theories/LoopyArrayProps.v
theories/ValidatorModel.v
theories/ValidatorProofs.v
theories/ValidatorProps.v
theories/AutowrapModel.v
theories/AutowrapProps.v
theories/AsyncModel.v
theories/AsyncProofs.v
theories/AsyncProps.v
theories/AsyncSimModel.v
theories/AsyncSimProofs.v
theories/AsyncSimProps.v
theories/TopologyModel.v
theories/TopologyProps.v
theories/BoundGenModel.v
theories/BoundGenProps.v
theories/RoundModel.v
theories/RoundProofs.v
theories/RoundProps.v
theories/Round64Props.v
theories/RenumberProps.v
theories/BasisProps.v
theories/NeighbourModel.v
theories/NeighbourProps.v
theories/Round64Proofs.v
theories/NearProofs.v
theories/NearProps.v
theories/CoordProps.v
theories/NearMassProps.v
theories/ContainerModel.v
theories/ContainerProps.v
theories/ReverseProps.v
theories/StaggerProps.v
theories/ShiftProps.v
theories/PassiveProps.v
theories/AloneProps.v
theories/SelectProps.v
theories/ProgressModel.v
theories/ProgressProps.v
theories/ItemModel.v
theories/ItemProps.v
