-Q theories Verif
theories/Base.v
theories/HashModel.v
theories/HandleModel.v
theories/HandleSpec.v
theories/HandleProofs.v
theories/HashSpec.v
theories/HashProofs.v
theories/HashWitness.v
theories/HashProps.v
theories/HandleProps.v
theories/BarrierModel.v
theories/BarrierProofs.v
theories/PollModel.v
theories/PollProofs.v
theories/BarrierProps.v
theories/WaitModel.v
theories/WaitSpec.v
theories/WaitProofs.v
theories/WaitProps.v
theories/PrimeModel.v
theories/PrimeSpec.v
theories/PrimeProofs.v
theories/PrimeProps.v
theories/SplitModel.v
theories/SplitProps.v
theories/TextModel.v
theories/TextProofs.v
theories/PortsModel.v
theories/PortsSpec.v
theories/PortsProofs.v
theories/PortsProps.v
theories/SchedModel.v
theories/RecursiveModel.v
theories/SchedSpec.v
theories/SchedProofs.v
theories/RecursiveArith.v
theories/CombineProofs.v
theories/RecursiveProofs.v
theories/ReduceProofs.v
theories/RecursiveSpec.v
theories/AllreduceProofs.v
theories/MatchProofs.v
theories/RecursiveProps.v
theories/CyclicModel.v
theories/CyclicSpec.v
theories/CyclicProofs.v
theories/CyclicProps.v
theories/GroupModel.v
theories/GroupSpec.v
theories/GroupProofs.v
theories/GroupLayoutProofs.v
theories/GroupProps.v
theories/PermModel.v
theories/PermProofs.v
theories/PermProps.v
theories/OffsetModel.v
theories/OffsetSpec.v
theories/OffsetProofs.v
theories/OffsetProps.v
theories/ParCopyModel.v
theories/ParCopySpec.v
theories/ParCopyProofs.v
theories/ParCopyProps.v
theories/BarPassModel.v
theories/BarPassSpec.v
theories/BarPassProofs.v
theories/BarPassProps.v
theories/MergeModel.v
theories/MergeSpec.v
theories/MergeProofs.v
theories/MergeProps.v
theories/TasksModel.v
theories/TasksProofs.v
theories/TasksProps.v
theories/FactorsModel.v
theories/FactorsSpec.v
theories/FactorsProofs.v
theories/FactorsProps.v
theories/WaitanyModel.v
theories/WaitanySpec.v
theories/WaitanyProofs.v
theories/WaitanyProps.v
theories/BytesModel.v
theories/BytesProofs.v
theories/AlgoIOModel.v
theories/AlgoIOSpec.v
theories/AlgoIOProofs.v
theories/AlgoIOProps.v
theories/LineModel.v
theories/LineSpec.v
theories/LineProofs.v
theories/LineProps.v
theories/BytecodeModel.v
theories/BytecodeSpec.v
theories/BytecodeProofs.v
theories/BytecodeProps.v
theories/RebindModel.v
theories/RebindSpec.v
theories/RebindProofs.v
theories/RebindProps.v
theories/NodeModel.v
theories/SyncProofs.v
theories/SyncItems.v
theories/SyncConcat.v
theories/TreeProofs.v
theories/TreeKnow.v
theories/NodeCode.v
theories/NodeCopyin.v
theories/NodeLayout.v
theories/NodeItems.v
theories/NodeAsm.v
theories/NodeZero.v
theories/NodeHalf.v
theories/NodeSpec.v
theories/NodeProofs.v
theories/NodeRefute.v
theories/NodeProps.v
theories/SingleModel.v
theories/SingleSpec.v
theories/SyncBank.v
theories/SingleProofs.v
theories/SingleProps.v
theories/SelectModel.v
theories/SelectProofs.v
theories/SelectProps.v
theories/RawModel.v
theories/MsgProofs.v
theories/PhaseProofs.v
theories/RawCode.v
theories/RawStage.v
theories/RawProofs.v
theories/RawEnd.v
theories/RawSpec.v
theories/RawWhole.v
theories/RawInst.v
theories/RawRepeat.v
theories/RawProps.v
theories/RootModel.v
theories/RootSpec.v
theories/RootCode.v
theories/RootLive.v
theories/RootValue.v
theories/RootWhole.v
theories/RootRec.v
theories/RootInst.v
theories/RootRefute.v
theories/RootProps.v
theories/BcastModel.v
theories/BcastSpec.v
theories/BcastLive.v
theories/BcastWhole.v
theories/BcastRec.v
theories/BcastInst.v
theories/BcastRefute.v
theories/BcastProps.v
theories/FinalModel.v
theories/FinalSpec.v
theories/FinalPass.v
theories/FinalMerge.v
theories/FinalShape.v
theories/FinalRename.v
theories/FinalBlock.v
theories/FinalSim.v
theories/FinalTidy.v
theories/FinalInst.v
theories/FinalRootModel.v
theories/FinalRefute.v
theories/FinalRun.v
theories/FinalInPlace.v
theories/FinalProps.v
theories/GatherFinalModel.v
theories/GatherSim.v
theories/GatherCode.v
theories/GatherInst.v
theories/GatherFinalRun.v
theories/GatherFinalProps.v
theories/LooseSpec.v
theories/RawLoose.v
theories/LooseWhole.v
theories/CycRedModel.v
theories/ShiftProofs.v
theories/LooseChain.v
theories/LooseAlike.v
theories/CycRedDown.v
theories/CycRedScatter.v
theories/CycRedInst.v
theories/CycRedProps.v
theories/CycRedClosure.v
theories/CycRedPlace.v
theories/CycRedSpread.v
theories/CycRedUp.v
theories/CycRedAll.v
theories/CycRedWhole.v
theories/CycRedAllInst.v
theories/CycRedAllProps.v
theories/ChoiceModel.v
theories/ChoiceSpec.v
theories/ChoiceProofs.v
theories/ChoiceInst.v
theories/ChoiceProps.v
theories/Freeze.v
theories/ChosenModel.v
theories/ChosenInst.v
theories/ChosenRefute.v
theories/ChosenProps.v
theories/CoresModel.v
theories/CoresSpec.v
theories/CoresProofs.v
theories/CoresInst.v
theories/CoresProps.v
theories/MultiModel.v
theories/MultiSpec.v
theories/MultiSim.v
theories/MultiRun.v
theories/MultiCode.v
theories/MultiCores.v
theories/MultiProofs.v
theories/MultiProps.v
theories/LocalModel.v
theories/SyncRounds.v
theories/LocalSync.v
theories/LocalPlace.v
theories/LocalTree.v
theories/LocalSpec.v
theories/LocalProofs.v
theories/LocalProps.v
theories/WaitPassModel.v
theories/WaitPassSpec.v
theories/WaitPassProofs.v
theories/WaitPassProps.v
theories/SocketModel.v
theories/SocketSpec.v
theories/SocketProofs.v
theories/SocketRace.v
theories/SocketProps.v
theories/OneNodeModel.v
theories/OneNodeSpec.v
theories/OneNodeProps.v
