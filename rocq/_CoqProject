-Q theories Verif
theories/Base.v
theories/BaseLemmas.v
theories/Cost.v
theories/CostSpec.v
theories/CostProofs.v
theories/PropCost.v
theories/Utils.v
theories/UtilsSpec.v
theories/UtilsProofs.v
theories/Fractions.v
theories/FractionsSpec.v
theories/FractionsProofs.v
theories/FormatProofs.v
theories/RoundTripProofs.v
theories/PropUtils.v
theories/Load.v
theories/LoadSpec.v
theories/LoadProofs.v
theories/PropLoad.v
theories/Tree.v
theories/Search.v
theories/TreeSpec.v
theories/HeapLemmas.v
theories/CopyProofs.v
theories/SearchSpec.v
theories/TreeInv.v
theories/TreeGrow.v
theories/TreeOps.v
theories/Halves.v
theories/SearchGen.v
theories/SearchInit.v
theories/SearchInv.v
theories/SearchProofs.v
theories/SearchWitness.v
theories/PropSearch.v
theories/PropLimits.v
theories/Expand.v
theories/ExpandSpec.v
theories/BranchProofs.v
theories/LevelProofs.v
theories/BuildProofs.v
theories/ExpandProofs.v
theories/ExtractProofs.v
theories/MergeProofs.v
theories/SplitProofs.v
theories/ExpandWitness.v
theories/PropExpand.v
theories/Conclude.v
theories/SizeSpec.v
theories/PlantProofs.v
theories/AttachProofs.v
theories/FracProofs.v
theories/FrameProofs.v
theories/ConcludeProofs.v
theories/ConcludeSpec.v
theories/SaveProofs.v
theories/ConcludeWitness.v
theories/PropConclude.v
theories/Score.v
theories/ScoreSpec.v
theories/ScoreProofs.v
theories/PropScore.v
theories/StopProofs.v
theories/Run.v
theories/RunProofs.v
theories/Cli.v
theories/CliSpec.v
theories/CliProofs.v
theories/PropCli.v
theories/InitialSpec.v
theories/InitialProofs.v
theories/PropInitial.v
theories/Draw.v
theories/DrawSpec.v
theories/DrawProofs.v
theories/DrawWitness.v
theories/PropDraw.v
theories/CompleteSpec.v
theories/CompleteProofs.v
theories/RouteSpec.v
theories/RouteProofs.v
theories/RouteWitness.v
theories/PropRoutes.v
theories/CompleteWitness.v
theories/PropComplete.v
theories/LocalProofs.v
theories/MergeSafe.v
theories/TraverseSafe.v
theories/SavedSpec.v
theories/SavedProofs.v
theories/PropSaved.v
theories/TreeEq.v
theories/TreeEqProofs.v
theories/Real.v
theories/RealSpec.v
theories/RealProofs.v
theories/RunRule.v
theories/SizeProofs.v
theories/PropSize.v
theories/ShapeProofs.v
theories/QueueProofs.v
theories/PropQueue.v
theories/PropShape.v
theories/FlowSpec.v
theories/MachineSpec.v
theories/FlowProofs.v
theories/FlowMerge.v
theories/FlowTree.v
theories/FlowOps.v
theories/FlowWalk.v
theories/FlowStart.v
theories/FlowSmall.v
theories/CoverWalk.v
theories/CoverOps.v
theories/CoverTree.v
theories/CoverSplit.v
theories/CoverInv.v
theories/CoverFinal.v
theories/FlowFinal.v
theories/FlowWitness.v
theories/PropFlow.v
theories/MachineProofs.v
theories/MachineFinal.v
theories/PropMachines.v
