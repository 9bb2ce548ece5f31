-Q theories Verif
theories/Outcome.v
theories/CSearch.v
theories/CSearchProofs.v
theories/Storage.v
theories/StorageProofs.v
theories/StorageMore.v
theories/IndexExpr.v
theories/Lattice.v
theories/LatticeSpec.v
theories/LatticeProofs.v
theories/LatticeLoop.v
theories/LatticeIsort.v
theories/Eval.v
theories/EvalProofs.v
theories/LoopIR.v
theories/Lower.v
theories/Walk.v
theories/LowerBase.v
theories/LoopRule.v
theories/Nest.v
theories/Visits.v
theories/KernelSpec.v
theories/WfCheck.v
theories/DenseKernel.v
theories/DenseKernelProofs.v
theories/DenseValue.v
theories/Util.v
theories/UtilSpec.v
theories/UtilProofs.v
theories/Types.v
theories/TypesProofs.v
theories/Checks.v
theories/ChecksSpec.v
theories/ChecksProofs.v
theories/Intrinsics.v
theories/IntrinsicsProofs.v
theories/Schedule.v
theories/ScheduleSpec.v
theories/ScheduleProofs.v
theories/Window.v
theories/WindowSpec.v
theories/WindowProofs.v
theories/Simplify.v
theories/SimplifySpec.v
theories/SimplifyProofs.v
theories/Notation.v
theories/NotationSpec.v
theories/NotationProofs.v
theories/NotationRun.v
theories/NotationConv.v
theories/NotationConc.v
theories/Transform.v
theories/TransformSpec.v
theories/TransformProofs.v
theories/PromoteProofs.v
theories/PromoteSem.v
theories/TopoProofs.v
theories/Iso.v
theories/IsoSpec.v
theories/IsoProofs.v
theories/ArgOrder.v
theories/Precompute.v
theories/PrecomputeSpec.v
theories/PrecomputeProofs.v
theories/PrecomputeSem.v
theories/ZeroStmt.v
theories/ZeroStmtSpec.v
theories/ZeroStmtProofs.v
theories/WhereLower.v
theories/WhereSpec.v
theories/WhereProofs.v
theories/Workspace.v
theories/WorkspaceSpec.v
theories/WorkspaceProofs.v
theories/TreeLevels.v
theories/SparseKernel.v
theories/AppendProofs.v
theories/SparseTree.v
theories/SparseProofs.v
theories/SparseNest.v
theories/SparseRun.v
theories/SparseTail.v
theories/SparseSlots.v
theories/SparseFused.v
theories/SparseCompute.v
theories/SparseStore.v
theories/SparsePath.v
theories/SparseValue.v
theories/SparseSpec.v
theories/SparseTop.v
theories/LoopRun.v
theories/AppendRows.v
theories/AppendSpec.v
theories/AppendRowsProofs.v
theories/InsertRows.v
theories/InsertProofs.v
theories/MergeLoop.v
theories/MergeSpec.v
theories/MergeProofs.v
theories/GallopProofs.v
theories/UnionProofs.v
theories/CooProofs.v
theories/PackKernel.v
theories/Compare.v
theories/Tensor.v
theories/TensorSpec.v
theories/PackKernelProofs.v
theories/TensorProofs.v
theories/TensorMore.v
theories/TensorOps.v
theories/Iterate.v
theories/IterateSpec.v
theories/IterateProofs.v
theories/DelayedEval.v
theories/DelayedSpec.v
theories/DelayedProofs.v
theories/SimplifyStmt.v
theories/SimplifyStmtSpec.v
theories/SimplifyStmtExpr.v
theories/SimplifyStmtCopy.v
theories/SimplifyStmtMaps.v
theories/SimplifyStmtCp.v
theories/SimplifyStmtCpr.v
theories/SimplifyStmtLoops.v
theories/SimplifyStmtRemove.v
theories/SimplifyStmtStatic.v
theories/SimplifyStmtProofs.v
theories/SimplifyStmtTotal.v
theories/SimplifyStmtRun.v
theories/Parser.v
theories/ParserSpec.v
theories/ParserProofs.v
theories/ParserLex.v
theories/Einsum.v
theories/EinsumSpec.v
theories/EinsumProofs.v
theories/EinsumDots.v
theories/Prop_Storage.v
theories/Prop_Search.v
theories/Prop_Lattice.v
theories/Prop_Kernel.v
theories/Prop_Util.v
theories/Prop_Types.v
theories/Prop_Checks.v
theories/Prop_Schedule.v
theories/Prop_Simplify.v
theories/Prop_SimplifyStmt.v
theories/Prop_Notation.v
theories/Prop_Transform.v
theories/Prop_Iso.v
theories/Prop_Precompute.v
theories/Prop_Zero.v
theories/Prop_Where.v
theories/Prop_Workspace.v
theories/Prop_Sparse.v
theories/Prop_Append.v
theories/Prop_Insert.v
theories/Prop_Merge.v
theories/Prop_Tensor.v
theories/Prop_Iterate.v
theories/Prop_Delayed.v
theories/Prop_Parser.v
theories/Prop_Einsum.v
theories/FileIO.v
theories/FileIOSpec.v
theories/FileIOProofs.v
theories/FileIOMore.v
theories/FileIORB.v
theories/Prop_FileIO.v
theories/PrintC.v
theories/PrintCSpec.v
theories/PrintCLex.v
theories/PrintCExpr.v
theories/PrintCProofs.v
theories/PrintCParse.v
theories/PrintCUnique.v
theories/Prop_PrintC.v
theories/Parallel.v
theories/ParallelSpec.v
theories/ParallelExec.v
theories/ParallelProofs.v
theories/ParallelTop.v
theories/ParallelAtomic.v
theories/ParallelTemp.v
theories/ParallelSched.v
theories/Prop_Parallel.v
theories/AttrQuery.v
theories/AttrQuerySpec.v
theories/AttrQueryHits.v
theories/AttrQueryWf.v
theories/AttrQuerySim.v
theories/AttrQueryProofs.v
theories/Prop_AttrQuery.v
theories/SchedStr.v
theories/SchedStrSpec.v
theories/SchedStrProofs.v
theories/SchedStrShow.v
theories/Prop_SchedStr.v
theories/DimInfer.v
theories/DimInferSpec.v
theories/DimInferProofs.v
theories/Prop_DimInfer.v
theories/AlgLattice.v
theories/AlgLatticeSpec.v
theories/AlgLatticeProofs.v
theories/AlgLatticeLoop.v
theories/AlgLatticeTop.v
theories/Prop_AlgLattice.v
theories/FuncProps.v
theories/FuncPropsSpec.v
theories/FuncPropsProofs.v
theories/Prop_FuncProps.v
theories/StoreMem.v
theories/StoreMemSpec.v
theories/StoreMemProofs.v
theories/Prop_StoreMem.v
theories/Accept.v
theories/AcceptSpec.v
theories/AcceptProofs.v
theories/AcceptTransform.v
theories/Prop_Accept.v
theories/FusedPos.v
theories/FusedPosSpec.v
theories/FusedPosProofs.v
theories/Prop_FusedPos.v
theories/Cloned.v
theories/ClonedSpec.v
theories/ClonedProofs.v
theories/Prop_Cloned.v
theories/Tile.v
theories/TileSpec.v
theories/TileProofs.v
theories/Prop_Tile.v
theories/Replace.v
theories/ReplaceSpec.v
theories/ReplaceProofs.v
theories/Prop_Replace.v
theories/Accel.v
theories/AccelSpec.v
theories/AccelProofs.v
theories/Prop_Accel.v
theories/Annot.v
theories/AnnotSpec.v
theories/AnnotProofs.v
theories/Prop_Annot.v
theories/CooResult.v
theories/CooResultSpec.v
theories/CooResultProofs.v
theories/Prop_CooResult.v
theories/PosLevel.v
theories/PosLevelSpec.v
theories/Prop_PosLevel.v
theories/KernelWrap.v
theories/KernelWrapSpec.v
theories/KernelWrapProofs.v
theories/Prop_KernelWrap.v
theories/EarlyExit.v
theories/EarlyExitSpec.v
theories/EarlyExitProofs.v
theories/Prop_EarlyExit.v
theories/Formats.v
theories/FormatsSpec.v
theories/FormatsProofs.v
theories/Prop_Formats.v
theories/CliFormat.v
theories/CliFormatSpec.v
theories/CliFormatProofs.v
theories/Prop_CliFormat.v
theories/Cuda.v
theories/CudaSpec.v
theories/CudaProofs.v
theories/Prop_Cuda.v
theories/CallLattice.v
theories/CallLatticeSpec.v
theories/CallLatticeProofs.v
theories/Prop_CallLattice.v
theories/FileNames.v
theories/FileNamesSpec.v
theories/FileNamesProofs.v
theories/Prop_FileNames.v
theories/Modules.v
theories/ModulesSpec.v
theories/ModulesProofs.v
theories/Prop_Modules.v
theories/Targets.v
theories/TargetsSpec.v
theories/TargetsProofs.v
theories/Prop_Targets.v
theories/Threads.v
theories/ThreadsSpec.v
theories/Prop_Threads.v
theories/NotationEq.v
theories/NotationEqSpec.v
theories/NotationEqProofs.v
theories/Prop_NotationEq.v
theories/Kernels.v
theories/KernelsSpec.v
theories/KernelsProofs.v
theories/Prop_Kernels.v
theories/Clash.v
theories/ClashSpec.v
theories/ClashProofs.v
theories/Prop_Clash.v
theories/Scheduled.v
theories/ScheduledSpec.v
theories/ScheduledProofs.v
theories/Prop_Scheduled.v
