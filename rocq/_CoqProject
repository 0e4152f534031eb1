-Q theories Verif

theories/Admissible.v
theories/AdmissibleProofs.v
theories/AdmissibleSpec.v
theories/BlockDominant.v
theories/BlockSchur.v
theories/Blocked.v
theories/BlockedMore.v
theories/BlockedProofs.v
theories/BlockedQr.v
theories/BlockedSuccess.v
theories/BlrBuild.v
theories/BlrCompare.v
theories/ClusterTree.v
theories/ClusterTreeProofs.v
theories/ClusterTreeRegular.v
theories/ClusterTreeSpec.v
theories/ClusterTreeTermination.v
theories/CommonTree.v
theories/Construct.v
theories/ConstructError.v
theories/ConstructKernel.v
theories/ConstructProofs.v
theories/Counter.v
theories/DenseQr.v
theories/DenseTree.v
theories/Dispatch.v
theories/Dominant.v
theories/DominantTheorems.v
theories/EckartYoung.v
theories/FileRead.v
theories/FixedRank.v
theories/FjBlocked.v
theories/FjMgs.v
theories/FjMgsCorrect.v
theories/FjTiled.v
theories/ForkJoin.v
theories/FroNorm.v
theories/Gemm.v
theories/GemmCorrect.v
theories/GemmProofs.v
theories/GemmSpec.v
theories/GemmSucc.v
theories/GemmTerm.v
theories/GemmTheorems.v
theories/GramErr.v
theories/HGemm.v
theories/HGemmAdd.v
theories/HGemmFrame.v
theories/HGemmOps.v
theories/HGemmProofs.v
theories/HGemmTheorems.v
theories/HLuEps.v
theories/Heap.v
theories/HeapHistory.v
theories/HeapProofs.v
theories/HeapViews.v
theories/HouseQr.v
theories/HouseReal.v
theories/Householder.v
theories/IndexRange.v
theories/IndexRangeProofs.v
theories/IndexRangeSpec.v
theories/Json.v
theories/JsonTree.v
theories/Kernels.v
theories/KeyValue.v
theories/L2Error.v
theories/L2Real.v
theories/Lapack.v
theories/LowRankAdd.v
theories/LowRankAddProofs.v
theories/LuCorrect.v
theories/LuErr.v
theories/LuErrBlocks.v
theories/LuErrThm.v
theories/LuProofs.v
theories/LuSucc.v
theories/Machine.v
theories/MachineMem.v
theories/MachineMorton.v
theories/MatFun.v
theories/MatOps.v
theories/MatOpsProofs.v
theories/MatSetoid.v
theories/MatSpec.v
theories/MatTheorems.v
theories/Matrix.v
theories/Memory.v
theories/Mgs.v
theories/MgsErr.v
theories/MgsFlat.v
theories/MgsHeap.v
theories/MgsHeapProofs.v
theories/MgsNested.v
theories/MgsOne.v
theories/MgsOrtho.v
theories/MgsProgram.v
theories/MgsProofs.v
theories/MgsReal.v
theories/MgsTerm.v
theories/MgsTheorems.v
theories/Morton.v
theories/MortonSort.v
theories/Osim.v
theories/PartialPivot.v
theories/Prelude.v
theories/Prop_Admissible.v
theories/Prop_Blocked.v
theories/Prop_ClusterTree.v
theories/Prop_Construct.v
theories/Prop_ConstructError.v
theories/Prop_DenseTree.v
theories/Prop_Dominant.v
theories/Prop_FixedRank.v
theories/Prop_ForkJoin.v
theories/Prop_Gemm.v
theories/Prop_HGemm.v
theories/Prop_HLuAccuracy.v
theories/Prop_Heap.v
theories/Prop_Index.v
theories/Prop_JsonTree.v
theories/Prop_LowRank.v
theories/Prop_LrAdd.v
theories/Prop_LuError.v
theories/Prop_Machine.v
theories/Prop_Matrix.v
theories/Prop_Mgs.v
theories/Prop_MgsError.v
theories/Prop_MgsHeap.v
theories/Prop_MgsProgram.v
theories/Prop_Proxy.v
theories/Prop_Qr.v
theories/Prop_QrError.v
theories/Prop_QrParallel.v
theories/Prop_QrProgram.v
theories/Prop_Real.v
theories/Prop_RealAdd.v
theories/Prop_RealQr.v
theories/Prop_Rrqr.v
theories/Prop_Sampled.v
theories/Prop_Success.v
theories/Prop_Tasks.v
theories/Prop_Termination.v
theories/Prop_TreeCompare.v
theories/Prop_Triangular.v
theories/Prop_Util.v
theories/Proxy.v
theories/ProxyProofs.v
theories/QrApply.v
theories/QrBig.v
theories/QrErrApply.v
theories/QrErrReal.v
theories/QrErrStep.v
theories/QrErrSucc.v
theories/QrErrTile.v
theories/QrErrWhole.v
theories/QrProgram.v
theories/QrStep.v
theories/QrSuccess.v
theories/QrTheorems.v
theories/QrTiled.v
theories/RealAdd.v
theories/RealAddEx.v
theories/RealLapack.v
theories/RealQr.v
theories/RealSvd.v
theories/Reflect.v
theories/ReflectProofs.v
theories/ReflectSpec.v
theories/ReflectSuccess.v
theories/ReflectTile.v
theories/Ring.v
theories/Rrqr.v
theories/RrqrDeficient.v
theories/RrqrLr.v
theories/RrqrRank.v
theories/Sampled.v
theories/SampledProofs.v
theories/SampledTheorems.v
theories/Spaced.v
theories/Spectral.v
theories/SvdRank.v
theories/TaskQr.v
theories/TaskRun.v
theories/Tasks.v
theories/TileKernels.v
theories/Timer.v
theories/Tree.v
theories/TreeCompare.v
theories/TreeFit.v
theories/TreeProofs.v
theories/TreeScale.v
theories/TreeSim.v
theories/TreeSucc.v
theories/TriAlgebra.v
theories/TriProofs.v
theories/TriSpec.v
theories/TriTerm.v
theories/TriTheorems.v
theories/Triangular.v
theories/TrmmErr.v
theories/UnevenTree.v
