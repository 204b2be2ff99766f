-Q theories Verif
theories/Sym.v
theories/SymFacts.v
theories/SymFuns.v
theories/SymProofs1.v
theories/SymProofs2.v
theories/SymProofs3.v
theories/SymProofs4.v
theories/SymProps.v
theories/Lin.v
theories/IR.v
theories/IRFacts.v
theories/IRRefine.v
theories/PassCFG.v
theories/LoopAnaProofs.v
theories/PassCFGProofs.v
theories/PassInline.v
theories/PassCFGProofs2.v
theories/PassCFGProps.v
theories/CtxD.v
theories/LoopTile.v
theories/LoopIter.v
theories/LoopProps.v
theories/Trace.v
theories/Reorder.v
theories/Interchange.v
theories/LoopProps2.v
theories/Subst.v
theories/While2For.v
theories/While2ForProofs.v
theories/LoopProps3.v
theories/DepAna.v
theories/DepProofs.v
theories/For2MapProofs.v
theories/DepOracle.v
theories/DepProps.v
theories/Distribute.v
theories/LoopProps4.v
theories/Types.v
theories/TypesProofs.v
theories/TypesProofs2.v
theories/TypesProps.v
theories/Skew.v
theories/Poly.v
theories/Delin.v
theories/DelinProps.v
theories/LoopProps5.v
theories/Normalize.v
theories/LoopProps6.v
theories/Evolution.v
theories/EvolProps.v
theories/Base64.v
theories/Base64Proofs.v
theories/Json.v
theories/Capture.v
theories/StrFacts.v
theories/Names.v
theories/CaptureProofs.v
theories/CaptureProofs2.v
theories/CaptureProps.v
theories/Serial.v
theories/SerialProofs.v
theories/SerialProps.v
theories/Assum.v
theories/AssumProofs.v
theories/AssumProps.v
theories/Tensor.v
theories/TensorProofs.v
theories/TensorProofs2.v
theories/TensorProofs3.v
theories/TensorProps.v
theories/TensorMulti.v
theories/TensorAct.v
theories/TensorProps2.v
theories/Blas.v
theories/BlasProps.v
theories/Conv.v
theories/ConvProps.v
theories/Matmul.v
theories/MatmulProps.v
theories/DataFlow.v
theories/DataFlowProofs.v
theories/DataFlowExec.v
theories/DataFlowProps.v
theories/BlockFusion.v
theories/BlockFusionProofs.v
theories/BlockFusionProofs2.v
theories/BlockFusionProps.v
theories/Users.v
theories/Reach.v
theories/ReachProofs.v
theories/ReachProps.v
theories/DeadData.v
theories/DeadProps.v
theories/UserGraph.v
theories/GraphProps.v
theories/Cfg.v
theories/CfgProofs.v
theories/CfgProps.v
theories/CfgEdit.v
theories/CfgEditProps.v
theories/MapFusion.v
theories/MapFusionProps.v
theories/Promote.v
theories/PromoteProps.v
theories/Propagate.v
theories/PropagateProps.v
theories/TaskC.v
theories/TaskCProps.v
theories/CParse.v
theories/CPrint.v
theories/CPrintProps.v
theories/CGen.v
theories/CGenProps.v
theories/ConstProp.v
theories/ConstPropProps.v
theories/TaskletFuse.v
theories/Hole.v
theories/TaskletFuseProps.v
theories/Instr.v
theories/InstrSpec.v
theories/InstrProofs.v
theories/InstrProps.v
theories/InstrOut.v
theories/InstrOutProps.v
theories/Par.v
theories/ParProofs.v
theories/ParProps.v
theories/Cuda.v
theories/CudaProofs.v
theories/CudaProps.v
theories/Offload.v
theories/OffloadProofs.v
theories/OffloadSim.v
theories/OffloadProps.v
theories/Redundant.v
theories/RedundantProps.v
theories/Ranges.v
theories/RangesProps.v
theories/OutLocal.v
theories/OutLocalProps.v
theories/Alloc.v
theories/AllocProofs.v
theories/AllocSim.v
theories/AllocProps.v
theories/RefProp.v
theories/RefPropProps.v
theories/Linearize.v
theories/LinearizeProps.v
theories/TrivialArray.v
theories/TrivialArrayProps.v
theories/MinTypes.v
theories/MinTypesProps.v
theories/GuardProp.v
theories/GuardPropProps.v
theories/Flops.v
theories/FlopsProps.v
theories/BlockSort.v
theories/BlockSortProofs.v
theories/BlockSortSim.v
theories/BlockSortProps.v
theories/Hoist.v
theories/HoistProps.v
theories/Dbg.v
theories/DbgProofs.v
theories/DbgProps.v
theories/Pipe.v
theories/PipeProps.v
theories/Copy.v
theories/CopyProps.v
