-Q theories Verif
theories/Base.v
theories/IntModel.v
theories/IntSpec.v
theories/IntBasics.v
theories/IntAddSub.v
theories/IntMul.v
theories/IntDiv.v
theories/IntMod.v
theories/IntScale.v
theories/IntPowDefined.v
theories/IntPowExact.v
theories/PropsInt.v
theories/IOModel.v
theories/MiscModel.v
theories/IOSpec.v
theories/IOProofs.v
theories/PropsIO.v
theories/IntHistory.v
theories/PropsHistory.v
theories/FracModel.v
theories/FracSpec.v
theories/FracProofs.v
theories/FracIO.v
theories/FracDouble.v
theories/PropsFrac.v
theories/FracPow.v
theories/PropsPow.v
theories/PropsFracIO.v
theories/FracHistory.v
theories/PropsFracHistory.v
theories/ElemModel.v
theories/VecModel.v
theories/ElemSpec.v
theories/ElemProofs.v
theories/VecProofs.v
theories/ElemInst.v
theories/PropsVec.v
theories/MatModel.v
theories/MatSpec.v
theories/MatProofs.v
theories/MatElim.v
theories/MatPrint.v
theories/MatAlg.v
theories/MatCof.v
theories/MatDet.v
theories/MatRrefSpec.v
theories/MatRref.v
theories/MatUnique.v
theories/PropsMat.v
theories/PropsMatAlg.v
theories/PolyModel.v
theories/PolySpec.v
theories/PolyProofs.v
theories/PolyTerms.v
theories/PolyPoly.v
theories/PropsPoly.v
theories/CommonModel.v
theories/CommonSpec.v
theories/CommonProofs.v
theories/PropsCommon.v
theories/Int32Spec.v
theories/Int32Proofs.v
theories/PropsInt32.v
theories/PropsInt32Alg.v
theories/DoubleModel.v
theories/DoubleSpec.v
theories/DoubleProofs.v
theories/DoubleVec.v
theories/DoubleRange.v
theories/DoubleMat.v
theories/DoubleLaws.v
theories/PropsDoubleMat.v
theories/DoubleElim.v
theories/DoubleCof.v
theories/PropsDoubleElim.v
theories/PropsDoubleElimAlg.v
theories/PropsDoubleCof.v
theories/PropsDoubleCofAlg.v
theories/PropsDouble.v
theories/SimSpec.v
theories/SimProofs.v
theories/SimInst.v
theories/TriProofs.v
theories/TriInst.v
theories/SimAlg.v
theories/SimIntAlg.v
theories/UnitTri.v
theories/UnitProofs.v
theories/PropsSim.v
theories/PropsSimAlg.v
theories/PropsSimInt.v
theories/FracSmall.v
theories/PropsFracMat.v
theories/MiscProofs.v
theories/MiscText.v
theories/PropsMisc.v
theories/FlagsModel.v
theories/FlagsSpec.v
theories/FlagsProofs.v
theories/PropsFlags.v
theories/FormatSpec.v
theories/FormatProofs.v
theories/PropsFormat.v
theories/MatLaws.v
theories/PropsMatLaws.v
theories/SeqModel.v
theories/SeqProofs.v
theories/PropsSeq.v
theories/SizeModel.v
theories/SizeProofs.v
theories/PropsSize.v
theories/FracLaws.v
theories/PropsFracLaws.v
theories/PieceModel.v
theories/PieceSpec.v
theories/PieceProofs.v
theories/PropsPieces.v
theories/HeapModel.v
theories/HeapSpec.v
theories/HeapProofs.v
theories/PropsHeap.v
theories/IntCalls.v
theories/PropsCalls.v
theories/PropsParse.v
theories/IntSize.v
theories/PropsRounds.v
theories/CostModel.v
theories/CostSpec.v
theories/CostProofs.v
theories/PropsCost.v
theories/UnsetProofs.v
theories/PropsUnset.v
theories/PolyCalls.v
theories/PolyCallProofs.v
theories/PropsPolyCalls.v
theories/ExtSpec.v
theories/ExtProofs.v
theories/PropsExt.v
theories/LeaveModel.v
theories/LeaveSpec.v
theories/LeaveProofs.v
theories/PropsLeave.v
theories/FloatModel.v
theories/FloatSpec.v
theories/FloatProofs.v
theories/PropsFloat.v
theories/CatchModel.v
theories/CatchSpec.v
theories/CatchProofs.v
theories/PropsCatch.v
theories/ReadSpec.v
theories/ReadProofs.v
theories/PropsRead.v
theories/LUSpec.v
theories/LUProofs.v
theories/LUAlg.v
theories/LUFinal.v
theories/PropsLU.v
theories/JordanSpec.v
theories/JordanProofs.v
theories/JordanAlg.v
theories/JordanFinal.v
theories/PropsJordan.v
theories/LinSpec.v
theories/LinCalls.v
theories/LinProofs.v
theories/LinInst.v
theories/PropsLin.v
theories/PolyTextSpec.v
theories/PolyText.v
theories/PropsPolyText.v
theories/IntCostModel.v
theories/IntCostSpec.v
theories/IntCost.v
theories/IntCost2.v
theories/IntCost3.v
theories/IntCost4.v
theories/IntCost5.v
theories/FracCostModel.v
theories/FracCostSpec.v
theories/FracCost.v
theories/FracCost2.v
theories/FracCost3.v
theories/PropsIntCost.v
theories/ReleaseModel.v
theories/ReleaseSpec.v
theories/ReleaseProofs.v
theories/ReleaseProofs2.v
theories/PropsRelease.v
theories/FracReleaseModel.v
theories/FracReleaseSpec.v
theories/FracReleaseProofs.v
theories/PropsFracRelease.v
theories/AllocModel.v
theories/AllocSpec.v
theories/AllocProofs.v
theories/PropsAlloc.v
theories/SpaceModel.v
theories/SpaceSpec.v
theories/SpaceProofs.v
theories/PropsSpace.v
theories/IntAllocModel.v
theories/IntAllocSpec.v
theories/IntAllocProofs.v
theories/PropsIntAlloc.v
theories/FracAllocModel.v
theories/FracAllocSpec.v
theories/FracAllocProofs.v
theories/PropsFracAlloc.v
theories/PropsFracCost.v
theories/NarrowModel.v
theories/NarrowSpec.v
theories/NarrowProofs.v
theories/NarrowRead.v
theories/NarrowMore.v
theories/PropsNarrow.v
theories/ContReleaseModel.v
theories/ContReleaseSpec.v
theories/ContReleaseProofs.v
theories/ContReleaseInst.v
theories/ContReleaseMore.v
theories/PropsContRelease.v
theories/PolyReleaseModel.v
theories/PolyReleaseSpec.v
theories/PolyReleaseProofs.v
theories/PropsPolyRelease.v
theories/ReleaseCallsModel.v
theories/ReleaseCallsSpec.v
theories/ReleaseCallsProofs.v
theories/PropsReleaseCalls.v
theories/FracReleaseCallsModel.v
theories/FracReleaseCallsSpec.v
theories/FracReleaseCallsProofs.v
theories/PropsFracReleaseCalls.v
theories/OrderModel.v
theories/OrderSpec.v
theories/OrderProofs.v
theories/PropsOrder.v
theories/IOCostModel.v
theories/IOCost.v
theories/PropsIOCost.v
theories/ContAllocModel.v
theories/ContAllocSpec.v
theories/ContAllocProofs.v
theories/PropsContAlloc.v
theories/PolyReleaseCallsModel.v
theories/PolyReleaseCallsSpec.v
theories/PolyReleaseCallsProofs.v
theories/PropsPolyReleaseCalls.v
theories/LinReleaseModel.v
theories/LinReleaseSpec.v
theories/LinReleaseProofs.v
theories/PropsLinRelease.v
theories/AgreeProofs.v
theories/LinAgreeProofs.v
theories/PropsLinAgree.v
theories/LinFracModel.v
theories/LinFracAgreeProofs.v
theories/PropsLinFracAgree.v
theories/FracAgreeProofs.v
theories/PropsFracAgree.v
theories/PolyCatchModel.v
theories/PolyAgreeProofs.v
theories/PropsPolyAgree.v
theories/ConformInt.v
theories/ConformFrac.v
theories/ConformMat.v
