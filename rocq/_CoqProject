-Q theories Verif
theories/Go.v
theories/GoProofs.v
theories/Lattigo.v
theories/Arith.v
theories/LattigoProofs.v
theories/Fermat.v
theories/F64.v
theories/F64Proofs.v
theories/ModUpFloat.v
theories/BasisExt.v
theories/BasisExtProofs.v
theories/ModDownProofs.v
theories/DecomposeProofs.v
theories/NegRing.v
theories/NegRingProofs.v
theories/NTT.v
theories/NTTProofs.v
theories/RingOps.v
theories/RingOpsProofs.v
theories/Maps.v
theories/Params.v
theories/Elements.v
theories/KeySwitch.v
theories/KeySets.v
theories/KeyGen.v
theories/EncDec.v
theories/Utils.v
theories/UtilsBig.v
theories/Evaluator.v
theories/Spec.v
theories/Repr.v
theories/MapsProofs.v
theories/KSProofs.v
theories/KSMulProofs.v
theories/SpecProofs.v
theories/BasisSpec.v
theories/DownLevels.v
theories/IDSetSpec.v
theories/ParamsProofs.v
theories/KSAlg.v
theories/KSNorm.v
theories/Pock.v
theories/Shipped.v
theories/DecompSpec.v
theories/BasisWitness.v
theories/Crt.v
theories/ParamsSpec.v
theories/Galois.v
theories/KeyGenProofs.v
theories/SpecKeys.v
theories/KeySetSpec.v
theories/KeySpec.v
theories/KeyWitness.v
theories/KeyThms.v
theories/SpecCt.v
theories/KSSem.v
theories/MulThms.v
theories/World.v
theories/SpecEnc.v
theories/EncProofs.v
theories/EncThms.v
theories/CkEncThms.v
theories/EncWorld.v
theories/F64More.v
theories/SpecEv.v
theories/EvProofs.v
theories/RescaleProofs.v
theories/EvThms.v
theories/EvFloat.v
theories/ConstProofs.v
theories/ConstThms.v
theories/AddProofs.v
theories/AddThms.v
theories/MulEvThms.v
theories/SpecHist.v
theories/MulUni.v
theories/EvWorld.v
theories/HistThms.v
theories/SpecRot.v
theories/SpecSlots.v
theories/SlotThms.v
theories/RotProofs.v
theories/RotThms.v
theories/ConjThms.v
theories/RotEvThms.v
theories/RotWorld.v
theories/ElemThms.v
theories/UtilThms.v
theories/UtilFloat.v
theories/UtilDown.v
theories/UtilsBigProofs.v
theories/UtilWorld.v
theories/LR.v
theories/SpecLR.v
theories/LRProofs.v
theories/LRPack.v
theories/LRThms.v
theories/LRWorld.v
theories/Props_Basis.v
theories/Props_Keys.v
theories/Props_Mul.v
theories/PartialLeak.v
theories/Props_Enc.v
theories/Props_Eval.v
theories/Props_Rot.v
theories/Props_Util.v
theories/Props_LR.v
theories/Heap.v
theories/SpecHeap.v
theories/HeapProofs.v
theories/Props_Heap.v
theories/LRRel.v
theories/LREval.v
theories/LRShadow.v
theories/SpecLREnc.v
theories/SlotRing.v
theories/SlotErr.v
theories/LREncProofs.v
theories/LREncThms.v
theories/LRLevels.v
theories/LRShipped.v
theories/LREncLR.v
theories/SlotInv.v
theories/LREncWorld.v
theories/SlotBound.v
theories/LREncDec.v
theories/LREncShip.v
theories/Props_LREnc.v
theories/LRSetup.v
theories/SpecSetup.v
theories/LRSetupProofs.v
theories/LRSetupThms.v
theories/LRSetupProg.v
theories/LRMain.v
theories/LRMainShip.v
theories/Props_Setup.v
theories/Conc.v
theories/SpecConc.v
theories/ConcProofs.v
theories/RaceProofs.v
theories/ConcRace.v
theories/RaceWorld.v
theories/Props_Conc.v
theories/LRData.v
theories/SpecData.v
theories/LRDataProofs.v
theories/LRNorm.v
theories/LRCount.v
theories/LRDataWorld.v
theories/LRDataThms.v
theories/Props_Data.v
theories/Alias.v
theories/SpecAlias.v
theories/AliasProofs.v
theories/AliasConst.v
theories/AliasConj.v
theories/AliasThms.v
theories/AliasWorld.v
theories/AliasZero.v
theories/AliasMul.v
theories/AliasMulWorld.v
theories/Props_Alias.v
theories/Stats.v
theories/StatsProofs.v
theories/SpecStats.v
theories/StatsRound.v
theories/StatsRoundThms.v
theories/Props_Stats.v
theories/SpecRotUse.v
theories/RotUse.v
theories/RotNeed.v
theories/RotUseCase.v
theories/Props_RotUse.v
theories/Circuit.v
theories/SpecCircuit.v
theories/CircErr.v
theories/CircProofs.v
theories/CircEnc.v
theories/CircWorld.v
theories/Props_Circ.v
theories/LRConst.v
theories/SpecLRConst.v
theories/LRConstProofs.v
theories/LRConstThms.v
theories/Props_Const.v
theories/LRSize.v
theories/SpecSize.v
theories/LRSizeProofs.v
theories/LRSizeThms.v
theories/Props_Size.v
theories/HeapEv.v
theories/SpecHeapEv.v
theories/HeapEvSim.v
theories/HeapEvVals.v
theories/HeapEvCalls.v
theories/HeapEvThms.v
theories/HeapEvWorld.v
theories/Props_HeapEv.v
theories/SpecMem.v
theories/Unsafe.v
theories/UnsafeProofs.v
theories/UnsafeConst.v
theories/UnsafeThms.v
theories/Props_Unsafe.v
theories/SpecClobber.v
theories/Clobber.v
theories/ClobberProofs.v
theories/ClobberThms.v
theories/Props_Clobber.v
theories/ParamVars.v
theories/SpecVars.v
theories/ParamVarsProofs.v
theories/ParamVarsThms.v
theories/Props_ParamVars.v
theories/Loops.v
theories/LoopThms.v
theories/Props_Loops.v
theories/DownNTT.v
theories/SpecDown.v
theories/DownNTTThms.v
theories/Props_DownNTT.v
theories/Slices.v
theories/SpecSlices.v
theories/SlicesThms.v
theories/Props_Slices.v
theories/Words.v
theories/SpecWords.v
theories/WordsProofs.v
theories/WordsThms.v
theories/WordsWorld.v
theories/Props_Words.v
theories/AliasAdd.v
theories/SpecInPlace.v
theories/AliasAddProofs.v
theories/AliasAddThms.v
theories/AliasAddWorld.v
theories/Props_AliasAdd.v
theories/KeyObj.v
theories/SpecKeyObj.v
theories/KeyObjProofs.v
theories/KeyObjThms.v
theories/Props_KeyObj.v
theories/ExtConc.v
theories/SpecExt.v
theories/ExtConcProofs.v
theories/ExtConcWorld.v
theories/Props_ExtConc.v
theories/Samplers.v
theories/SpecSamplers.v
theories/SamplersProofs.v
theories/Props_Samplers.v
