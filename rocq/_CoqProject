-Q theories Verif
theories/Outcome.v
theories/Base.v
theories/Checking.v
theories/Interval.v
theories/Utility.v
theories/Arith.v
theories/Arith2.v
theories/FloatNum.v
theories/Spec.v
theories/ExtR.v
theories/Sem.v
theories/CoreArith.v
theories/CoreDiv.v
theories/CoreMore.v
theories/CoreFun.v
theories/CorePow.v
theories/CoreUtil.v
theories/FloatSpec.v
theories/FloatPol.v
theories/Inst.v
theories/Witness.v
theories/Mirror.v
theories/Agree.v
theories/Program.v
theories/ProgramProof.v
theories/Compare.v
theories/Mixed.v
theories/SpecCompare.v
theories/CompareProof.v
theories/Mutate.v
theories/Properties1.v
theories/Properties2.v
theories/Properties3.v
theories/FloatMed.v
theories/FloatInt.v
theories/CoreFmod.v
theories/CoreRoot.v
theories/RootInf.v
theories/Narrow.v
theories/RootTerm.v
theories/Properties4.v
theories/Properties5.v
theories/Properties6.v
theories/CoreCtor.v
theories/Properties7.v
theories/Ops.v
theories/OpsProof.v
theories/Properties8.v
theories/CoreIso.v
theories/OpsIso.v
theories/Client.v
theories/Properties9.v
theories/Transc.v
theories/SpecTransc.v
theories/TransReal.v
theories/CoreTransc.v
theories/CoreTrig.v
theories/FloatConst.v
theories/FloatTrans.v
theories/RefLib.v
theories/TransFuel.v
theories/Properties10.v
theories/ExactNum.v
theories/SpecExact.v
theories/ExactProof.v
theories/IntProof.v
theories/Properties11.v
theories/Extras.v
theories/Properties12.v
theories/HwControl.v
theories/SpecHw.v
theories/Properties13.v
theories/Examples.v
theories/Properties14.v
theories/ExNewton.v
theories/NewtonReal.v
theories/NewtonProof.v
theories/Properties15.v
theories/Det.v
theories/ExFilter.v
theories/FilterProof.v
theories/FilterProof2.v
theories/Properties16.v
theories/ExFindroot.v
theories/FindrootProof.v
theories/Properties17.v
theories/LawsProof.v
theories/Properties18.v
theories/ExprT.v
theories/Properties19.v
theories/ExIo.v
theories/IoProof.v
theories/Properties20.v
theories/TightTransc.v
theories/ExTransc.v
theories/CoreTrigTight.v
theories/Properties21.v
theories/Properties22.v
theories/Properties23.v
theories/ExactFloat.v
theories/CorePowExact.v
theories/ExprExact.v
theories/Properties24.v
theories/ExprWidth.v
theories/RootAcc.v
theories/RootAcc2.v
theories/Properties25.v
theories/CoreWide.v
theories/OpsWide.v
theories/Properties26.v
theories/Properties27.v
theories/Properties28.v
theories/TrigAcc.v
theories/Properties29.v
theories/RunErr.v
theories/Properties30.v
theories/Properties31.v
theories/Properties32.v
theories/SpecUser.v
theories/CoreSound.v
theories/ExprSound.v
theories/SpecBox.v
theories/BoxProof.v
theories/CoreTranscSound.v
theories/Properties33.v
theories/ExprTSound.v
theories/SpecFault.v
theories/NoFault.v
theories/Properties34.v
theories/Properties35.v
theories/Properties36.v
theories/SpecOrdered.v
theories/OrderedProof.v
theories/Properties37.v
theories/Properties38.v
theories/Properties39.v
theories/SpecInt.v
theories/IntProgProof.v
theories/Properties40.v
theories/Properties41.v
theories/Properties42.v
theories/ExOverflow.v
theories/OverflowProof.v
theories/Properties43.v
theories/ExDet.v
theories/DetProof.v
theories/Properties44.v
theories/Properties45.v
theories/ExFmod.v
theories/FmodProof.v
theories/Properties46.v
theories/Properties47.v
theories/ExAdd.v
theories/AddProof.v
theories/Properties48.v
theories/ExCmp.v
theories/SpecOrder.v
theories/CmpProof.v
theories/Properties49.v
theories/Properties50.v
theories/ExRational.v
theories/Properties51.v
theories/Properties52.v
