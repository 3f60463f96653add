-Q theories Verif
theories/Num.v
theories/Exn.v
theories/ListAux.v
theories/NDSModel.v
theories/NDSProof.v
theories/NDSSpec.v
theories/NDSTop.v
theories/UtilsModel.v
theories/UtilsProof.v
theories/PropsNDS.v
theories/HVModel.v
theories/HVSpec.v
theories/HVTheory.v
theories/HVLinks.v
theories/HVProof.v
theories/HVTop.v
theories/HVHom.v
theories/HVExtra.v
theories/PropsHV.v
theories/HVScale.v
theories/PropsHVScale.v
theories/HVDModel.v
theories/HVDSpec.v
theories/HVDTheory.v
theories/HVDProof.v
theories/HVDTop.v
theories/HVHTheory.v
theories/HVHProof.v
theories/HVDHom.v
theories/HVDEval.v
theories/HVDFacts.v
theories/HVDUnst.v
theories/PropsHVD.v
theories/HVXModel.v
theories/HVXProof.v
theories/HVChain.v
theories/HVSym.v
theories/HVXSpec.v
theories/HVXTop.v
theories/PropsHVX.v
theories/PropsHVX8.v
theories/MiscModel.v
theories/MiscProof.v
theories/PrecondProof.v
theories/PropsMisc.v
theories/StateModel.v
theories/StateSpec.v
theories/StateProof.v
theories/StateKKT.v
theories/PropsState.v
theories/NewtonModel.v
theories/NewtonProof.v
theories/NewtonBox.v
theories/NewtonPop.v
theories/PropsNewton.v
theories/RefModel.v
theories/RefProof.v
theories/RefSpec.v
theories/RefTop.v
theories/RefShift.v
theories/PropsRef.v
theories/IndSpec.v
theories/IndModel.v
theories/IndProof.v
theories/IndGD.v
theories/IndIGD.v
theories/IndTop.v
theories/PropsInd.v
theories/MMDModel.v
theories/MMDSpec.v
theories/MMDProof.v
theories/MMDKern.v
theories/MMDTop.v
theories/MMDSym.v
theories/PropsMMD.v
theories/ProbModel.v
theories/ProbSpec.v
theories/ProbProof.v
theories/ProbTop.v
theories/PropsProb.v
theories/InvProof.v
theories/PropsInv.v
theories/MoeaModel.v
theories/MoeaSpec.v
theories/MoeaProof.v
theories/MoeaTop.v
theories/PropsMoea.v
theories/RsgModel.v
theories/RsgProof.v
theories/PropsRsg.v
theories/StepModel.v
theories/StepSpec.v
theories/StepProof.v
theories/StepTop.v
theories/StepMain.v
theories/StepDpn.v
theories/StepPath.v
theories/StepIter.v
theories/StepSolver.v
theories/StepLast.v
theories/PropsStep.v
theories/BenchModel.v
theories/BenchSpec.v
theories/BenchBase.v
theories/BenchTrig.v
theories/BenchUF.v
theories/BenchUF3.v
theories/BenchZDT.v
theories/BenchMin.v
theories/BenchCF.v
theories/BenchCF4.v
theories/BenchCF8.v
theories/PropsBench.v
theories/FormSpec.v
theories/FormProof.v
theories/PropsForm.v
theories/FormWfgSpec.v
theories/FormWfg.v
theories/PropsFormWfg.v
theories/PropsFronts.v
theories/PropsMmdHist.v
theories/WfgSpec.v
theories/WfgModel.v
theories/WfgBase.v
theories/WfgShape.v
theories/WfgStage.v
theories/WfgOnto.v
theories/WfgFront.v
theories/WfgMain.v
theories/WfgReport.v
theories/PropsWfg.v
theories/ConvModel.v
theories/ConvSpec.v
theories/ConvProof.v
theories/ConvMain.v
theories/PropsConv.v
theories/LaraModel.v
theories/LaraSpec.v
theories/LaraProof.v
theories/LaraMain.v
theories/PropsLara.v
theories/ShiftModel.v
theories/ShiftSpec.v
theories/ShiftProof.v
theories/ShiftMain.v
theories/PropsShift.v
theories/WrapModel.v
theories/WrapSpec.v
theories/PropsWrap.v
theories/BootModel.v
theories/BootSpec.v
theories/BootProof.v
theories/PropsBoot.v
theories/DtlzProof.v
theories/PropsDtlz.v
theories/IterModel.v
theories/IterSpec.v
theories/IterProof.v
theories/IterMain.v
theories/IterOracle.v
theories/IterEx.v
theories/IterTotal.v
theories/IterConv.v
theories/IterAffine.v
theories/IterTop.v
theories/IterEx2.v
theories/PropsIter.v
theories/HvnModel.v
theories/HvnSpec.v
theories/HvnProof.v
theories/HvnMain.v
theories/HvnRun.v
theories/HvnHist.v
theories/HvnStill.v
theories/HvnTwo.v
theories/HvnDef.v
theories/HvnLine.v
theories/HvnOpt.v
theories/HvnEven.v
theories/HvnTop.v
theories/HvnEx.v
theories/PropsHvn.v
theories/MnModel.v
theories/MnSpec.v
theories/MnProof.v
theories/MnMain.v
theories/MnTop.v
theories/MnDyn.v
theories/MnEx.v
theories/PropsMn.v
theories/RdModel.v
theories/RdSpec.v
theories/RdProof.v
theories/PropsRd.v
theories/ExModel.v
theories/ExSpec.v
theories/ExProof.v
theories/PropsEx.v
theories/Ex2Model.v
theories/Ex2Spec.v
theories/Ex2Proof.v
theories/PropsEx2.v
theories/PropsEx2b.v
theories/NDSHom.v
theories/DblModel.v
theories/DblSpec.v
theories/DblNDS.v
theories/PropsDbl.v
theories/DblSim.v
theories/DblTop.v
theories/DblRel.v
theories/DblExact.v
theories/DblErr.v
theories/PropsDblHV.v
theories/DblGrad.v
theories/DblGradI.v
theories/PropsDblGrad.v
theories/PropsPin.v
theories/AdModel.v
theories/AdSpec.v
theories/AdProof.v
theories/AdMain.v
theories/PropsAd.v
theories/StartModel.v
theories/StartSpec.v
theories/StartProof.v
theories/StartDbl.v
theories/PropsStart.v
theories/NbModel.v
theories/NbProof.v
theories/PropsNb.v
theories/MlModel.v
theories/MlSpec.v
theories/MlProof.v
theories/PropsMl.v
theories/CompModel.v
theories/CompProof.v
theories/PropsComp.v
theories/ZregModel.v
theories/ZregProof.v
theories/ZregMin.v
theories/PropsZreg.v
theories/ZwaveBase.v
theories/ZwaveQ.v
theories/ZwaveNum.v
theories/ZwaveProof.v
theories/PropsZwave.v
theories/ExcSpec.v
theories/ExcModel.v
theories/ExcProof.v
theories/PropsExc.v
theories/PropsHess4.v
theories/SsModel.v
theories/PropsSs.v
theories/CallModel.v
theories/PropsCall.v
theories/StatModel.v
theories/PropsStat.v
