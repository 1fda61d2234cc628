-Q theories Verif
theories/UtilsModel.v
theories/UtilsSpec.v
theories/UtilsProofs.v
theories/PropsUtils.v
theories/CNum.v
theories/Sums.v
theories/Roots.v
theories/Mem.v
theories/VecModel.v
theories/VecProofs.v
theories/StatModel.v
theories/StatSpec.v
theories/StatProofs.v
theories/PropsStat.v
theories/ComplexModel.v
theories/ComplexSpec.v
theories/ComplexProofs.v
theories/PropsComplex.v
theories/PadModel.v
theories/PadKernels.v
theories/Loops.v
theories/PadLemmas.v
theories/PadMath.v
theories/PadGeom.v
theories/Fwd1.v
theories/Fwd2.v
theories/FwdI.v
theories/FwdMany.v
theories/FwdAll.v
theories/PadIndex.v
theories/PadForward.v
theories/Bwd1.v
theories/BwdI.v
theories/BwdMany.v
theories/BwdAll.v
theories/PadBackward.v
theories/ConvMath.v
theories/Xf.v
theories/ConvModel.v
theories/Conv1.v
theories/Conv2.v
theories/Conv3.v
theories/Conv4.v
theories/PadSpec.v
theories/PadRound.v
theories/PadBridge.v
theories/PadCases.v
theories/PadProofs.v
theories/PropsPad.v
theories/Conv5.v
theories/ConvSpec.v
theories/Conv6.v
theories/Conv7.v
theories/Conv8.v
theories/Conv9.v
theories/ConvProofs.v
theories/PropsConv.v
theories/FftwModel.v
theories/FftwLoops.v
theories/FftwShift.v
theories/FftwMath.v
theories/FftwSpec.v
theories/FftwRun.v
theories/FftwRun2.v
theories/FftwNyq.v
theories/FftwBlock.v
theories/FftwProofs.v
theories/TableModel.v
theories/TableProofs.v
theories/WisdomModel.v
theories/WisdomProofs.v
theories/PropsFftw.v
theories/ArrayModel.v
theories/ArraySpec.v
theories/ArrayOwn.v
theories/ArrayDisc.v
theories/ArrayProofs.v
theories/ArrayProofs2.v
theories/PropsArray.v
theories/MpiModel.v
theories/MpiSpec.v
theories/MpiDims.v
theories/MpiSched.v
theories/MpiMachine.v
theories/MpiRun.v
theories/MpiLinks.v
theories/MpiTrModel.v
theories/MpiTrGeom.v
theories/MpiTrForm.v
theories/MpiTrComm.v
theories/MpiTrPhase.v
theories/MpiTrXch.v
theories/MpiTrXchA.v
theories/MpiTrProg.v
theories/MpiTrLocal.v
theories/MpiTrStage.v
theories/MpiTrMain.v
theories/MpiTrSpec.v
theories/MpiTrTop.v
theories/MpiTrProofs.v
theories/PropsMpiTr.v
theories/PropsMpi.v
theories/GatherModel.v
theories/GatherSpec.v
theories/GatherRun.v
theories/GatherProofs.v
theories/PropsGather.v
theories/OptModel.v
theories/OptSpec.v
theories/OptLemmas.v
theories/OptLoop.v
theories/OptProofs.v
theories/OptMain.v
theories/OptTop.v
theories/PropsOpt.v
theories/HermModel.v
theories/HermSpec.v
theories/HermProofs.v
theories/HermTop.v
theories/PropsHerm.v
theories/Team.v
theories/TeamGood.v
theories/LayerModel.v
theories/LayerSpec.v
theories/Layer1.v
theories/Layer2.v
theories/Layer3.v
theories/Layer4.v
theories/Layer5.v
theories/Layer6.v
theories/Layer7.v
theories/Layer8.v
theories/Layer9.v
theories/LayerProofs.v
theories/PropsLayer.v
theories/CenModel.v
theories/Fill.v
theories/CenMath.v
theories/CenGeom.v
theories/CenF2.v
theories/CenPass.v
theories/CenFft.v
theories/CenStage.v
theories/CenTw.v
theories/CenFwd2.v
theories/CenFI.v
theories/CenFIM.v
theories/CenThree.v
theories/CenOv.v
theories/CenFA.v
theories/CenExp.v
theories/CenSpec.v
theories/CenIndex.v
theories/CenForward.v
theories/CenCases.v
theories/PropsCen.v
theories/CenBack.v
theories/CenB2.v
theories/CenBPass.v
theories/CenBwd2.v
theories/CenBI.v
theories/CenBIM.v
theories/CenBAll.v
theories/CenBackward.v
theories/XfProofs.v
theories/XfBridge.v
theories/CenBCases.v
theories/PropsCenB.v
theories/HerModel.v
theories/HerSpec.v
theories/HerMath.v
theories/HerFft.v
theories/HerGeom.v
theories/HerF2.v
theories/HerFI.v
theories/HerForward.v
theories/HerDisp.v
theories/HerIndex.v
theories/HerCases.v
theories/PropsHer.v
theories/HerB1.v
theories/HerB2.v
theories/HerB3.v
theories/HerB4.v
theories/HerB5.v
theories/HerB6.v
theories/HerB7.v
theories/HerBCases.v
theories/PropsHerB.v
theories/HConvModel.v
theories/HConvSpec.v
theories/HConvMath.v
theories/HConv1.v
theories/HConv2.v
theories/HConv3.v
theories/HConvProofs.v
theories/PropsHConv.v
theories/HLayerModel.v
theories/HLayerSpec.v
theories/HLayerGood.v
theories/HLayer1.v
theories/HLayerMath.v
theories/HLayerProofs.v
theories/HLayer2.v
theories/HLayerMath3.v
theories/HLayerProofs3.v
theories/HLayerExit.v
theories/PropsHLayer.v
theories/RealModel.v
theories/RLoops.v
theories/RealMath.v
theories/RFft.v
theories/RealGeom.v
theories/RealSpec.v
theories/RFwd.v
theories/RBwd.v
theories/RealFreq.v
theories/RealProofs.v
theories/RealThms.v
theories/RealCases.v
theories/PropsReal.v
theories/RConvModel.v
theories/RConvSpec.v
theories/RConv1.v
theories/RConv2.v
theories/RConv3.v
theories/RConvProofs.v
theories/PropsRConv.v
theories/MpiFftModel.v
theories/MpiFftSpec.v
theories/MpiFft1.v
theories/MpiFft2.v
theories/MpiFft3.v
theories/MpiFft4.v
theories/MpiFftProofs.v
theories/PropsMpiFft.v
theories/WrapModel.v
theories/WrapSpec.v
theories/Wrap1.v
theories/Wrap2.v
theories/Wrap3.v
theories/Wrap4.v
theories/Wrap5.v
theories/PropsWrap.v
theories/Wrap6.v
theories/PropsWrapM.v
theories/MpiColl.v
theories/MpiRFftModel.v
theories/MpiRFftSpec.v
theories/MpiRFft1.v
theories/MpiRFft2.v
theories/MpiRFft3.v
theories/MpiRFft4.v
theories/MpiRFftProofs.v
theories/PropsMpiRFft.v
theories/MpiR3Model.v
theories/MpiR3Spec.v
theories/MpiR3a.v
theories/MpiR3b.v
theories/MpiR3c.v
theories/MpiR3Proofs.v
theories/PropsMpiR3.v
theories/MpiCModel.v
theories/MpiC1.v
theories/MpiC2.v
theories/MpiC3.v
theories/MpiCSpec.v
theories/MpiCProofs.v
theories/PropsMpiC.v
theories/MpiHModel.v
theories/MpiHSpec.v
theories/MpiH1.v
theories/MpiH2.v
theories/MpiH3.v
theories/MpiH4.v
theories/MpiHProofs.v
theories/PropsMpiH.v
theories/DirSpec.v
theories/DirModel.v
theories/Dir1.v
theories/Dir2.v
theories/Dir3.v
theories/DirProofs.v
theories/DirAgree.v
theories/DirAgree2.v
theories/PropsDir.v
theories/LayerBad.v
theories/PropsLayerBad.v
