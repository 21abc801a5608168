-Q theories Verif
theories/AdaptModel.v
theories/AioModel.v
theories/AioRun.v
theories/AioSpec.v
theories/AlsFacts.v
theories/AlsModel.v
theories/AlsRun.v
theories/AlsSpec.v
theories/Base.v
theories/BaseFacts.v
theories/BfgsFacts.v
theories/BfgsModel.v
theories/Blas.v
theories/BlasFacts.v
theories/CRing.v
theories/CdModel.v
theories/Chain.v
theories/ConstElmFacts.v
theories/ConstElmModel.v
theories/ConstElmMore.v
theories/CrossFacts.v
theories/CrossModel.v
theories/CrossSteps.v
theories/CrossSweep.v
theories/CvModel.v
theories/DistModel.v
theories/ErfSpec.v
theories/FFTCheb.v
theories/FFTFacts.v
theories/FFTModel.v
theories/FFTMore.v
theories/FFTSlow.v
theories/FOps.v
theories/FTArith.v
theories/FTBlasModel.v
theories/FTCtor.v
theories/FTCtorModel.v
theories/FTCtorVal.v
theories/FTDiff.v
theories/FTDiffModel.v
theories/FTDiffSpec.v
theories/FTEval.v
theories/FTFacts.v
theories/FTFiber.v
theories/FTGradEval.v
theories/FTInt.v
theories/FTModel.v
theories/FTMore.v
theories/FTPert.v
theories/FTProd.v
theories/FTRealDeriv.v
theories/FTSpec.v
theories/FTSubFacts.v
theories/FTSubModel.v
theories/FTUpTo.v
theories/Fill.v
theories/FwrapFacts.v
theories/FwrapModel.v
theories/GridModel.v
theories/HermFacts.v
theories/HessFacts.v
theories/HessLoops.v
theories/HessModel.v
theories/HessRun.v
theories/HessTrain.v
theories/IdxFacts.v
theories/IdxModel.v
theories/Instances.v
theories/KernFacts.v
theories/KernModel.v
theories/KernSpec.v
theories/LbfgsFacts.v
theories/LegFacts.v
theories/LinComb.v
theories/LinElmAdapt.v
theories/LinElmArith.v
theories/LinElmErr.v
theories/LinElmFacts.v
theories/LinElmGrad.v
theories/LinElmInt.v
theories/LinElmMerge.v
theories/LinElmModel.v
theories/LinElmMore.v
theories/LinElmSpec.v
theories/LinElmTight.v
theories/LinSlope.v
theories/LuFacts.v
theories/LuModel.v
theories/MatFacts.v
theories/MaxvolFacts.v
theories/MaxvolRun.v
theories/MonFacts.v
theories/MonModel.v
theories/MonText.v
theories/OpeApprox.v
theories/OpeBasis.v
theories/OpeDer.v
theories/OpeDer2.v
theories/OpeFacts.v
theories/OpeGrad.v
theories/OpeInt.v
theories/OpeLin.v
theories/OpeLin2.v
theories/OpeModel.v
theories/OpeProd.v
theories/OpeSpec.v
theories/OptBox.v
theories/OptFacts.v
theories/OptMiscModel.v
theories/OptModel.v
theories/OptWolfe.v
theories/OrthAbs.v
theories/OrthDep.v
theories/OrthFacts.v
theories/OrthModel.v
theories/PAllocCst.v
theories/PAllocFacts.v
theories/PAllocModel.v
theories/PAllocPad.v
theories/PAllocUpd.v
theories/PGradApp.v
theories/PGradFacts.v
theories/PGradLen.v
theories/PGradModel.v
theories/PGradTrain.v
theories/PackFacts.v
theories/PackModel.v
theories/ParamBad.v
theories/ParamFacts.v
theories/ParamModel.v
theories/PinvFacts.v
theories/PinvModel.v
theories/PolyInst.v
theories/ProbModel.v
theories/PropAdapt.v
theories/PropAio.v
theories/PropAls.v
theories/PropArgs.v
theories/PropBfgs.v
theories/PropCd.v
theories/PropConst.v
theories/PropCross.v
theories/PropCross2.v
theories/PropCross3.v
theories/PropCross4.v
theories/PropCtor.v
theories/PropCv.v
theories/PropCvGrid.v
theories/PropDiff.v
theories/PropDist.v
theories/PropFFT.v
theories/PropFT.v
theories/PropFTBlas.v
theories/PropFTSub.v
theories/PropFwrap.v
theories/PropHess.v
theories/PropIdx.v
theories/PropKern.v
theories/PropKern2.v
theories/PropLbfgs.v
theories/PropLin.v
theories/PropLu.v
theories/PropMaxvol.v
theories/PropMon.v
theories/PropOpe1.v
theories/PropOpe2.v
theories/PropOpe3.v
theories/PropOpe4.v
theories/PropOpe5.v
theories/PropOpe6.v
theories/PropOpe7.v
theories/PropOpt.v
theories/PropOpt2.v
theories/PropOpt3.v
theories/PropOptHist.v
theories/PropOptMisc.v
theories/PropOrth.v
theories/PropPAlloc.v
theories/PropPGrad.v
theories/PropPack.v
theories/PropParam.v
theories/PropPinv.v
theories/PropProb.v
theories/PropPw.v
theories/PropPwA.v
theories/PropQma.v
theories/PropQn.v
theories/PropQn2.v
theories/PropRankAdapt.v
theories/PropRound.v
theories/PropRound2.v
theories/PropSer.v
theories/PropSgd.v
theories/PropSlow.v
theories/PropSobol.v
theories/PropSobol2.v
theories/PropStr.v
theories/PropSvd.v
theories/PropTensor.v
theories/PropTight.v
theories/PropTight2.v
theories/PropTight3.v
theories/PwAdapt.v
theories/PwFacts.v
theories/PwMatch.v
theories/PwModel.v
theories/PwOps.v
theories/PwSpec.v
theories/QmaFacts.v
theories/QmaMore.v
theories/QnModel.v
theories/QuadCC.v
theories/QuadFacts.v
theories/QuadModel.v
theories/QuadMore.v
theories/RIntLib.v
theories/RealInst.v
theories/RealPoly.v
theories/RoundModel.v
theories/RoundMono.v
theories/RoundRun.v
theories/RoundStep.v
theories/RoundSvd.v
theories/RoundSweep.v
theories/SerFacts.v
theories/SerModel.v
theories/SgdFacts.v
theories/SgdModel.v
theories/SobolFacts.v
theories/SobolModel.v
theories/SobolTree.v
theories/StrFacts.v
theories/StrItoa.v
theories/StrModel.v
theories/Svd2.v
theories/TTFacts.v
theories/TTMain.v
theories/TensorFacts.v
theories/TensorModel.v
theories/TensorSpec.v
