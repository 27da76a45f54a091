-Q theories Verif
theories/Base.v
theories/Float.v
theories/Rational.v
theories/SmartNum.v
theories/Ast.v
theories/Compute.v
theories/Limit.v
theories/Display.v
theories/Sanity.v
theories/Spec.v
theories/BaseProofs.v
theories/RationalProofs.v
theories/NumProofs.v
theories/NumProofs2.v
theories/PropsNum.v
theories/SpecTree.v
theories/TreeProofs.v
theories/TreeProofs2.v
theories/TreeProofs3.v
theories/TreeProofs4.v
theories/TreeProofs5.v
theories/PropsTree.v
theories/SpecR.v
theories/RealProofs.v
theories/RealDeriv.v
theories/RealDeriv2.v
theories/RealTaylor.v
theories/PropsReal.v
theories/SpecLim.v
theories/LimProofs.v
theories/LHopital.v
theories/LimSound.v
theories/PropsLim.v
theories/SpecF.v
theories/FloatProofs.v
theories/FloatNum.v
theories/FloatNum2.v
theories/ConstProofs.v
theories/PropsFloat.v
theories/SpecDisp.v
theories/DispProofs.v
theories/DispParse.v
theories/DispEval.v
theories/DispExpand.v
theories/PropsDisp.v
theories/PropsMisc.v
theories/PropsAlg.v
theories/LimTerm.v
theories/LimTerm2.v
theories/LimTerm3.v
theories/LimTerm4.v
theories/PropsTerm.v
theories/SpecPoly.v
theories/PolyProofs.v
theories/PropsPoly.v
theories/SpecShape.v
theories/ShapeProofs.v
theories/PropsShape.v
theories/SpecLim2.v
theories/PropsEntire.v
theories/PropsLimText.v
theories/PropsLimOrd.v
theories/SpecMulti.v
theories/PropsFun.v
theories/ContProofs.v
theories/MixedProofs.v
theories/GradProofs.v
theories/PropsGrad.v
theories/SpecInt.v
theories/IntProofs.v
theories/PropsInt.v
theories/SpecMod.v
theories/ModProofs.v
theories/PropsMod.v
theories/SpecExact.v
theories/ExactProofs.v
theories/PropsExact.v
theories/SpecBigO.v
theories/PropsBigO.v
theories/SpecRaw.v
theories/RawProofs.v
theories/PropsRaw.v
theories/Main.v
theories/PropsMain.v
theories/PropsRing.v
theories/SpecTayAlg.v
theories/PropsTayAlg.v
theories/SpecPlug.v
theories/PropsPlug.v
theories/PropsNum2.v
theories/SpecF2.v
theories/PropsFloat2.v
theories/PropsSubNeg.v
theories/PropsGrow.v
theories/SpecAcc.v
theories/PropsAcc.v
theories/PropsComp.v
theories/SpecStd.v
theories/PropsStd.v
theories/SpecLH.v
theories/PropsLH.v
theories/PropsSmall.v
theories/SpecPanic.v
theories/PropsPanic.v
theories/SpecHeight.v
theories/PropsHeight.v
theories/SpecFrac.v
theories/PropsFrac.v
theories/SpecLHSin.v
theories/PropsLHSin.v
theories/SpecWrap.v
theories/PropsWrap.v
theories/SpecOver.v
theories/PropsOver.v
theories/PropsOrder.v
theories/SpecMixed.v
theories/PropsMixed.v
theories/SpecPlug2.v
theories/PropsPlug2.v
theories/SpecQuot.v
theories/PropsQuot.v
theories/SpecExp.v
theories/PropsExp.v
theories/SpecFPoly.v
theories/PropsFPoly.v
theories/SpecSPoly.v
theories/PropsSPoly.v
theories/Direct.v
theories/SpecDirect.v
theories/PropsDirect.v
theories/PropsGrow2.v
theories/SpecNaN.v
theories/PropsNaN.v
theories/SpecSession.v
theories/PropsSession.v
theories/Depth.v
theories/PropsDepth.v
theories/PropsDepth2.v
theories/PropsAudit.v
theories/Work.v
theories/PropsWork.v
theories/Debug.v
theories/Debug2.v
theories/SpecDebug.v
theories/PropsDebug.v
theories/SpecPasses.v
theories/PropsPasses.v
theories/PropsDepth3.v
theories/PropsWork2.v
theories/WorkLim.v
theories/PropsWork3.v
theories/SpecSession2.v
theories/PropsSession2.v
theories/SpecPow2.v
theories/PropsPow2.v
theories/SpecLimInt.v
theories/PropsLimInt.v
theories/SpecDisp2.v
theories/PropsDisp2.v
theories/SpecRead.v
theories/PropsRead.v
theories/PropsDebug2.v
theories/PropsTayPow.v
theories/SpecUndef.v
theories/PropsUndef.v
theories/PropsUndefTay.v
theories/PropsUndefInt.v
theories/PropsPole.v
theories/PropsUndefDer.v
theories/PropsUndefQuot.v
