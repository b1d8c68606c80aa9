-Q theories Verif

theories/Base.v
theories/Bisect.v
theories/BisectFacts.v
theories/Seg.v
theories/Piecewise.v
theories/PiecewiseSpec.v
theories/PiecewiseFacts.v
theories/PiecewiseFacts2.v
theories/PiecewiseFacts3.v
theories/PiecewiseFacts4.v
theories/PiecewiseMain.v
theories/PropPiecewise.v
theories/ExPiecewise.v
theories/Integral.v
theories/IntegralFacts.v
theories/SegInt.v
theories/SegIntSpec.v
theories/SegIntFacts.v
theories/CumintFacts.v
theories/CumintFacts2.v
theories/SegIntMain.v
theories/PropSegInt.v
theories/ExSegInt.v
theories/SubstFacts.v
theories/Transform.v
theories/TransformSpec.v
theories/TransformFacts.v
theories/TransformFacts2.v
theories/TransformFacts3.v
theories/OperationFacts.v
theories/TransformFacts4.v
theories/TransformFacts5.v
theories/TransformMain.v
theories/PropTransform.v
theories/ExTransform.v
theories/Comb.v
theories/CombSpec.v
theories/CombFacts.v
theories/CombMain.v
theories/PropComb.v
theories/ExComb.v
theories/Iid.v
theories/IidSpec.v
theories/IidMain.v
theories/PropIid.v
theories/ExIid.v
theories/Conv.v
theories/ConvSpec.v
theories/ConvMain.v
theories/PropConv.v
theories/ExConv.v
theories/Root.v
theories/RootMain.v
theories/PropRoot.v
theories/Wide.v
theories/WideSpec.v
theories/WideMain.v
theories/PropWide.v
theories/ExRoot.v
theories/IntParts.v
theories/IntPartsFacts.v
theories/Indep.v
theories/IndepSpec.v
theories/AtomFacts.v
theories/AtomFacts2.v
theories/AtomFacts3.v
theories/AtomMain.v
theories/PropAtom.v
theories/ExAtom.v
theories/ConvolFacts.v
theories/IndepAsm.v
theories/AsmFacts.v
theories/ConvolFacts2.v
theories/ConvolMain.v
theories/PropConvol.v
theories/ExConvol.v
theories/SplitFacts.v
theories/ExtrFacts.v
theories/ExtrFacts2.v
theories/ExtrFacts3.v
theories/CdfDerive.v
theories/ExtrMain.v
theories/PropExtr.v
theories/ExExtr.v
theories/PairFacts.v
theories/QuotFacts.v
theories/QuotFacts2.v
theories/ProdFacts.v
theories/ProdFacts2.v
theories/ProdMain.v
theories/PropProd.v
theories/ExProd.v
theories/Vt.v
theories/VtSpec.v
theories/VtFacts.v
theories/VtMain.v
theories/PropVt.v
theories/ExVt.v
theories/Interp.v
theories/InterpSpec.v
theories/PolyFacts.v
theories/InterpFacts.v
theories/ChebFacts.v
theories/ChebFacts2.v
theories/ChebFacts3.v
theories/InterpMain.v
theories/PropInterp.v
theories/ExInterp.v
theories/Grid.v
theories/GridSpec.v
theories/GridFacts.v
theories/GridFacts2.v
theories/GridFacts3.v
theories/GridFacts4.v
theories/GridFacts5.v
theories/GridMain.v
theories/PropGrid.v
theories/ExGrid.v
theories/ND.v
theories/NDSpec.v
theories/NDFacts.v
theories/NDFacts2.v
theories/NDFacts3.v
theories/NDMain.v
theories/PropND.v
theories/ExND.v
theories/Models.v
theories/ModelsSpec.v
theories/ModelsFacts.v
theories/ModelsFacts2.v
theories/ModelsFacts3.v
theories/ModelsFacts4.v
theories/ModelsMain.v
theories/PropModels.v
theories/ExModels.v
theories/RV.v
theories/RVSpec.v
theories/RVFacts.v
theories/RVFacts2.v
theories/RVFacts3.v
theories/RVFacts4.v
theories/RVFacts5.v
theories/RVMain.v
theories/PropRV.v
theories/ExRV.v
theories/Discr.v
theories/DiscrSpec.v
theories/DiscrFacts.v
theories/DiscrFacts2.v
theories/DiscrMain.v
theories/PropDiscr.v
theories/ExDiscr.v
theories/Quant.v
theories/QuantSpec.v
theories/QuantFacts.v
theories/QuantFacts2.v
theories/QuantMain.v
theories/PropQuant.v
theories/ExQuant.v
theories/FuncSpec.v
theories/Func.v
theories/FuncFacts.v
theories/FuncFacts2.v
theories/FuncFacts3.v
theories/FuncFacts4.v
theories/FuncFacts5.v
theories/FuncMain.v
theories/PropFunc.v
theories/ExFunc.v
theories/CopulaSpec.v
theories/Copula.v
theories/CopulaFacts.v
theories/CopulaFacts2.v
theories/CopulaFacts3.v
theories/CopulaMain.v
theories/PropCopula.v
theories/ExCopula.v
theories/MixSpec.v
theories/Mix.v
theories/MixFacts.v
theories/MixMain.v
theories/PropMix.v
theories/ExMix.v
theories/ProdAsm.v
theories/ProdAsmSpec.v
theories/ProdAsmFacts.v
theories/ProdAsmMain.v
theories/DensLaw.v
theories/ProdConstFacts.v
theories/PropProdAsm.v
theories/ExProdAsm.v
theories/Cond.v
theories/CondSpec.v
theories/CondFacts.v
theories/CondFacts2.v
theories/CondFacts3.v
theories/CondFacts4.v
theories/CondFacts5.v
theories/CondMain.v
theories/PropCond.v
theories/ExCond.v
theories/DivAsm.v
theories/DivAsmSpec.v
theories/DivAsmFacts.v
theories/DivAsmFacts2.v
theories/DivAsmFacts3.v
theories/DivAsmMain.v
theories/PropDivAsm.v
theories/ExDivAsm.v
theories/Std.v
theories/StdSpec.v
theories/StdFacts.v
theories/StdFacts2.v
theories/StdFacts3.v
theories/StdFacts4.v
theories/StdFacts5.v
theories/StdFacts6.v
theories/StdFacts7.v
theories/StdFacts8.v
theories/StdFacts9.v
theories/StdMain.v
theories/PropStd.v
theories/ExStd.v
theories/MomSpec.v
theories/Mom.v
theories/MomFacts.v
theories/MomFacts2.v
theories/MomFacts3.v
theories/MomFacts4.v
theories/MomFacts5.v
theories/MomFacts6.v
theories/MomMain.v
theories/PropMom.v
theories/ExMom.v
theories/MStdSpec.v
theories/MStdFacts.v
theories/MStdFacts2.v
theories/MStdFacts3.v
theories/MStdFacts4.v
theories/MStdFacts5.v
theories/MStdFacts6.v
theories/MStdMain.v
theories/PropMStd.v
theories/ExMStd.v
theories/Quad.v
theories/QuadFacts.v
theories/QuadFacts2.v
theories/QuadFacts3.v
theories/QuadFacts4.v
theories/QuadFacts5.v
theories/QuadFacts6.v
theories/QuadMain.v
theories/PropQuad.v
theories/ExQuad.v
theories/ChebT.v
theories/ChebTSpec.v
theories/ChebTFacts.v
theories/ChebTFacts2.v
theories/ChebTFacts3.v
theories/ChebTFacts4.v
theories/ChebTMain.v
theories/PropChebT.v
theories/ExChebT.v
theories/RField.v
theories/RMx.v
theories/RMxFacts.v
theories/NDNorm.v
theories/NDNormSpec.v
theories/NDNormFacts.v
theories/NDNormFacts2.v
theories/NDNormFacts3.v
theories/NDNormFacts4.v
theories/NDNormMain.v
theories/PropNDNorm.v
theories/ExNDNorm.v
theories/Info.v
theories/InfoSpec.v
theories/InfoFacts.v
theories/InfoFacts2.v
theories/InfoFacts3.v
theories/InfoFacts4.v
theories/InfoMain.v
theories/PropInfo.v
theories/ExInfo.v
theories/TwoVars.v
theories/TwoVarsSpec.v
theories/TwoVarsFacts.v
theories/TwoVarsFacts2.v
theories/TwoVarsFacts3.v
theories/TwoVarsMain.v
theories/PropTwoVars.v
theories/ExTwoVars.v
theories/OrdJoint.v
theories/OrdJointSpec.v
theories/OrdJointFacts.v
theories/OrdJointFacts2.v
theories/OrdJointMain.v
theories/PropOrdJoint.v
theories/ExOrdJoint.v
theories/CondND.v
theories/CondNDSpec.v
theories/CondNDFacts.v
theories/CondNDFacts2.v
theories/CondNDFacts3.v
theories/CondNDFacts4.v
theories/CondNDMain.v
theories/PropCondND.v
theories/ExCondND.v
theories/StdPoleSpec.v
theories/StdPoleFacts.v
theories/StdPoleFacts2.v
theories/StdPoleFacts3.v
theories/StdPoleFacts4.v
theories/StdPoleMain.v
theories/PropStdPole.v
theories/ExStdPole.v
theories/Lgam.v
theories/LgamSpec.v
theories/LgamFacts.v
theories/LgamFacts2.v
theories/LgamMain.v
theories/PropLgam.v
theories/ExLgam.v
theories/Summ.v
theories/SummSpec.v
theories/SummFacts.v
theories/SummFacts2.v
theories/SummFacts3.v
theories/SummFacts4.v
theories/SummMain.v
theories/PropSumm.v
theories/ExSumm.v
theories/Expo.v
theories/ExpoSpec.v
theories/ExpoFacts.v
theories/ExpoFacts2.v
theories/ExpoMain.v
theories/PropExpo.v
theories/ExExpo.v
theories/Inv.v
theories/InvSpec.v
theories/InvFacts.v
theories/InvFacts2.v
theories/InvFacts3.v
theories/InvMain.v
theories/PropInv.v
theories/ExInv.v
theories/Depm.v
theories/DepmSpec.v
theories/DepmFacts.v
theories/DepmMain.v
theories/PropDepm.v
theories/ExDepm.v
theories/Ccond.v
theories/CcondSpec.v
theories/CcondFacts.v
theories/CcondMain.v
theories/PropCcond.v
theories/ExCcond.v
theories/Stab.v
theories/StabMain.v
theories/PropStab.v
theories/ExStab.v
