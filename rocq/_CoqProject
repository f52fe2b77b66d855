-Q theories Verif
theories/AccCount.v
theories/AccF64.v
theories/AngleRule.v
theories/Arith.v
theories/Bern.v
theories/Bernstein.v
theories/Bessel.v
theories/BesselJ.v
theories/BesselTab.v
theories/BogCmp.v
theories/BogFloat.v
theories/BogGauss.v
theories/BogLeg.v
theories/BogMap.v
theories/BogPair.v
theories/BogPoly.v
theories/BogRoot.v
theories/BogRule.v
theories/BogT.v
theories/BogUse.v
theories/ChebExact.v
theories/ChebFloat.v
theories/ChebRule.v
theories/ChebSpec.v
theories/Chebyshev.v
theories/ConvAbs.v
theories/ConvEx.v
theories/ConvGen.v
theories/ConvRules.v
theories/ConvSpec.v
theories/DegreeProof.v
theories/Delegate.v
theories/DoubleFloat.v
theories/DoubleFloatEx.v
theories/DoubleFloatSpec.v
theories/DoubleInt.v
theories/DoubleLeg.v
theories/DoubleSpec.v
theories/EigenProof.v
theories/EigenSpec.v
theories/EqProof.v
theories/EqSpec.v
theories/ErrCheb.v
theories/ErrConv.v
theories/ErrEx.v
theories/ErrLeg.v
theories/ErrLimit.v
theories/ErrRules.v
theories/ErrSharp.v
theories/ErrorSpec.v
theories/Exc.v
theories/ExcExamples.v
theories/ExcSpec.v
theories/ExpConv.v
theories/ExpConvEx.v
theories/ExpConvSpec.v
theories/ExtraProof.v
theories/F64.v
theories/F64Proof.v
theories/F64Spec.v
theories/FinSpec.v
theories/Finite.v
theories/FiniteCall.v
theories/FiniteEx.v
theories/FiniteNC.v
theories/FiniteRules.v
theories/Fix63.v
theories/FixPoint.v
theories/FloatExamples.v
theories/Fourier.v
theories/FourierEx.v
theories/FourierSpec.v
theories/FreeProof.v
theories/FreeSpec.v
theories/GWProof.v
theories/GWRoots.v
theories/GWSpec.v
theories/GamAcc.v
theories/GamAll.v
theories/GamFloat.v
theories/GamFloatArg.v
theories/GamFloatCases.v
theories/GamFloatEx.v
theories/GamFloatJac.v
theories/GamFloatRule.v
theories/GamFloatScale.v
theories/GamFloatSpec.v
theories/GamNum.v
theories/GamPoly.v
theories/GamPsi.v
theories/GamRatio.v
theories/GamReflect.v
theories/GamRule.v
theories/Gamma.v
theories/GammaProof.v
theories/GammaTrue.v
theories/GaussErr.v
theories/GaussExact.v
theories/GaussFloat.v
theories/GaussFloatRules.v
theories/GaussProof.v
theories/GaussRuleSpec.v
theories/GaussSide.v
theories/GaussSpec.v
theories/Gaussian.v
theories/GeoSpec.v
theories/Geometric.v
theories/GolubWelsch.v
theories/Hermite.v
theories/Improper.v
theories/ImproperExist.v
theories/Ineq.v
theories/IneqEx.v
theories/IneqSpec.v
theories/Inexact.v
theories/InexactEnd.v
theories/InexactExamples.v
theories/InexactF64.v
theories/InexactF64Rules.v
theories/InexactF64Spec.v
theories/InexactNorm.v
theories/InexactRules.v
theories/InexactSpec.v
theories/InsideExamples.v
theories/InsideGauss.v
theories/InsideProof.v
theories/InsideSpec.v
theories/IntegrateProof.v
theories/IntegrateSpec.v
theories/InterSpec.v
theories/Interlace.v
theories/Interp.v
theories/Iter.v
theories/IterProof.v
theories/IterSpec.v
theories/JacFloat.v
theories/JacFloatEx.v
theories/JacFloatRule.v
theories/Jacobi.v
theories/JacobiFinite.v
theories/JacobiFloat.v
theories/JacobiMore.v
theories/JacobiNan.v
theories/JacobiWeight.v
theories/Jordan.v
theories/KeyOrder.v
theories/Laguerre.v
theories/LaguerreWeight.v
theories/Lead.v
theories/LeadUse.v
theories/LegAsym.v
theories/LegBig.v
theories/LegBigEx.v
theories/LegBigFloat.v
theories/LegBigPoly.v
theories/LegBigRule.v
theories/LegCheb.v
theories/LegCheck.v
theories/LegConv.v
theories/LegFloat.v
theories/LegInt.v
theories/LegMom.v
theories/LegOde.v
theories/LegPoly.v
theories/LegRun.v
theories/LegShape.v
theories/LegSide.v
theories/LegSym.v
theories/LegTable.v
theories/LegWeight.v
theories/LegZero.v
theories/LegZeroAp.v
theories/LegZeroPair.v
theories/LegZeroRule.v
theories/LegZeroRun.v
theories/LegZeroUse.v
theories/Legendre.v
theories/LegendreData.v
theories/LipLeg.v
theories/LipRule.v
theories/LipSpec.v
theories/Machine.v
theories/MassSpec.v
theories/McMahon.v
theories/McPair.v
theories/McPoly.v
theories/McRule.v
theories/Mirror.v
theories/MonoInt.v
theories/MonoLeg.v
theories/MonoRule.v
theories/MonoSpec.v
theories/NCBound.v
theories/NCError.v
theories/NCExact.v
theories/NCExamples.v
theories/NCFloat.v
theories/NCFloatEnd.v
theories/NCFloatSpec.v
theories/NCMore.v
theories/NCMoreSpec.v
theories/NCReal.v
theories/NCRiemann.v
theories/NCShape.v
theories/NCShapeEx.v
theories/NCSpec.v
theories/NestProof.v
theories/NestSpec.v
theories/NewtonCotes.v
theories/NodeRange.v
theories/Ode.v
theories/Order.v
theories/OrderSpec.v
theories/OrderUse.v
theories/OrthoProof.v
theories/Par.v
theories/ParEx.v
theories/ParSpec.v
theories/Param.v
theories/ParamMore.v
theories/ParamMoreProof.v
theories/ParamProof.v
theories/ParamSpec.v
theories/Parity.v
theories/PolyProof.v
theories/PolySpec.v
theories/Prop_BogFloat.v
theories/Prop_Bogaert.v
theories/Prop_Build.v
theories/Prop_Chebyshev.v
theories/Prop_Converge.v
theories/Prop_Data.v
theories/Prop_Delegate.v
theories/Prop_Double.v
theories/Prop_DoubleFloat.v
theories/Prop_Error.v
theories/Prop_Exact.v
theories/Prop_Exc.v
theories/Prop_ExpConv.v
theories/Prop_Finite.v
theories/Prop_Float.v
theories/Prop_GamFloat.v
theories/Prop_Gamma.v
theories/Prop_GammaAcc.v
theories/Prop_Gauss.v
theories/Prop_Geometric.v
theories/Prop_GolubWelsch.v
theories/Prop_Ineq.v
theories/Prop_Inexact.v
theories/Prop_Inside.v
theories/Prop_Interlace.v
theories/Prop_JacFloat.v
theories/Prop_Lead.v
theories/Prop_LegBig.v
theories/Prop_LegExact.v
theories/Prop_LegTable.v
theories/Prop_Legendre.v
theories/Prop_Lip.v
theories/Prop_Mirror.v
theories/Prop_Mono.v
theories/Prop_NCFloat.v
theories/Prop_NCMore.v
theories/Prop_Nest.v
theories/Prop_NewtonCotes.v
theories/Prop_Order.v
theories/Prop_Param.v
theories/Prop_Parity.v
theories/Prop_Periodic.v
theories/Prop_Range.v
theories/Prop_Riemann.v
theories/Prop_Round.v
theories/Prop_Scale.v
theories/Prop_Sep.v
theories/Prop_Serde.v
theories/Prop_Side.v
theories/Prop_Sign.v
theories/Prop_Singular.v
theories/Prop_TrigFloat.v
theories/Prop_Var.v
theories/RInst.v
theories/RInstProof.v
theories/RSum.v
theories/RegionEx.v
theories/RegionFloat.v
theories/RieLeg.v
theories/RieStep.v
theories/RoundExamples.v
theories/RoundNC.v
theories/RoundProof.v
theories/RoundRules.v
theories/RoundSpec.v
theories/RuleSpec.v
theories/Rules.v
theories/Scale.v
theories/ScaleEx.v
theories/ScaleSpec.v
theories/ScaleVar.v
theories/SepCheb.v
theories/SepEnd.v
theories/SepEx.v
theories/SepFloat.v
theories/SepLeg.v
theories/SepSpec.v
theories/Serde.v
theories/SerdeBad.v
theories/SerdeErr.v
theories/SerdeProof.v
theories/SerdeSpec.v
theories/SideSpec.v
theories/SignMore.v
theories/SignProof.v
theories/SignRules.v
theories/SignSpec.v
theories/SignWeights.v
theories/SinSer.v
theories/Singular.v
theories/SingularEx.v
theories/SingularSpec.v
theories/SizeProof.v
theories/SmallRules.v
theories/Spectral.v
theories/StepPoly.v
theories/TM.v
theories/TraceProof.v
theories/TransferProof.v
theories/TransferSpec.v
theories/Trig.v
theories/TrigEx.v
theories/TrigSpec.v
theories/VarRule.v
theories/VarSpec.v
theories/WeightSpec.v
theories/ZeroProof.v
theories/ZeroSpec.v
