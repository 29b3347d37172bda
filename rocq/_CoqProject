-Q theories Verif
theories/Prelude.v
theories/M_Bigint.v
theories/M_Variable.v
theories/M_Term.v
theories/M_Poly.v
theories/M_Curve.v
theories/M_DivPoly.v
theories/M_QSeries.v
theories/M_Solve.v
theories/M_Modular.v
theories/M_Schoof.v
theories/M_Display.v
theories/P_Bigint.v
theories/P_Variable.v
theories/Spec.v
theories/P_VariableProps.v
theories/P_FSum.v
theories/P_Poly.v
theories/C_Bigint.v
theories/P_Variable2.v
theories/C_Variable.v
theories/P_Rem.v
theories/P_PolyProps.v
theories/C_Poly.v
theories/P_Subst.v
theories/P_Subst2.v
theories/P_Subst3.v
theories/P_SubstProps.v
theories/C_Subst.v
theories/P_Mod.v
theories/P_Gcd.v
theories/P_GcdProps.v
theories/C_Gcd.v
theories/P_Q.v
theories/P_QProps.v
theories/C_Q.v
theories/P_Solve.v
theories/P_SolveProps.v
theories/C_Solve.v
theories/P_Modular.v
theories/P_Modular2.v
theories/P_ModularProps.v
theories/C_Modular.v
theories/P_Group.v
theories/SpecCurve.v
theories/P_Fp.v
theories/P_Curve.v
theories/P_Curve2.v
theories/P_Curve3.v
theories/P_Curve4.v
theories/P_CurveProps.v
theories/C_Curve.v
theories/P_Prime.v
theories/P_SecpProps.v
theories/C_Secp.v
theories/P_DivPoly.v
theories/P_DivPoly2.v
theories/P_DivPoly3.v
theories/P_DivPoly4.v
theories/P_DivPoly5.v
theories/P_DivProps.v
theories/C_Div.v
theories/P_Gcd2.v
theories/P_Roots.v
theories/P_Sea.v
theories/P_SeaProps.v
theories/C_Sea.v
theories/SpecDisplay.v
theories/P_Display.v
theories/P_DisplayProps.v
theories/C_Display.v
theories/P_Display2Props.v
theories/C_Display2.v
theories/P_QuotProps.v
theories/C_Quot.v
theories/P_Eds1.v
theories/P_Eds2.v
theories/P_Eds3.v
theories/P_DivVal.v
theories/P_Mul.v
theories/P_MulProps.v
theories/C_Mul.v
theories/P_FinF.v
theories/P_HasseId.v
theories/P_HasseGcd.v
theories/P_HasseStep.v
theories/P_HasseDeg.v
theories/P_HasseFrob.v
theories/P_HasseFin.v
theories/P_HasseZ.v
theories/P_HasseProps.v
theories/C_Hasse.v
theories/P_SecpN.v
theories/P_Secp2Props.v
theories/C_Secp2.v
theories/SpecTwist.v
theories/P_Euler.v
theories/P_TwistProps.v
theories/C_Twist.v
theories/P_InvProps.v
theories/C_Inv.v
theories/SpecRepr.v
theories/P_ReprProps.v
theories/C_Repr.v
theories/P_Binom.v
theories/P_NormalProps.v
theories/C_Normal.v
theories/P_RootProps.v
theories/C_Root.v
theories/P_AbGroup.v
theories/P_Torsion.v
theories/P_TorsionProps.v
theories/C_Torsion.v
theories/P_SchoofVal.v
theories/P_SchoofProps.v
theories/C_Schoof.v
theories/P_JPos.v
theories/P_ModRet.v
theories/P_ModRet2.v
theories/P_ModRet3.v
theories/P_ModRetProps.v
theories/C_ModRet.v
theories/P_DivRange.v
theories/P_DivRangeProps.v
theories/C_DivRange.v
theories/P_XQuot.v
theories/P_XQuotProps.v
theories/C_XQuot.v
theories/P_Sqfree.v
theories/P_GcdLawProps.v
theories/C_GcdLaw.v
theories/P_SqfreeProps.v
theories/C_Sqfree.v
theories/P_SingProps.v
theories/C_Sing.v
theories/SpecKron.v
theories/P_Kron.v
theories/P_KronProps.v
theories/C_Kron.v
theories/P_DivUni.v
theories/P_DivUni2.v
theories/P_DivUni3.v
theories/P_DivUniProps.v
theories/C_DivUni.v
theories/SpecSchoof.v
theories/P_SchoofId.v
theories/P_SchoofId2.v
theories/P_SchoofId3.v
theories/P_SchoofDecProps.v
theories/C_SchoofDec.v
theories/P_QArith.v
theories/P_QArithProps.v
theories/C_QArith.v
theories/P_Tors3.v
theories/P_EK.v
theories/P_Lin3.v
theories/P_Clos.v
theories/P_FPoly.v
theories/P_Three.v
theories/P_Three2.v
theories/P_Three3.v
theories/P_ThreeProps.v
theories/C_Three.v
theories/P_Smap.v
theories/P_FrobW.v
theories/P_FrobComp.v
theories/P_FrobTau.v
theories/P_FrobChar.v
theories/P_FrobAll.v
theories/P_TrClos.v
theories/P_Five.v
theories/P_XMatch.v
theories/P_PsiVal.v
theories/P_FiveVal.v
theories/P_FiveSep.v
theories/P_FiveAbs.v
theories/P_FiveMatch.v
theories/P_FiveZ.v
theories/P_FiveProps.v
theories/C_Five.v
theories/SpecFive.v
theories/P_FiveW.v
theories/P_FiveOneProps.v
theories/C_FiveOne.v
theories/SpecThree.v
theories/P_ThreeAbs.v
theories/P_ThreeSign.v
theories/P_YMatch.v
theories/P_ThreeSign2.v
theories/P_ThreeSignProps.v
theories/C_ThreeSign.v
theories/P_TorsCount.v
theories/P_TorsCountProps.v
theories/C_TorsCount.v
theories/P_IsogenyProps.v
theories/C_Isogeny.v
theories/P_Cubic.v
theories/P_TwoTors.v
theories/P_TwoTorsProps.v
theories/C_TwoTors.v
theories/P_JClassProps.v
theories/C_JClass.v
theories/P_OrderProps.v
theories/C_Order.v
theories/SpecEnum.v
theories/P_EnumProps.v
theories/C_Enum.v
theories/SpecCrt.v
theories/P_CrtProps.v
theories/C_Crt.v
theories/SpecLead.v
theories/P_LeadProps.v
theories/C_Lead.v
theories/P_ComposeProps.v
theories/C_Compose.v
theories/P_FactorProps.v
theories/C_Factor.v
theories/P_DoubleProps.v
theories/C_Double.v
theories/Tests.v
