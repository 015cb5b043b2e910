-Q theories Verif
theories/Base.v
theories/Tensor.v
theories/Spec.v
theories/Calc.v
theories/M_Subroutines.v
theories/P_Quad.v
theories/P_Sub.v
theories/P_Sub2.v
theories/P_Sub3.v
theories/P_SubApi.v
theories/Properties_Sub.v
theories/M_LinAlg.v
theories/M_GenPart.v
theories/P_Special.v
theories/Spec_RTE.v
theories/P_GenPart.v
theories/P_GenPart2.v
theories/P_GenPart3.v
theories/P_GenPart4.v
theories/Examples.v
theories/Properties_Spectral.v
theories/P_Tensor.v
theories/M_MathscrV.v
theories/P_MathscrV.v
theories/Properties_Iso.v
theories/M_Coeffs.v
theories/P_Coeffs.v
theories/P_Coeffs2.v
theories/P_Coeffs3.v
theories/M_Assemble.v
theories/M_Pydisort.v
theories/M_Interp.v
theories/Spec_Interp.v
theories/P_Interp.v
theories/P_Interp2.v
theories/P_Interp3.v
theories/P_Interp4.v
theories/P_Interp5.v
theories/P_LinA.v
theories/P_Unique.v
theories/Spec_Unique.v
theories/P_Unique2.v
theories/P_Unique3.v
theories/P_Refine.v
theories/P_Assemble.v
theories/P_Solve.v
theories/Spec_Sol.v
theories/Spec_Valid.v
theories/P_Valid.v
theories/P_Pydisort.v
theories/P_Pydisort2.v
theories/P_Pydisort3.v
theories/Examples2.v
theories/P_Fourier.v
theories/P_Pydisort4.v
theories/P_Energy.v
theories/P_Pydisort5.v
theories/P_Pydisort6.v
theories/Examples3.v
theories/P_Pydisort7.v
theories/P_Pydisort8.v
theories/Spec_Calls.v
theories/P_Same.v
theories/P_Teq.v
theories/P_Cong.v
theories/P_Cong2.v
theories/P_Whole.v
theories/P_Options.v
theories/P_Scale.v
theories/P_Actinic.v
theories/P_Absorb.v
theories/P_Refute.v
theories/P_Error.v
theories/Spec_Anti.v
theories/P_Anti.v
theories/P_Anti2.v
theories/Spec_NT.v
theories/P_NT.v
theories/P_NT2.v
theories/P_NT3.v
theories/P_NT4.v
theories/P_Scaled.v
theories/Properties_Solution.v
theories/Properties_Options.v
theories/Properties_Sources.v
theories/Properties_Anti.v
theories/Properties_NT.v
theories/Properties_Interp.v
theories/P_RefineNT.v
theories/Properties_Unique.v
theories/Spec_Phys.v
theories/P_Max.v
theories/P_Max2.v
theories/P_Max3.v
theories/P_Max4.v
theories/P_Super.v
theories/Spec_Solved.v
theories/P_Spec1.v
theories/P_Spec2.v
theories/P_Spec3.v
theories/P_Spec4.v
theories/P_Spec5.v
theories/P_Spec6.v
theories/P_Spec7.v
theories/Spec_Rates.v
theories/P_Legendre.v
theories/P_Rates.v
theories/P_Rates2.v
theories/Properties_Rates.v
theories/Spec_Lossy.v
theories/P_Lossy.v
theories/P_Lossy2.v
theories/P_Lossy3.v
theories/Properties_Lossy.v
theories/P_Orth.v
theories/P_Orth2.v
theories/P_Orth3.v
theories/Properties_Enough.v
theories/M_Warn.v
theories/M_History.v
theories/Spec_History.v
theories/P_History.v
theories/P_History2.v
theories/Examples10.v
theories/Properties_History.v
theories/Spec_Warn.v
theories/P_Warn.v
theories/P_Warn2.v
theories/Properties_Warn.v
theories/Examples4.v
theories/Properties_Phys.v
theories/Examples5.v
theories/Examples6.v
theories/Properties_Solved.v
theories/Spec_Full.v
theories/P_Addition.v
theories/P_Full.v
theories/P_Full2.v
theories/P_Full3.v
theories/Examples7.v
theories/Properties_Full.v
theories/M_Compare.v
theories/Spec_Compare.v
theories/P_Compare.v
theories/Properties_Compare.v
theories/Spec_Mono.v
theories/Spec_Depend.v
theories/P_Mono.v
theories/P_Depend.v
theories/P_Depend2.v
theories/Examples8.v
theories/Properties_Mono.v
theories/Spec_Sym.v
theories/P_Sym.v
theories/Properties_Sym.v
theories/P_Gauss.v
theories/Spec_Sun.v
theories/P_Sun.v
theories/Examples9.v
theories/Properties_Gauss.v
theories/Properties_Depend.v
theories/M_Float.v
theories/Spec_Float.v
theories/P_Float.v
theories/P_Float2.v
theories/P_Float3.v
theories/P_Float4.v
theories/P_Float5.v
theories/M_FloatSol.v
theories/Spec_FloatSol.v
theories/P_FloatSol.v
theories/Properties_Float.v
theories/Properties_FloatSol.v
theories/Spec_Exact.v
theories/P_Conv.v
theories/P_Conv2.v
theories/P_Conv3.v
theories/P_Conv4.v
theories/P_Conv5.v
theories/Properties_Conv.v
theories/P_Exist.v
theories/P_Exist2.v
theories/P_Exist3.v
theories/P_Exist4.v
theories/P_Exist5.v
theories/P_Exist6.v
theories/P_Exist7.v
theories/P_Exist8.v
theories/Properties_Exact.v
theories/M_FloatPlanck.v
theories/Spec_FloatPlanck.v
theories/P_FloatPlanck.v
theories/P_FloatPlanck2.v
theories/P_FloatPlanck3.v
theories/Properties_Planck.v
theories/Spec_Physics.v
theories/P_Physics.v
theories/P_Physics2.v
theories/Properties_Physics.v
theories/P_Az1.v
theories/P_Az2.v
theories/P_Az3.v
theories/Spec_Azimuth.v
theories/P_Az4.v
theories/P_Az5.v
theories/P_Az6.v
theories/P_Az7.v
theories/Properties_Azimuth.v
theories/Spec_Fade.v
theories/P_Fade.v
theories/Properties_Fade.v
theories/Spec_Cache.v
theories/P_Cache.v
theories/P_Cache2.v
theories/Examples11.v
theories/Properties_Cache.v
theories/Spec_Shared.v
theories/M_Shared.v
theories/P_Shared.v
theories/P_Shared2.v
theories/Examples12.v
theories/Properties_Shared.v
theories/P_Super2.v
theories/Spec_Budget.v
theories/P_Budget.v
theories/P_Kirch.v
theories/Properties_Budget.v
theories/Spec_NTMean.v
theories/Examples13.v
theories/Properties_Super.v
theories/Spec_Turn.v
theories/P_Turn.v
theories/Properties_Turn.v
theories/M_Conc.v
theories/P_Conc.v
theories/P_Conc2.v
theories/P_Conc3.v
theories/Properties_Conc.v
theories/P_NTMean.v
theories/Properties_NTMean.v
theories/M_Ints.v
theories/P_Ints.v
theories/P_Ints2.v
theories/P_Ints3.v
theories/Examples14.v
theories/Properties_Ints.v
theories/M_FloatNu.v
theories/Spec_FloatNu.v
theories/P_FloatNu.v
theories/Properties_FloatNu.v
theories/P_Ints4.v
theories/M_WarnSource.v
theories/P_WarnSource.v
theories/Properties_WarnSource.v
theories/M_IntDepth.v
theories/P_IntDepth.v
theories/P_IntDepth2.v
theories/Examples15.v
theories/Properties_IntDepth.v
theories/Spec_DependAz.v
theories/P_DependAz.v
theories/P_DependAz2.v
theories/Examples16.v
theories/Properties_DependAz.v
theories/Spec_Stretch.v
theories/Spec_StretchAz.v
theories/P_Stretch.v
theories/P_Stretch2.v
theories/P_StretchAz.v
theories/P_StretchAz2.v
theories/Examples17.v
theories/Properties_Stretch.v
theories/Properties_StretchAz.v
theories/Examples18.v
theories/P_Cutoff.v
theories/P_Cutoff2.v
theories/Spec_Cutoff.v
theories/P_Cutoff3.v
theories/P_Cutoff4.v
theories/P_Cutoff5.v
theories/P_Cutoff6.v
theories/Properties_Cutoff.v
