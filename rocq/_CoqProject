-Q theories Verif
theories/Py.v
theories/SpecIndex.v
theories/M_Index.v
theories/L_Index.v
theories/M_Init.v
theories/SpecInit.v
theories/L_Init.v
theories/L_IndexProps.v
theories/P_Index.v
theories/SpecRadial.v
theories/RadialMath.v
theories/M_Radial.v
theories/L_Radial.v
theories/L_RadialD.v
theories/M_Coeffs.v
theories/L_Dict.v
theories/L_Coeffs.v
theories/L_Cache.v
theories/SpecCoeffs.v
theories/L_CoeffVal.v
theories/L_Value.v
theories/L_DrErr.v
theories/L_Bound.v
theories/L_Trig.v
theories/L_Ortho.v
theories/L_RadialProps.v
theories/P_Radial.v
theories/M_Sum.v
theories/SpecSum.v
theories/L_Sum.v
theories/M_Polar.v
theories/L_Polar.v
theories/P_Sum.v
theories/P_Polar.v
theories/M_Geo.v
theories/SpecGeo.v
theories/L_Geo.v
theories/M_Phases.v
theories/SpecPhases.v
theories/L_Phases.v
theories/P_Phases.v
theories/M_Crop.v
theories/SpecCrop.v
theories/L_Crop.v
theories/P_Crop.v
theories/SpecFit.v
theories/L_LinAlg.v
theories/M_Fit.v
theories/L_Fit.v
theories/L_Indep.v
theories/P_Fit.v
theories/M_Psf.v
theories/SpecPsf.v
theories/L_Psf.v
theories/L_PsfKernel.v
theories/L_PsfNodes.v
theories/P_Psf.v
theories/M_Numba.v
theories/L_Numba.v
theories/P_Numba.v
theories/M_PsfClass.v
theories/SpecPsfClass.v
theories/L_PsfClass.v
theories/SpecCropK.v
theories/L_CropK.v
theories/L_PsfObj.v
theories/L_PsfSet.v
theories/P_PsfClass.v
theories/P_PsfIO.v
theories/SpecImg.v
theories/M_Img.v
theories/L_Img.v
theories/P_Img.v
theories/L_Bump.v
theories/P_Bump.v
theories/M_Disp.v
theories/SpecDisp.v
theories/L_Disp.v
theories/L_DispC.v
theories/L_DispL.v
theories/L_DispF.v
theories/L_DispH.v
theories/L_DispP.v
theories/L_DispS.v
theories/L_Disp2.v
theories/P_Disp.v
theories/M_Threads.v
theories/SpecThreads.v
theories/L_Threads.v
theories/L_Threads2.v
theories/P_Threads.v
theories/SpecDiff.v
theories/L_Slope.v
theories/L_Conv.v
theories/L_Conv2.v
theories/P_Conv.v
theories/L_Airy.v
theories/P_Airy.v
theories/M_Json.v
theories/SpecJson.v
theories/L_Json.v
theories/P_Json.v
theories/SpecDispM.v
theories/L_DispM.v
theories/L_DispU.v
theories/M_PsfPar.v
theories/SpecPsfPar.v
theories/L_PsfPar.v
theories/P_PsfPar.v
theories/SpecPsfEnd.v
theories/P_PsfEnd.v
theories/SpecFloat.v
theories/M_Float.v
theories/L_Float.v
theories/L_Float2.v
theories/L_Float3.v
theories/L_Float4.v
theories/L_FloatC.v
theories/P_Float.v
theories/L_Plot.v
theories/M_Plot.v
theories/SpecPlot.v
theories/L_Plot2.v
theories/P_Plot.v
theories/M_FloatPsf.v
theories/SpecFloatPsf.v
theories/L_FPsf1.v
theories/L_FPsf2.v
theories/L_FPsf3.v
theories/L_FPsf4.v
theories/L_FPsf5.v
theories/L_FPsf6.v
theories/L_FPsf7.v
theories/L_FPsf8.v
theories/P_FPsf.v
theories/M_Alias.v
theories/SpecAlias.v
theories/L_Alias.v
theories/L_Alias2.v
theories/P_Alias.v
theories/SpecFloatDr.v
theories/M_FloatDr.v
theories/L_FloatDr.v
theories/L_FloatDr2.v
theories/P_FloatDr.v
theories/L_Poly.v
theories/L_Pixels.v
theories/L_Stable.v
theories/SpecFitNoise.v
theories/L_FitNoise.v
theories/L_RoundTrip.v
theories/P_FitNoise.v
theories/M_FloatSum.v
theories/SpecFloatSum.v
theories/L_FloatSum.v
theories/P_FloatSum.v
theories/SpecDisk.v
theories/L_Disk.v
theories/L_Strehl.v
theories/L_Strehl2.v
theories/P_Strehl.v
theories/SpecSym.v
theories/L_Sym.v
theories/P_Tilt.v
theories/L_Sym2.v
theories/P_Sym.v
theories/P_Norm.v
theories/M_FloatNumba.v
theories/L_FloatNumba.v
theories/P_FloatNumba.v
theories/M_FloatImg.v
theories/L_FloatImg.v
theories/P_FloatImg.v
theories/SpecFitK.v
theories/L_FitK.v
theories/P_FitK.v
theories/SpecFitF.v
theories/M_FloatFit.v
theories/L_FloatFit.v
theories/P_FloatFit.v
theories/M_Perf.v
theories/L_Perf.v
theories/P_Perf.v
theories/SpecWeak.v
theories/P_Weak.v
theories/M_Force.v
theories/P_Force.v
theories/P_Weak64.v
theories/M_Selfcheck.v
theories/L_Selfcheck.v
theories/L_Selfcheck2.v
theories/P_Selfcheck.v
theories/M_PlotPsf.v
theories/SpecPlotPsf.v
theories/P_PlotPsf.v
theories/P_WeakObj.v
theories/SpecPv.v
theories/M_Pv.v
theories/L_Pv.v
theories/L_Pv2.v
theories/P_Pv.v
theories/SpecImgPsf.v
theories/M_ImgPsf.v
theories/L_ImgPsf.v
theories/P_ImgPsf.v
theories/SpecSize.v
theories/L_Size.v
theories/P_Size.v
theories/M_Warn.v
theories/SpecWarn.v
theories/L_Warn.v
theories/L_Warn2.v
theories/P_Warn.v
