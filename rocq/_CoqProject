-Q theories Verif
theories/Base.v
theories/Num.v
theories/Numpy.v
theories/M_Utils.v
theories/L_Numpy.v
theories/S_Utils.v
theories/S_NatSort.v
theories/L_Utils.v
theories/L_Utils2.v
theories/L_Utils3.v
theories/L_NatSort.v
theories/E_Utils.v
theories/P_Utils.v
theories/M_Petrosian.v
theories/S_Petrosian.v
theories/L_Petrosian.v
theories/L_Petrosian2.v
theories/S_PetroR.v
theories/L_PetroR.v
theories/L_FracR.v
theories/S_PetObj.v
theories/L_PetObj.v
theories/M_Interp.v
theories/E_Petrosian.v
theories/P_Petrosian.v
theories/M_Heap.v
theories/S_Heap.v
theories/L_Heap.v
theories/E_Heap.v
theories/P_Heap.v
theories/M_Photometry.v
theories/S_Photometry.v
theories/L_Photometry.v
theories/E_Photometry.v
theories/P_Photometry.v
theories/M_Correction.v
theories/M_CorHeap.v
theories/S_Correction.v
theories/L_Correction.v
theories/L_Correction2.v
theories/L_Correction3.v
theories/L_Correction4.v
theories/E_Correction.v
theories/S_CorRow.v
theories/E_CorEx.v
theories/P_Correction.v
theories/Gamma.v
theories/M_Sersic.v
theories/S_Sersic.v
theories/L_Sersic.v
theories/L_Sersic2.v
theories/E_Sersic.v
theories/P_Sersic.v
theories/M_PSF.v
theories/M_Wrap.v
theories/S_PSF.v
theories/S_Wrap.v
theories/L_PSF.v
theories/L_PSF2.v
theories/L_PSF3.v
theories/L_PSF4.v
theories/L_PSF5.v
theories/L_Wrap.v
theories/E_PSF.v
theories/L_PSFErr.v
theories/P_PSF.v
theories/M_Fitting.v
theories/S_Fitting.v
theories/L_Fitting.v
theories/L_Fitting2.v
theories/E_Fitting.v
theories/P_Fitting.v
theories/M_Segm.v
theories/S_Segm.v
theories/L_Segm.v
theories/L_Segm2.v
theories/L_Segm3.v
theories/L_Segm4.v
theories/L_Segm5.v
theories/E_Segm.v
theories/P_Segm.v
theories/L_CorRow.v
theories/P_CorRow.v
theories/S_Center.v
theories/L_Center.v
theories/L_Segm6.v
theories/E_Center.v
theories/P_Center.v
theories/M_Plot.v
theories/S_Plot.v
theories/L_Plot.v
theories/L_Plot2.v
theories/L_Plot3.v
theories/L_Plot4.v
theories/L_Plot5.v
theories/L_Plot6.v
theories/L_Plot7.v
theories/L_Plot8.v
theories/L_Plot9.v
theories/L_Plot10.v
theories/E_Plot.v
theories/E_Plot2.v
theories/P_Plot.v
theories/P_Plot2.v
theories/M_Sources.v
theories/S_Sources.v
theories/L_Sources.v
theories/E_Sources.v
theories/P_Sources.v
theories/S_Conv.v
theories/L_Conv.v
theories/L_Conv2.v
theories/L_Conv3.v
theories/E_Conv.v
theories/P_Conv.v
theories/S_Robust.v
theories/L_Robust.v
theories/L_Robust2.v
theories/L_Robust3.v
theories/E_Robust.v
theories/P_Robust.v
theories/S_Zoom.v
theories/L_Zoom.v
theories/E_Zoom.v
theories/P_Zoom.v
theories/S_Noise.v
theories/L_Noise.v
theories/L_Noise2.v
theories/E_Noise.v
theories/P_Noise.v
theories/S_Symm.v
theories/L_Symm.v
theories/E_Symm.v
theories/P_Symm.v
theories/M_Ellipse.v
theories/L_Ellipse.v
theories/L_Fubini.v
theories/M_Exact.v
theories/S_Exact.v
theories/L_Exact.v
theories/L_Exact2.v
theories/L_Exact3.v
theories/E_Exact.v
theories/P_Exact.v
theories/M_Match.v
theories/S_Match.v
theories/L_Match.v
theories/E_Match.v
theories/P_Match.v
theories/L_Quad.v
theories/M_Integrate.v
theories/S_Integrate.v
theories/L_Integrate.v
theories/E_Integrate.v
theories/P_Integrate.v
theories/S_Galaxy.v
theories/L_Growth.v
theories/L_Galaxy.v
theories/S_Render.v
theories/L_Galaxy2.v
theories/S_Image.v
theories/L_Galaxy3.v
theories/E_Galaxy.v
theories/P_Galaxy.v
theories/L_Galaxy4.v
theories/E_Galaxy2.v
theories/P_Galaxy2.v
theories/M_Worker.v
theories/S_Worker.v
theories/L_Worker.v
theories/L_Worker2.v
theories/L_Worker3.v
theories/E_Worker.v
theories/P_Worker.v
theories/S_LSQ.v
theories/L_LSQ.v
theories/L_LSQ2.v
theories/L_LSQ3.v
theories/L_LSQ4.v
theories/E_LSQ.v
theories/P_LSQ.v
theories/S_FracErr.v
theories/L_FracErr.v
theories/E_FracErr.v
theories/P_FracErr.v
theories/L_Same.v
theories/E_Same.v
theories/P_Same.v
theories/M_Print.v
theories/S_Print.v
theories/L_Print.v
theories/P_Print.v
theories/M_Args.v
theories/L_Args.v
theories/P_Args.v
theories/S_Motion.v
theories/L_Motion.v
theories/L_Motion2.v
theories/L_Motion3.v
theories/E_Motion.v
theories/P_Motion.v
theories/S_Spline.v
theories/L_Spline.v
theories/L_Spline2.v
theories/L_Spline3.v
theories/L_Spline4.v
theories/E_Spline.v
theories/E_Spline2.v
theories/P_Spline.v
theories/M_Cubic.v
theories/S_Cubic.v
theories/L_Cubic.v
theories/L_Cubic2.v
theories/L_Cubic3.v
theories/L_Cubic4.v
theories/L_Cubic5.v
theories/L_PetroExists.v
theories/E_Cubic.v
theories/P_Cubic.v
theories/S_Epsilon.v
theories/L_CubicEq.v
theories/L_CubicEq2.v
theories/E_CubicEq.v
theories/P_CubicEq.v
theories/L_Epsilon.v
theories/E_Epsilon.v
theories/P_Epsilon.v
theories/S_Resolution.v
theories/L_Resolution.v
theories/M_Kinds.v
theories/S_Kinds.v
theories/L_Kinds.v
theories/L_Kinds2.v
theories/L_Kinds3.v
theories/E_Kinds.v
theories/P_Kinds.v
theories/S_Double.v
theories/L_Double.v
theories/L_Double2.v
theories/L_Double3.v
theories/L_Double4.v
theories/E_Double.v
theories/P_Double.v
theories/S_Sums.v
theories/L_Sums.v
theories/L_Sums2.v
theories/E_Sums.v
theories/P_Sums.v
theories/S_Grid.v
theories/L_Grid.v
theories/L_Grid2.v
theories/L_Grid3.v
theories/E_Grid.v
theories/P_Grid.v
theories/S_Counts.v
theories/L_Counts.v
theories/E_Counts.v
theories/P_Counts.v
theories/L_Grid4.v
theories/E_Grid2.v
theories/P_Grid2.v
theories/L_Sums3.v
theories/S_Photo6.v
theories/L_Photo6.v
theories/E_Photo6.v
theories/P_Photo6.v
theories/S_Round.v
theories/L_Round.v
theories/E_Round.v
theories/P_Round.v
theories/S_Flux6.v
theories/L_Flux6.v
theories/E_Flux6.v
theories/P_Flux6.v
theories/S_Near.v
theories/L_Near.v
theories/L_Near2.v
theories/L_Near3.v
theories/E_Near.v
theories/P_Near.v
theories/S_Over.v
theories/L_Over.v
theories/L_Over2.v
theories/L_Over3.v
theories/E_Over.v
theories/P_Over.v
theories/S_PetErr.v
theories/L_PetErr.v
theories/L_PetErr2.v
theories/E_PetErr.v
theories/P_PetErr.v
theories/S_RadErr.v
theories/L_RadErr.v
theories/E_RadErr.v
theories/P_RadErr.v
theories/S_Units.v
theories/L_Units.v
theories/L_Units2.v
theories/E_Units.v
theories/P_Units.v
