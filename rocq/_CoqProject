-Q theories Verif
theories/Outcome.v
theories/Num.v
theories/StdAlgo.v
theories/M_Interp1d.v
theories/S_Interp1d.v
theories/L_Search.v
theories/L_Interp1d.v
theories/T_Interp1d.v
theories/M_Interp2d.v
theories/S_Interp2d.v
theories/L_Interp2d.v
theories/T_Interp2d.v
theories/M_Lookup.v
theories/S_Lookup.v
theories/L_Lookup.v
theories/T_Lookup.v
theories/M_Grid.v
theories/S_Grid.v
theories/L_Grid.v
theories/S_GridHistory.v
theories/L_GridHistory.v
theories/L_GridNearest.v
theories/L_GridSimplex.v
theories/L_GridLow.v
theories/L_GridExamples.v
theories/T_Grid.v
theories/NumFun.v
theories/F64.v
theories/M_Basics.v
theories/L_F64.v
theories/S_Angles.v
theories/L_Angles.v
theories/T_Angles.v
theories/S_Basics.v
theories/L_Basics.v
theories/L_Basics2.v
theories/L_Linspace64.v
theories/T_Basics.v
theories/M_Series.v
theories/S_Series.v
theories/L_Series.v
theories/T_Series.v
theories/M_Cheb.v
theories/S_Cheb.v
theories/L_Cheb.v
theories/L_Cheb2.v
theories/L_Cheb3.v
theories/L_Cheb4.v
theories/T_Cheb.v
theories/M_Integ.v
theories/S_Integ.v
theories/L_Integ.v
theories/L_Integ2.v
theories/T_Integ.v
theories/M_FFT.v
theories/S_FFT.v
theories/L_FFT.v
theories/T_FFT.v
theories/M_Triangle.v
theories/S_Triangle.v
theories/L_Triangle.v
theories/L_Triangle2.v
theories/T_Triangle.v
theories/M_Geometry.v
theories/S_Geometry.v
theories/L_Geometry.v
theories/T_Geometry.v
theories/M_Vec.v
theories/S_Vec.v
theories/L_Vec.v
theories/T_Vec.v
theories/M_Matrix.v
theories/S_Matrix.v
theories/L_Matrix.v
theories/L_MatrixEx.v
theories/T_Matrix.v
theories/L_MatrixUpd.v
theories/T_MatrixUpd.v
theories/M_Special.v
theories/S_Special.v
theories/M_Dirac.v
theories/S_Dirac.v
theories/L_Dirac.v
theories/T_Dirac.v
theories/L_Bessel.v
theories/L_Special.v
theories/T_Bessel.v
theories/L_Poly.v
theories/L_Expint.v
theories/L_ExpTaylor.v
theories/L_E1Tab.v
theories/L_E1.v
theories/T_E1.v
theories/L_Cf.v
theories/L_EiTab.v
theories/L_EiVal.v
theories/L_EiDef.v
theories/T_Special.v
theories/S_Ei.v
theories/L_EiSpec.v
theories/L_PolyWin.v
theories/L_Ei0.v
theories/L_Ei6.v
theories/L_Ei.v
theories/L_EiAcc.v
theories/T_Ei.v
theories/S_Struve.v
theories/L_StruveK.v
theories/L_StruveY.v
theories/L_StruveBig.v
theories/L_StruveSmall.v
theories/L_Struve.v
theories/T_Struve.v
theories/L_F64Err.v
theories/S_Double.v
theories/L_Series64.v
theories/L_Interp64.v
theories/L_Units64.v
theories/T_Double.v
theories/M_Approx.v
theories/S_Approx.v
theories/L_Approx.v
theories/T_Approx.v
theories/S_Special64.v
theories/L_Special64.v
theories/T_Special64.v
theories/S_Grid64.v
theories/L_Grid64.v
theories/T_Grid64.v
theories/L_Apx.v
theories/L_Interp2d64.v
theories/T_Interp2d64.v
theories/S_Arange64.v
theories/L_Arange64.v
theories/T_Arange64.v
theories/S_Trapz64.v
theories/L_Sum64.v
theories/L_Trapz64.v
theories/T_Trapz64.v
theories/S_Sampled64.v
theories/L_Sampled64.v
theories/T_Sampled64.v
theories/S_Vec64.v
theories/L_Vec64.v
theories/T_Vec64.v
theories/S_Rot64.v
theories/L_Rot64.v
theories/T_Rot64.v
theories/S_Near64.v
theories/L_Near64.v
theories/T_Near64.v
theories/S_Ser64.v
theories/L_Ser64.v
theories/T_Ser64.v
theories/S_Acc.v
theories/L_Acc.v
theories/T_Acc.v
theories/S_E1d.v
theories/L_E1d.v
theories/T_E1d.v
theories/L_Eid.v
theories/L_Eid6.v
theories/L_Eid2.v
theories/T_Eid.v
theories/S_Shape.v
theories/L_Shape.v
theories/T_Shape.v
theories/S_Der64.v
theories/L_Der64.v
theories/T_Der64.v
theories/S_Tri64.v
theories/L_Tri64.v
theories/T_Tri64.v
theories/S_DCheb64.v
theories/L_DCheb64.v
theories/T_DCheb64.v
theories/S_Simplex64.v
theories/L_Simplex64.v
theories/T_Simplex64.v
theories/S_Gen64.v
theories/L_Sinc.v
theories/L_Gen64.v
theories/T_Gen64.v
theories/S_CCoef64.v
theories/L_CCoef64.v
theories/L_CCoef64b.v
theories/L_CCoef64c.v
theories/L_CCoef64e.v
theories/T_CCoef64.v
theories/L_Fail2.v
theories/T_Fail2.v
theories/S_Conv64.v
theories/L_Conv64.v
theories/L_Conv64b.v
theories/T_Conv64.v
theories/S_Fix64.v
theories/L_Fix64.v
theories/T_Fix64.v
theories/S_Loc64.v
theories/L_Loc64.v
theories/T_Loc64.v
theories/L_Rem.v
theories/S_Err.v
theories/L_Err.v
theories/L_Err64.v
theories/T_Err.v
theories/S_ErrC.v
theories/L_ErrC.v
theories/S_ErrC64.v
theories/L_ErrC64.v
theories/T_ErrC.v
theories/S_Quad.v
theories/L_Quad.v
theories/T_Quad.v
theories/S_Lim.v
theories/L_Lim.v
theories/L_LimC.v
theories/T_Lim.v
theories/S_TriErr.v
theories/L_TriErr.v
theories/L_TriErr64.v
theories/T_TriErr.v
theories/S_GShape.v
theories/L_GShape.v
theories/L_GShape2.v
theories/L_GShape3.v
theories/L_GShape4.v
theories/T_SimplexErr.v
theories/T_GShape.v
theories/S_GErr64.v
theories/L_GErr64.v
theories/L_GErr64b.v
theories/T_GErr64.v
theories/L_LutErr.v
theories/L_LutErr2.v
theories/T_LutErr.v
theories/S_TriSub.v
theories/L_TriSub.v
theories/L_TriSub2.v
theories/L_TriSub3.v
theories/T_TriSub.v
theories/S_NearErr.v
theories/L_NearErr.v
theories/L_NearErr2.v
theories/T_NearErr.v
theories/S_Spectra.v
theories/L_Spectra.v
theories/T_Spectra.v
theories/L_Pinv.v
theories/T_Pinv.v
theories/L_Factors.v
theories/T_Factors.v
theories/L_ChebAlg.v
theories/T_ChebAlg.v
theories/L_Samples.v
theories/T_Samples.v
theories/L_TrapInt.v
theories/T_TrapInt.v
theories/S_Slab.v
theories/L_Slab.v
theories/T_Slab.v
