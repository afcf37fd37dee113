-Q theories Verif

theories/Scalar.v
theories/Arr.v
theories/MBase.v
theories/MDirect.v
theories/MDecomp.v
theories/MEigh.v
theories/MSvd.v
theories/MLobpcg.v
theories/Inst.v
theories/Ex.v
theories/Tests.v
theories/TestsLobpcg.v
theories/Spec.v
theories/SpecF.v
theories/SpecL.v
theories/Hoare.v
theories/RLin.v
theories/PTri.v
theories/PChol.v
theories/PHouse.v
theories/PQR.v
theories/PRefl.v
theories/PGivens.v
theories/PTrid.v
theories/PBid.v
theories/PEigh.v
theories/PFloat.v
theories/PEighR.v
theories/PConv.v
theories/PSvd.v
theories/PSvdR.v
theories/PSort.v
theories/PNorm.v
theories/PLob.v
theories/PLobR.v
theories/PRitz.v
theories/PGen.v
theories/PMono.v
theories/PTrunc.v
theories/PRound.v
theories/PTriF.v
theories/PCholF.v
theories/PNormF.v
theories/Properties_Triangular.v
theories/Properties_Cholesky.v
theories/Properties_QR.v
theories/Properties_Decomp.v
theories/Properties_Eigh.v
theories/Properties_Conv.v
theories/Properties_Svd.v
theories/PConvS.v
theories/PNan.v
theories/Properties_ConvSvd.v
theories/Properties_Sort.v
theories/Properties_Norm.v
theories/Properties_Lobpcg.v
theories/Properties_Ritz.v
theories/Properties_Truncated.v
theories/Properties_Rounding.v
theories/Properties_Tsvd.v
theories/PHouseF.v
theories/PQRF.v
theories/PQRG.v
theories/Properties_QRFloat.v
theories/PQRS.v
theories/Properties_QRSolveF.v
theories/PCholG.v
theories/Properties_CholFloat.v
theories/Properties_Underflow.v
theories/PTrdF.v
theories/PTrdG.v
theories/PApF.v
theories/PTrdH.v
theories/Properties_TridFloat.v
theories/PBidF.v
theories/PBidG.v
theories/Properties_BidFloat.v
theories/Properties_EigvecFloat.v
theories/SpecH.v
theories/PApx.v
theories/PGivF.v
theories/PEigF.v
theories/PEigG.v
theories/PEigS.v
theories/Properties_EigFloat.v
theories/PRotF.v
theories/Properties_OrthFloat.v
theories/PSvdV.v
theories/PSvdF.v
theories/PSvdS.v
theories/PSvdG.v
theories/Properties_SvdFloat.v
theories/PWeyl.v
theories/PValF.v
theories/Properties_Weyl.v
theories/PFwd.v
theories/PFwdF.v
theories/Properties_Forward.v
theories/Properties_Invert.v
theories/PSvdT.v
theories/PSvdO.v
theories/Properties_SvdOrth.v
theories/PScale.v
theories/Properties_Scale.v
theories/PSvdX.v
theories/Properties_Transpose.v
theories/PNanD.v
theories/PNanE.v
theories/PNanS.v
theories/Properties_Nan.v
theories/Properties_Prim.v
theories/PCols.v
theories/Properties_Cols.v
theories/PEighD.v
theories/Properties_EighD.v
theories/Properties_Config.v
theories/PDiag.v
theories/Properties_Diag.v
theories/Properties_Agree.v
theories/Inst32.v
theories/Properties_Single.v
theories/PLin.v
theories/Properties_Odd.v
theories/PNest.v
theories/Properties_Nest.v
theories/Properties_Inverse.v
theories/Properties_Lsq.v
theories/Properties_Equil.v
theories/Properties_Lip.v
