-Q theories Verif
theories/Base.v
theories/C_Agglo.v
theories/C_AmgeDev.v
theories/C_Amgx.v
theories/C_Bids.v
theories/C_Cg.v
theories/C_CgEnd.v
theories/C_Cheby.v
theories/C_Coarse.v
theories/C_Complexity.v
theories/C_Csr.v
theories/C_CudaHier.v
theories/C_CudaMf.v
theories/C_CudaOp.v
theories/C_Deflate.v
theories/C_Dev.v
theories/C_DevRate.v
theories/C_DevSolve.v
theories/C_Diag.v
theories/C_Eig.v
theories/C_FastAP.v
theories/C_FastAP2.v
theories/C_Handle.v
theories/C_Hier.v
theories/C_Host.v
theories/C_HostEnd.v
theories/C_Lanczos.v
theories/C_Local.v
theories/C_MfEnd.v
theories/C_MfFast.v
theories/C_MfRate.v
theories/C_MultiVec.v
theories/C_Opt.v
theories/C_Par.v
theories/C_ParEnd.v
theories/C_ParFast.v
theories/C_ParMfEnd.v
theories/C_ParMfFast.v
theories/C_Perm.v
theories/C_Ptree.v
theories/C_Rate.v
theories/C_RateRun.v
theories/C_RateRunEnd.v
theories/C_Redist.v
theories/C_Restr.v
theories/C_Reuse.v
theories/C_SpProd.v
theories/C_Trunc.v
theories/E_CudaHier.v
theories/E_CudaOp.v
theories/E_Lanczos.v
theories/E_Real.v
theories/E_Solve.v
theories/LinAlg.v
theories/M_Agglo.v
theories/M_AmgeDev.v
theories/M_Amgx.v
theories/M_AmgxLife.v
theories/M_Bids.v
theories/M_Cg.v
theories/M_Cheby.v
theories/M_Complexity.v
theories/M_Csr.v
theories/M_CudaHier.v
theories/M_CudaMf.v
theories/M_CudaOp.v
theories/M_Dev.v
theories/M_DevSolve.v
theories/M_Diag.v
theories/M_Eig.v
theories/M_FastAP.v
theories/M_Handle.v
theories/M_Hier.v
theories/M_Host.v
theories/M_HostEnd.v
theories/M_Lanczos.v
theories/M_MfEnd.v
theories/M_MultiVec.v
theories/M_Par.v
theories/M_ParEnd.v
theories/M_ParFast.v
theories/M_ParMfEnd.v
theories/M_ParMfFast.v
theories/M_Perm.v
theories/M_Ptree.v
theories/M_RateRun.v
theories/M_Restr.v
theories/M_Smoother.v
theories/M_SpProd.v
theories/M_WorkStream.v
theories/Mat.v
theories/OField.v
theories/P_Agglo.v
theories/P_Agglo2.v
theories/P_AggloBox.v
theories/P_AmgeDev.v
theories/P_AmgeDev2.v
theories/P_AmgeDev3.v
theories/P_AmgeDev4.v
theories/P_Amgx.v
theories/P_Amgx2.v
theories/P_Amgx3.v
theories/P_Amgx4.v
theories/P_AmgxLife.v
theories/P_Approx.v
theories/P_Bids.v
theories/P_Cg.v
theories/P_Cg2.v
theories/P_Cg3.v
theories/P_Cheby.v
theories/P_Cheby2.v
theories/P_Cheby3.v
theories/P_Coarse.v
theories/P_Csr.v
theories/P_Csr2.v
theories/P_Csr3.v
theories/P_Csr4.v
theories/P_CudaHier.v
theories/P_CudaHier2.v
theories/P_CudaHier3.v
theories/P_CudaMf.v
theories/P_CudaOp.v
theories/P_Deflate.v
theories/P_Dev.v
theories/P_Dev2.v
theories/P_Dev3.v
theories/P_Dev4.v
theories/P_DevRate.v
theories/P_DevRate2.v
theories/P_DevSolve.v
theories/P_Diag.v
theories/P_Eig.v
theories/P_FastAP.v
theories/P_FastAP2.v
theories/P_Handle.v
theories/P_Hier.v
theories/P_Hier2.v
theories/P_HierC.v
theories/P_HierD.v
theories/P_HierE.v
theories/P_HierS.v
theories/P_HierT.v
theories/P_HierV.v
theories/P_Host.v
theories/P_HostEnd.v
theories/P_HostN.v
theories/P_Lanczos.v
theories/P_Lanczos2.v
theories/P_Lanczos3.v
theories/P_Lanczos4.v
theories/P_Lanczos5.v
theories/P_Lanczos6.v
theories/P_Lanczos7.v
theories/P_Lanczos8.v
theories/P_Lanczos9.v
theories/P_Local.v
theories/P_MfEnd.v
theories/P_MfFast.v
theories/P_MultiVec.v
theories/P_MultiVec2.v
theories/P_Par.v
theories/P_Par2.v
theories/P_Par3.v
theories/P_Par4.v
theories/P_ParEnd.v
theories/P_ParFast.v
theories/P_ParMfEnd.v
theories/P_ParMfFast.v
theories/P_Perm.v
theories/P_Poly.v
theories/P_Ptree.v
theories/P_Rate.v
theories/P_Rate2.v
theories/P_RateRun.v
theories/P_RateRun2.v
theories/P_Redist.v
theories/P_Restr.v
theories/P_Restr2.v
theories/P_Reuse.v
theories/P_Smoother.v
theories/P_SpProd.v
theories/P_Span.v
theories/P_Trunc.v
theories/P_WorkStream.v
theories/S_Agglo.v
theories/S_AmgeDev.v
theories/S_Amgx.v
theories/S_AmgxLife.v
theories/S_Bids.v
theories/S_Cg.v
theories/S_CgEnd.v
theories/S_Cheby.v
theories/S_Coarse.v
theories/S_Complexity.v
theories/S_Csr.v
theories/S_CudaHier.v
theories/S_CudaMf.v
theories/S_CudaOp.v
theories/S_Dev.v
theories/S_DevRate.v
theories/S_DevSolve.v
theories/S_Diag.v
theories/S_Eig.v
theories/S_FastAP.v
theories/S_Handle.v
theories/S_Hier.v
theories/S_Host.v
theories/S_HostEnd.v
theories/S_Lanczos.v
theories/S_MfEnd.v
theories/S_MfFast.v
theories/S_MultiVec.v
theories/S_Opt.v
theories/S_Par.v
theories/S_ParEnd.v
theories/S_ParFast.v
theories/S_ParMfEnd.v
theories/S_ParMfFast.v
theories/S_Perm.v
theories/S_Ptree.v
theories/S_Rate.v
theories/S_RateRun.v
theories/S_Redist.v
theories/S_Restr.v
theories/S_Reuse.v
theories/S_SpProd.v
theories/S_Trunc.v
