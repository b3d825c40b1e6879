-Q theories Verif
theories/Scal.v
theories/RSum.v
theories/Qp_Model.v
theories/Qp_Spec.v
theories/Qp_Proofs.v
theories/Admm_Model.v
theories/Admm_Spec.v
theories/Admm_SpecR.v
theories/Admm_Proofs.v
theories/Admm_ProofsR.v
theories/Admm_Conv.v
theories/BoxAdmm_Model.v
theories/BoxAdmm_Proofs.v
theories/BoxAdmm_ProofsR.v
theories/BoxAdmm_Equiv.v
theories/Gauss.v
theories/Qp_Example.v
theories/Qp_ExampleR.v
theories/Admm_Props.v
theories/BoxAdmm_Props.v
theories/Hess_Model.v
theories/Hess_Proofs.v
theories/Hess_Props.v
theories/Filter_Model.v
theories/Filter_Spec.v
theories/Filter_Proofs.v
theories/Filter_Props.v
theories/Sqp_Model.v
theories/Sqp_Spec.v
theories/Sqp_Proofs.v
theories/Sqp_ProofsR.v
theories/Sqp_Example.v
theories/Sqp_PropLemmas.v
theories/Sqp_Props.v
theories/Precond_Model.v
theories/Precond_Spec.v
theories/Precond_Proofs.v
theories/Precond_Sqp.v
theories/Precond_Props.v
theories/PolyR.v
theories/Poly_Spec.v
theories/Cheb_Model.v
theories/Cheb_Proofs.v
theories/Leg_Math.v
theories/Legendre_Model.v
theories/Legendre_Proofs.v
theories/Leg_Roots.v
theories/Spline_Model.v
theories/Spline_Proofs.v
theories/Poly_Props.v
theories/Blk.v
theories/Ocp_Model.v
theories/Ocp_Spec.v
theories/Ocp_Proofs.v
theories/Ocp_Cost_Proofs.v
theories/Sparse.v
theories/Sparse_Proofs.v
theories/Ocp_Sparse_Model.v
theories/Ocp_Sparse_Proofs.v
theories/Ocp_Stack_Proofs.v
theories/Cheb_Diag_Proofs.v
theories/Ocp_Cor_Proofs.v
theories/Ocp_Hes_Proofs.v
theories/Ocp_Hes_Asm_Proofs.v
theories/Ocp_Hes_Cor_Proofs.v
theories/Ocp_Example.v
theories/Ocp_Props.v
theories/Ocp_Hes_Props.v
theories/Block_Pd.v
theories/Ocp_Bfgs_Spec.v
theories/Ocp_Bfgs_Proofs.v
theories/Ocp_Bfgs_Props.v
theories/Mpc_Model.v
theories/Mpc_Spec.v
theories/Mpc_Proofs.v
theories/Mpc_Props.v
theories/Ad_Model.v
theories/Ad_Spec.v
theories/Ad_Proofs.v
theories/Ad_Nested_Proofs.v
theories/Ad_Prog_Proofs.v
theories/Rbf_Model.v
theories/Rbf_Proofs.v
theories/Ad_Props.v
theories/Pm_Model.v
theories/Pm_Spec.v
theories/Pm_Proofs.v
theories/Pm_Props.v
theories/Lqr_Model.v
theories/Lqr_Spec.v
theories/Lqr_Proofs.v
theories/Lqr_Care_Proofs.v
theories/Lqr_Gain_Proofs.v
theories/Lqr_Case_Proofs.v
theories/Lqr_Props.v
theories/Nlp_Model.v
theories/Nlp_Spec.v
theories/Nlp_Proofs.v
theories/Nlp_Props.v
theories/Ip_Model.v
theories/Ip_Spec.v
theories/Ip_Proofs.v
theories/Ip_Props.v
theories/Os_Model.v
theories/Os_Spec.v
theories/Os_Proofs.v
theories/Os_Sess_Proofs.v
theories/Os_Props.v
theories/Rho_Spec.v
theories/Rho_Proofs.v
theories/Rho_Props.v
theories/Spk_Model.v
theories/Spk_Spec.v
theories/Spk_Proofs.v
theories/Spk_Sess_Proofs.v
theories/Spk_Example.v
theories/Spk_Props.v
theories/Msv_Model.v
theories/Msv_Spec.v
theories/Msv_Proofs.v
theories/Msv_Props.v
theories/Old_Model.v
theories/Old_Spec.v
theories/Old_Proofs.v
theories/Old_Sparse_Proofs.v
theories/Old_Props.v
theories/Cas_Model.v
theories/Cas_Spec.v
theories/Cas_Proofs.v
theories/Cas_Props.v
theories/Pso_Model.v
theories/Pso_Spec.v
theories/Pso_Proofs.v
theories/Pso_Props.v
theories/PsoScale_Spec.v
theories/PsoScale_Proofs.v
theories/PsoScale_Props.v
theories/Nmpc_Model.v
theories/Nmpc_Spec.v
theories/Nmpc_Proofs.v
theories/Nmpc_Props.v
theories/Gen_Model.v
theories/Gen_Spec.v
theories/Gen_Proofs.v
theories/Gen_Props.v
theories/Nmpf_Model.v
theories/Nmpf_Spec.v
theories/Nmpf_Proofs.v
theories/Nmpf_Props.v
theories/Casx_Props.v
theories/Psa_Model.v
theories/Psa_Spec.v
theories/Psa_Proofs.v
theories/Psa_Props.v
theories/Psd_Model.v
theories/Psd_Spec.v
theories/Psd_Props.v
theories/Hlp_Model.v
theories/Hlp_Spec.v
theories/Hlp_Proofs.v
theories/Hlp_Props.v
theories/Ctr_Model.v
theories/Ctr_Spec.v
theories/Ctr_Proofs.v
theories/Ctr_Props.v
theories/AdmmRelax_Spec.v
theories/AdmmRelax_Proofs.v
theories/AdmmRelax_Two.v
theories/AdmmRelax_Props.v
theories/SqpQp_Spec.v
theories/SqpQp_Proofs.v
theories/SqpQp_Props.v
theories/Bolzano.v
theories/AdmmLimit_Spec.v
theories/AdmmLimit_Proofs.v
theories/AdmmLimit_Props.v
theories/FixI.v
theories/AdmmCycle_Traj.v
theories/AdmmCycle_Proofs.v
theories/AdmmAdapt_Spec.v
theories/AdmmAdapt_Proofs.v
theories/AdmmAdapt_Props.v
theories/SqpGlob_Spec.v
theories/SqpGlob_Proofs.v
theories/SqpGlob_Props.v
theories/HessReg_Model.v
theories/HessReg_Spec.v
theories/HessReg_Proofs.v
theories/HessReg_Props.v
theories/RNorm.v
theories/SqpExact_Model.v
theories/SqpExact_Spec.v
theories/SqpExact_Proofs.v
theories/SqpTaylor_Proofs.v
theories/SqpExact_Props.v
theories/GradProj_Model.v
theories/GradProj_Spec.v
theories/GradProj_Proofs.v
theories/GradProj_Props.v
theories/TrustReg_Model.v
theories/TrustReg_Spec.v
theories/TrustReg_Proofs.v
theories/TrustReg_Props.v
theories/Farkas.v
theories/QpInf_Spec.v
theories/QpInf_Proofs.v
theories/QpInf_Props.v
theories/LqMpc_Spec.v
theories/LqMpc_Proofs.v
theories/LqMpc_Example.v
theories/LqMpc_Props.v
theories/Gms_Model.v
theories/Gms_Spec.v
theories/Gms_Proofs.v
theories/Gms_Props.v
theories/QpDist_Spec.v
theories/QpDist_Proofs.v
theories/SqpDist_Proofs.v
theories/QpDist_Example.v
theories/QpDist_Example2.v
theories/QpDist_Props.v
theories/SqpNear_Spec.v
theories/SqpNear_Proofs.v
theories/BoxUnif_Proofs.v
theories/SqpNative_Model.v
theories/SqpNative_Proofs.v
theories/SqpNear_Props.v
theories/SqpTerm_Spec.v
theories/SqpTerm_Model.v
theories/SqpTerm_Proofs.v
theories/SqpTerm_Props.v
theories/Store_Spec.v
theories/Store_Model.v
theories/Store_Proofs.v
theories/Store_Props.v
theories/DynAd_Model.v
theories/DynAd_Spec.v
theories/DynAd_Proofs.v
theories/DynAd_Props.v
theories/MpcSession_Model.v
theories/MpcSession_Proofs.v
theories/MpcSession_Props.v
theories/StoreRun_Model.v
theories/StoreRun_Proofs.v
theories/StoreRun_Props.v
theories/Reshape_Model.v
theories/Reshape_Spec.v
theories/Reshape_Proofs.v
theories/Reshape_Props.v
theories/Opts_Model.v
theories/Opts_Spec.v
theories/Opts_Proofs.v
theories/Opts_Props.v
theories/PsMath_Model.v
theories/PsMath_Spec.v
theories/PsMath_Proofs.v
theories/PsMath_Props.v
theories/PsTangent_Model.v
theories/PsTangent_Props.v
