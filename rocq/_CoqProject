-Q theories Verif
theories/IPS.v
theories/Model_ADMM.v
theories/Model_Array.v
theories/Model_Backend.v
theories/Model_Complex.v
theories/Model_Conv.v
theories/Model_Cost.v
theories/Model_CostIO.v
theories/Model_Ctor.v
theories/Model_Dtype.v
theories/Model_DtypeAdmm.v
theories/Model_FB.v
theories/Model_Filter.v
theories/Model_GD.v
theories/Model_GDC.v
theories/Model_GDX.v
theories/Model_Heap.v
theories/Model_HeapGD.v
theories/Model_IdProx.v
theories/Model_KSupport.v
theories/Model_Linear.v
theories/Model_Log.v
theories/Model_MR.v
theories/Model_Matrix.v
theories/Model_Noise.v
theories/Model_NpAdjust.v
theories/Model_Obs.v
theories/Model_Observable.v
theories/Model_OpInit.v
theories/Model_PD.v
theories/Model_Progress.v
theories/Model_Prox.v
theories/Model_Run.v
theories/Model_RwX.v
theories/Model_SSIM.v
theories/Model_SVD.v
theories/Model_SetUp.v
theories/Model_Signal.v
theories/Model_SignalX.v
theories/Model_Stats.v
theories/Model_Transform.v
theories/Model_Types.v
theories/Model_TypesN.v
theories/Model_Wavelet.v
theories/NPReal.v
theories/Proof_Accel.v
theories/Proof_Ada.v
theories/Proof_Apart.v
theories/Proof_Apart2.v
theories/Proof_Array.v
theories/Proof_Complex.v
theories/Proof_CondatInexact.v
theories/Proof_Conv.v
theories/Proof_Cost.v
theories/Proof_Default.v
theories/Proof_Dual.v
theories/Proof_FB.v
theories/Proof_FB2.v
theories/Proof_FBNum.v
theories/Proof_Filter.v
theories/Proof_FistaInexact.v
theories/Proof_FistaInexact2.v
theories/Proof_GD.v
theories/Proof_GDC.v
theories/Proof_GDX.v
theories/Proof_GfbInexact.v
theories/Proof_Heap.v
theories/Proof_Heap2.v
theories/Proof_HeapFA.v
theories/Proof_HeapGD.v
theories/Proof_Inexact.v
theories/Proof_Inst.v
theories/Proof_Iter.v
theories/Proof_Iter2.v
theories/Proof_Iter3.v
theories/Proof_KSCost.v
theories/Proof_KSOp.v
theories/Proof_KSearch.v
theories/Proof_KSupport.v
theories/Proof_Lim.v
theories/Proof_Linear.v
theories/Proof_Log.v
theories/Proof_MR.v
theories/Proof_Matrix.v
theories/Proof_Noise.v
theories/Proof_NpAdjust.v
theories/Proof_OWL.v
theories/Proof_Observable.v
theories/Proof_PD.v
theories/Proof_Pogm.v
theories/Proof_Prox.v
theories/Proof_Regret.v
theories/Proof_Restart.v
theories/Proof_SSIM.v
theories/Proof_SVD.v
theories/Proof_SVDLow.v
theories/Proof_SVDModel.v
theories/Proof_SVDMore.v
theories/Proof_SetUp.v
theories/Proof_Smooth.v
theories/Proof_Stab.v
theories/Proof_Stab2.v
theories/Proof_Stats.v
theories/Proof_Sym.v
theories/Proof_Transform.v
theories/Proof_Types.v
theories/Proof_TypesN.v
theories/Proof_Units.v
theories/Proof_Wavelet.v
theories/Prop_ADMM.v
theories/Prop_Accel.v
theories/Prop_Ada.v
theories/Prop_Apart.v
theories/Prop_Backend.v
theories/Prop_Base.v
theories/Prop_Complex.v
theories/Prop_Constrained.v
theories/Prop_Conv.v
theories/Prop_Cost.v
theories/Prop_CostIO.v
theories/Prop_Ctor.v
theories/Prop_Default.v
theories/Prop_Dtype.v
theories/Prop_DtypeAdmm.v
theories/Prop_Dual.v
theories/Prop_FB.v
theories/Prop_Filter.v
theories/Prop_FistaInexact.v
theories/Prop_GD.v
theories/Prop_GDC.v
theories/Prop_GDX.v
theories/Prop_GfbInexact.v
theories/Prop_Heap.v
theories/Prop_HeapGD.v
theories/Prop_Inexact.v
theories/Prop_KSupport.v
theories/Prop_Lim.v
theories/Prop_Linear.v
theories/Prop_Linear2.v
theories/Prop_Log.v
theories/Prop_MR.v
theories/Prop_Matrix.v
theories/Prop_Matrix2.v
theories/Prop_Noise.v
theories/Prop_Obs.v
theories/Prop_OpInit.v
theories/Prop_PD.v
theories/Prop_Pogm.v
theories/Prop_Progress.v
theories/Prop_Prox.v
theories/Prop_Regret.v
theories/Prop_Restart.v
theories/Prop_Reweight.v
theories/Prop_Run.v
theories/Prop_RwX.v
theories/Prop_SSIM.v
theories/Prop_SVD.v
theories/Prop_SignalX.v
theories/Prop_Stab.v
theories/Prop_Stab2.v
theories/Prop_Stats.v
theories/Prop_StepSize.v
theories/Prop_Sym.v
theories/Prop_Transform.v
theories/Prop_TypesN.v
theories/Prop_Units.v
theories/Prop_Wavelet.v
theories/Py.v
theories/Spec_Backend.v
theories/Spec_Complex.v
theories/Spec_Constrained.v
theories/Spec_Cost.v
theories/Spec_CostIO.v
theories/Spec_Ctor.v
theories/Spec_Dual.v
theories/Spec_Filter.v
theories/Spec_GD.v
theories/Spec_GDC.v
theories/Spec_GDX.v
theories/Spec_Gfb.v
theories/Spec_Heap.v
theories/Spec_HeapGD.v
theories/Spec_KSupport.v
theories/Spec_Lasso.v
theories/Spec_Lim.v
theories/Spec_Linear.v
theories/Spec_MR.v
theories/Spec_Matrix.v
theories/Spec_Noise.v
theories/Spec_NpAdjust.v
theories/Spec_Observable.v
theories/Spec_OpInit.v
theories/Spec_Opt.v
theories/Spec_Progress.v
theories/Spec_Prox.v
theories/Spec_Regret.v
theories/Spec_Restart.v
theories/Spec_Reweight.v
theories/Spec_SSIM.v
theories/Spec_SVD.v
theories/Spec_Stats.v
theories/Spec_StepSize.v
theories/Spec_Sym.v
theories/Spec_Transform.v
theories/Spec_TypesN.v
theories/Spec_Wavelet.v
