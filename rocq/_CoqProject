-Q theories Verif
theories/Base.v
theories/Model_Mproc.v
theories/Proofs_Mproc.v
theories/Model_Sched.v
theories/Proofs_Sched.v
theories/Model_Recon.v
theories/Proofs_Recon.v
theories/Spec.v
theories/Proofs_Parallel.v
theories/Properties_Parallel.v
theories/Order.v
theories/CLoop.v
theories/Model_Float.v
theories/Proofs_Float.v
theories/FloatR.v
theories/Model_Corr.v
theories/Proofs_Corr.v
theories/Proofs_Nonfinite.v
theories/Model_Prep.v
theories/Proofs_Prep.v
theories/Model_Median3d.v
theories/Proofs_Median3d.v
theories/Proofs_Median2d.v
theories/Properties_Corr.v
theories/Model_Morph.v
theories/Proofs_Morph.v
theories/Properties_Morph.v
theories/Model_Ray.v
theories/Proofs_Ray.v
theories/Properties_Ray.v
theories/Model_Solver.v
theories/Proofs_Solver.v
theories/Proofs_Art.v
theories/Proofs_Subsets.v
theories/Proofs_Bart.v
theories/Proofs_Em.v
theories/Proofs_Unit.v
theories/Proofs_Axis.v
theories/Properties_Solver.v
theories/Model_Vector.v
theories/Proofs_Vector.v
theories/Properties_Vector.v
theories/Model_Sim.v
theories/Proofs_Sim.v
theories/Properties_Sim.v
theories/Model_Rotation.v
theories/Proofs_Rotation.v
theories/Proofs_Vo.v
theories/Proofs_Center.v
theories/Properties_Rotation.v
theories/Model_Ospml.v
theories/Proofs_Ospml.v
theories/Properties_Penalty.v
theories/Model_Ring.v
theories/Spec_Ring.v
theories/Proofs_Ring.v
theories/Proofs_RingMean.v
theories/Proofs_RingAll.v
theories/Properties_Ring.v
theories/Model_Inpaint.v
theories/Spec_Inpaint.v
theories/Proofs_Inpaint.v
theories/Proofs_InpaintR.v
theories/Properties_Inpaint.v
theories/Model_Phase.v
theories/Properties_Phase.v
theories/Model_Stripe.v
theories/Proofs_Stripe.v
theories/Properties_Stripe.v
theories/Model_StripeSf.v
theories/Proofs_StripeSf.v
theories/Model_StripeTi.v
theories/Proofs_StripeTi.v
theories/Proofs_StripeCg.v
theories/Properties_StripeTi.v
theories/Model_StripeLarge.v
theories/Proofs_StripeLarge.v
theories/Properties_StripeLarge.v
theories/Model_Phantom.v
theories/Properties_Phantom.v
theories/Model_Propagate.v
theories/Properties_Propagate.v
theories/Model_Align.v
theories/Proofs_Align.v
theories/Properties_Align.v
theories/Model_Grad.v
theories/Proofs_Lsq.v
theories/Proofs_Grad.v
theories/Properties_Grad.v
theories/Proofs_Pdhg.v
theories/Proofs_Tv.v
theories/Spec_Tv.v
theories/Proofs_Tvrun.v
theories/Properties_Tv.v
theories/Cplx.v
theories/Model_Gridrec.v
theories/Spec_Gridrec.v
theories/Proofs_Gridrec.v
theories/Proofs_Gridimg.v
theories/Proofs_Poly.v
theories/Proofs_Filters.v
theories/Proofs_Prolate.v
theories/Properties_Gridrec.v
theories/Spec_Stripe3d.v
theories/Model_Stripe3d.v
theories/Proofs_Stripe3d.v
theories/Proofs_Detect3d.v
theories/Properties_Stripe3d.v
theories/Proofs_Mask3d.v
theories/Properties_Mask3d.v
theories/Model_Accel.v
theories/Model_AccelOpts.v
theories/Spec_Accel.v
theories/Proofs_Accel.v
theories/Proofs_AccelRun.v
theories/Proofs_AccelFix.v
theories/Proofs_AccelRot.v
theories/Properties_Accel.v
theories/Properties_AccelOpts.v
theories/Model_StripeFourier.v
theories/Spec_StripeFourier.v
theories/Proofs_StripeRank.v
theories/Proofs_StripeFourier.v
theories/Proofs_StripeFw.v
theories/Properties_StripeFourier.v
theories/Properties_StripeFw.v
theories/Model_PhaseFourier.v
theories/Spec_PhaseFourier.v
theories/Proofs_PhaseFourier.v
theories/Properties_PhaseFourier.v
theories/Model_Layout.v
theories/Spec_Layout.v
theories/Proofs_Layout.v
theories/Properties_Layout.v
theories/Model_Wrappers.v
theories/Proofs_Wrappers.v
theories/Proofs_Lprec.v
theories/Properties_Wrappers.v
theories/Model_Cuda.v
theories/Proofs_Cuda.v
theories/Proofs_CudaRun.v
theories/Proofs_CudaLive.v
theories/Proofs_CudaRace.v
theories/Properties_Cuda.v
theories/Model_Extern.v
theories/Spec_Extern.v
theories/Proofs_Extern.v
theories/Proofs_Extern2.v
theories/Proofs_Extern3.v
theories/Proofs_Extern4.v
theories/Properties_Extern.v
theories/Model_Npmath.v
theories/Spec_Npmath.v
theories/Proofs_Npmath.v
theories/Properties_Npmath.v
theories/Model_RayF.v
theories/Proofs_FloatB.v
theories/Proofs_RayF.v
theories/Proofs_RayF2.v
theories/Proofs_RayF3.v
theories/Proofs_RayF4.v
theories/Properties_RayF.v
theories/Model_SolverF.v
theories/Spec_SolverF.v
theories/Proofs_SolverF.v
theories/Proofs_SolverF2.v
theories/Proofs_SolverF3.v
theories/Proofs_SolverF4.v
theories/Proofs_SolverF5.v
theories/Proofs_SolverF6.v
theories/Proofs_SolverF7.v
theories/Properties_SolverF.v
theories/Model_PmlF.v
theories/Spec_PmlF.v
theories/Proofs_PmlF.v
theories/Proofs_PmlF2.v
theories/Proofs_PmlF3.v
theories/Proofs_PmlF4.v
theories/Proofs_PmlF5.v
theories/Properties_PmlF.v
theories/Model_GradF.v
theories/Spec_GradF.v
theories/Proofs_GradF.v
theories/Proofs_GradF2.v
theories/Proofs_GradF3.v
theories/Proofs_GradF4.v
theories/Proofs_GradF5.v
theories/Proofs_GradF6.v
theories/Proofs_GradF7.v
theories/Properties_GradF.v
theories/Model_PrepF.v
theories/Spec_PrepF.v
theories/Proofs_PrepF.v
theories/Proofs_PrepF2.v
theories/Proofs_PrepF3.v
theories/Proofs_PrepF4.v
theories/Properties_PrepF.v
theories/Model_VectorF.v
theories/Spec_VectorF.v
theories/Proofs_VectorF.v
theories/Proofs_VectorF2.v
theories/Proofs_VectorF3.v
theories/Proofs_VectorF4.v
theories/Proofs_VectorF5.v
theories/Proofs_VectorF6.v
theories/Proofs_VectorF7.v
theories/Proofs_VectorF8.v
theories/Properties_VectorF.v
