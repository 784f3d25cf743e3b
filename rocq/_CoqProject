-Q theories Verif
theories/Base.v
theories/Space.v
theories/Spec.v
theories/ConvexFacts.v
theories/ApdMath.v
theories/Compact.v
theories/CountMath.v
theories/Cplx.v
theories/DFT.v
theories/DualTV.v
theories/DykMath.v
theories/EscapeMath.v
theories/ExactSolve.v
theories/ExistMath.v
theories/Fejer.v
theories/HahnBanach.v
theories/InconsMath.v
theories/InexactMath.v
theories/InexactMath2.v
theories/IterMath.v
theories/IterMath2.v
theories/IterMath3.v
theories/LoopFacts.v
theories/LoopFacts2.v
theories/M_AndShow.v
theories/M_Anderson.v
theories/M_Bilin.v
theories/M_Breg.v
theories/M_Conv.v
theories/M_Count.v
theories/M_Cuda.v
theories/M_Cx.v
theories/M_CxBilin.v
theories/M_Denoise.v
theories/M_Dyk.v
theories/M_Expr.v
theories/M_FP.v
theories/M_Float.v
theories/M_GradTest.v
theories/M_Heap.v
theories/M_Int.v
theories/M_Inter.v
theories/M_L0.v
theories/M_L1.v
theories/M_L2.v
theories/M_Log1.v
theories/M_Loop.v
theories/M_Low.v
theories/M_Multi.v
theories/M_Nonlin.v
theories/M_Norms.v
theories/M_Objs.v
theories/M_Opts.v
theories/M_PALM.v
theories/M_PD.v
theories/M_PG.v
theories/M_PGB.v
theories/M_Pen.v
theories/M_Proj.v
theories/M_ProxOp.v
theories/M_QE.v
theories/M_SR3.v
theories/M_SVD.v
theories/M_Seg.v
theories/M_Show.v
theories/M_Split.v
theories/M_TV.v
theories/M_VStack.v
theories/MatFacts.v
theories/MetricMath.v
theories/NoncvxMath.v
theories/P_AndShow.v
theories/P_Anderson.v
theories/P_Anderson2.v
theories/P_Anderson3.v
theories/P_Apd.v
theories/P_Bilin.v
theories/P_Bilin2.v
theories/P_Breg.v
theories/P_Breg2.v
theories/P_Conv.v
theories/P_Conv2.v
theories/P_Conv3.v
theories/P_Conv4.v
theories/P_Count.v
theories/P_Cuda.v
theories/P_Cx.v
theories/P_Cx2.v
theories/P_Cx3.v
theories/P_Cx4.v
theories/P_Cx5.v
theories/P_Cx6.v
theories/P_Cx7.v
theories/P_CxBilin.v
theories/P_Denoise.v
theories/P_Dyk.v
theories/P_Dyk2.v
theories/P_Dyk3.v
theories/P_Dyk4.v
theories/P_Dyk5.v
theories/P_Equiv.v
theories/P_Exist.v
theories/P_Exist2.v
theories/P_Exist3.v
theories/P_Expr.v
theories/P_Expr2.v
theories/P_FP.v
theories/P_FP2.v
theories/P_Grad.v
theories/P_GradTest.v
theories/P_Growth.v
theories/P_Hankel.v
theories/P_Heap.v
theories/P_Heap2.v
theories/P_Heap3.v
theories/P_Ident.v
theories/P_Iht.v
theories/P_Incons.v
theories/P_Inexact.v
theories/P_Int.v
theories/P_Int2.v
theories/P_Int3.v
theories/P_Inter.v
theories/P_Inter2.v
theories/P_Iter.v
theories/P_Iter2.v
theories/P_Iter3.v
theories/P_Iter4.v
theories/P_Iters.v
theories/P_L0.v
theories/P_L1.v
theories/P_L2.v
theories/P_L21.v
theories/P_L2b.v
theories/P_Lasso.v
theories/P_Limit.v
theories/P_Log1.v
theories/P_Low.v
theories/P_Metric.v
theories/P_Multi.v
theories/P_Multi2.v
theories/P_Multi3.v
theories/P_Nmf.v
theories/P_Noncvx.v
theories/P_Nonlin.v
theories/P_Norms.v
theories/P_Opts.v
theories/P_PALM.v
theories/P_PALM2.v
theories/P_PD.v
theories/P_PD2.v
theories/P_PD3.v
theories/P_PG.v
theories/P_PG2.v
theories/P_PG3.v
theories/P_PGB.v
theories/P_Path.v
theories/P_Pen.v
theories/P_Pen2.v
theories/P_Pen3.v
theories/P_Pnp.v
theories/P_Proj.v
theories/P_Proj2.v
theories/P_Proj3.v
theories/P_ProxOp.v
theories/P_QE.v
theories/P_QE2.v
theories/P_QE3.v
theories/P_QE4.v
theories/P_QE5.v
theories/P_QE6.v
theories/P_Qual.v
theories/P_Rates.v
theories/P_Resid.v
theories/P_Resume.v
theories/P_SR3.v
theories/P_SR3b.v
theories/P_SVD.v
theories/P_Seg.v
theories/P_Seg2.v
theories/P_Sets.v
theories/P_Shape.v
theories/P_Sharp.v
theories/P_Show.v
theories/P_Show2.v
theories/P_Show3.v
theories/P_Show4.v
theories/P_Sparse.v
theories/P_Split.v
theories/P_Split2.v
theories/P_Split3.v
theories/P_Stop.v
theories/P_TV.v
theories/P_TV2.v
theories/P_TV3.v
theories/P_Units.v
theories/P_VStack.v
theories/PnpMath.v
theories/Props_AndShow.v
theories/Props_Anderson3.v
theories/Props_Apd.v
theories/Props_Bilin2.v
theories/Props_Breg.v
theories/Props_Breg2.v
theories/Props_Conv2.v
theories/Props_Conv3.v
theories/Props_Conv4.v
theories/Props_Count.v
theories/Props_Cuda.v
theories/Props_Cx.v
theories/Props_Cx2.v
theories/Props_Cx3.v
theories/Props_Cx4.v
theories/Props_Cx5.v
theories/Props_Cx6.v
theories/Props_Cx7.v
theories/Props_CxBilin.v
theories/Props_Denoise.v
theories/Props_Dyk.v
theories/Props_Dyk2.v
theories/Props_Dyk3.v
theories/Props_Dyk4.v
theories/Props_Dyk5.v
theories/Props_Equiv.v
theories/Props_Exist.v
theories/Props_Exist2.v
theories/Props_Exist3.v
theories/Props_Expr.v
theories/Props_Expr2.v
theories/Props_FP2.v
theories/Props_Grad.v
theories/Props_GradTest.v
theories/Props_Growth.v
theories/Props_Hankel.v
theories/Props_Heap.v
theories/Props_Heap2.v
theories/Props_Heap3.v
theories/Props_Ident.v
theories/Props_Iht.v
theories/Props_Incons.v
theories/Props_Inexact.v
theories/Props_Int.v
theories/Props_Int2.v
theories/Props_Int3.v
theories/Props_Inter.v
theories/Props_Inter2.v
theories/Props_Iter.v
theories/Props_Iter2.v
theories/Props_Iter3.v
theories/Props_Iter4.v
theories/Props_Iters.v
theories/Props_L0.v
theories/Props_L1.v
theories/Props_L2.v
theories/Props_L21.v
theories/Props_L2b.v
theories/Props_Lasso.v
theories/Props_Limit.v
theories/Props_Log1.v
theories/Props_Low.v
theories/Props_Metric.v
theories/Props_Multi.v
theories/Props_Multi2.v
theories/Props_Multi3.v
theories/Props_Nmf.v
theories/Props_Noncvx.v
theories/Props_Nonlin.v
theories/Props_Norms.v
theories/Props_Opts.v
theories/Props_PALM.v
theories/Props_PALM2.v
theories/Props_PD.v
theories/Props_PD2.v
theories/Props_PD3.v
theories/Props_PG.v
theories/Props_PG2.v
theories/Props_PG3.v
theories/Props_PGB.v
theories/Props_Path.v
theories/Props_Pen.v
theories/Props_Pen2.v
theories/Props_Pen3.v
theories/Props_Pnp.v
theories/Props_Proj.v
theories/Props_Proj2.v
theories/Props_Proj3.v
theories/Props_ProxOp.v
theories/Props_QE4.v
theories/Props_QE6.v
theories/Props_Qual.v
theories/Props_Rates.v
theories/Props_Resid.v
theories/Props_Resume.v
theories/Props_SR3.v
theories/Props_SR3b.v
theories/Props_SVD.v
theories/Props_Seg2.v
theories/Props_Sets.v
theories/Props_Shape.v
theories/Props_Sharp.v
theories/Props_Show.v
theories/Props_Show2.v
theories/Props_Show3.v
theories/Props_Show4.v
theories/Props_Sparse.v
theories/Props_Split.v
theories/Props_Split2.v
theories/Props_Split3.v
theories/Props_Stop.v
theories/Props_TV3.v
theories/Props_Units.v
theories/Props_VStack.v
theories/RateMath.v
theories/SVD.v
theories/SVD2.v
theories/S_Anderson.v
theories/S_Anderson2.v
theories/S_Anderson3.v
theories/S_Bilin.v
theories/S_Bilin2.v
theories/S_Breg.v
theories/S_Breg2.v
theories/S_Conv.v
theories/S_Count.v
theories/S_Cx.v
theories/S_Denoise.v
theories/S_Dyk.v
theories/S_Dyk2.v
theories/S_Dyk3.v
theories/S_Dyk4.v
theories/S_Equiv.v
theories/S_Exist.v
theories/S_Exist2.v
theories/S_Expr.v
theories/S_FP.v
theories/S_Grad.v
theories/S_GradTest.v
theories/S_Growth.v
theories/S_Hankel.v
theories/S_Heap.v
theories/S_Ident.v
theories/S_Iht.v
theories/S_Incons.v
theories/S_Inexact.v
theories/S_Int.v
theories/S_Inter.v
theories/S_Iter.v
theories/S_L0.v
theories/S_L1.v
theories/S_L2.v
theories/S_L21.v
theories/S_L2b.v
theories/S_Lasso.v
theories/S_Limit.v
theories/S_Low.v
theories/S_Metric.v
theories/S_Multi.v
theories/S_Multi2.v
theories/S_Multi3.v
theories/S_Nmf.v
theories/S_Noncvx.v
theories/S_Nonlin.v
theories/S_Norms.v
theories/S_PALM.v
theories/S_PALM2.v
theories/S_PD.v
theories/S_PD2.v
theories/S_PD3.v
theories/S_PG.v
theories/S_PG2.v
theories/S_PG3.v
theories/S_PGB.v
theories/S_Path.v
theories/S_Pen.v
theories/S_Pen2.v
theories/S_Pen3.v
theories/S_Pnp.v
theories/S_Proj.v
theories/S_Proj2.v
theories/S_Proj3.v
theories/S_QE.v
theories/S_QE6.v
theories/S_Qual.v
theories/S_Rates.v
theories/S_Resume.v
theories/S_SR3b.v
theories/S_SVD.v
theories/S_Seg.v
theories/S_Seq.v
theories/S_Sets.v
theories/S_Shape.v
theories/S_Sharp.v
theories/S_Show.v
theories/S_Sparse.v
theories/S_Split2.v
theories/S_Split3.v
theories/S_Stop.v
theories/S_TV.v
theories/S_TV2.v
theories/S_TV3.v
theories/S_Units.v
theories/S_VStack.v
theories/Sep.v
theories/SeqConv.v
theories/SeqFacts.v
theories/Smooth.v
theories/SpecOps.v
theories/SplitMath.v
theories/Trace.v
theories/VSum.v
