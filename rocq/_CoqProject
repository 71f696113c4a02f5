-Q theories Verif
theories/Num.v
theories/Outcome.v
theories/Lib.v
theories/ModelExpr.v
theories/ModelGraph.v
theories/ModelSystem.v
theories/ModelMatching.v
theories/ModelSolve.v
theories/ModelNumerical.v
theories/ModelApi.v
theories/Spec_Sketch.v
theories/Spec_Graph.v
theories/Proofs_Graph.v
theories/Proofs_System.v
theories/Proofs_Calls.v
theories/Proofs_Analyze.v
theories/Spec_Matching.v
theories/Proofs_Matching.v
theories/Spec_Scc.v
theories/Proofs_Scc.v
theories/Spec_Groups.v
theories/Proofs_Groups.v
theories/Spec_Solver.v
theories/Proofs_Solve.v
theories/Spec_Pass.v
theories/Proofs_Safe.v
theories/Spec_History.v
theories/Proofs_Step.v
theories/Proofs_History.v
theories/Proofs_Api.v
theories/Proofs_World.v
theories/Demo.v
theories/Props_Api.v
theories/ModelHandle.v
theories/Proofs_Handle.v
theories/Props_Handle.v
theories/Proofs_Pass.v
theories/Props_Graph.v
theories/Spec_Components.v
theories/Proofs_Components.v
theories/Props_Components.v
theories/Proofs_Free.v
theories/Props_Free.v
theories/NumR.v
theories/Proofs_Real.v
theories/Spec_Geometry.v
theories/Proofs_Geometry.v
theories/Proofs_Derive.v
theories/Proofs_Motion.v
theories/DemoR.v
theories/Spec_Jacobian.v
theories/Proofs_Jacobian.v
theories/Props_Geometry.v
theories/Proofs_Random.v
theories/Proofs_F64.v
theories/Proofs_Perturb.v
theories/Props_Random.v
theories/Spec_Rank.v
theories/Proofs_Rank.v
theories/Proofs_Overconstraint.v
theories/Props_Rank.v
theories/ModelLm.v
theories/Spec_Descent.v
theories/Proofs_Lm.v
theories/Props_Optimize.v
theories/ModelSparse.v
theories/Spec_Sparse.v
theories/Spec_Linear.v
theories/Proofs_Sparse.v
theories/Proofs_Convert.v
theories/Proofs_Transpose.v
theories/Proofs_Format.v
theories/Proofs_Triangular.v
theories/Props_Sparse.v
theories/ModelForest.v
theories/Spec_Forest.v
theories/Proofs_Permutation.v
theories/Proofs_Forest.v
theories/Props_Forest.v
theories/ModelCholesky.v
theories/ModelQr.v
theories/Spec_Elimination.v
theories/Proofs_Elimination.v
theories/Props_Elimination.v
theories/ModelLbfgs.v
theories/Spec_Bfgs.v
theories/Spec_Lbfgs.v
theories/Proofs_Linear.v
theories/Proofs_Lbfgs.v
theories/Proofs_Bfgs.v
theories/Proofs_LbfgsDemo.v
theories/Proofs_LbfgsLong.v
theories/Spec_Gradient.v
theories/Spec_Lm.v
theories/Proofs_Gradient.v
theories/Spec_Downhill.v
theories/Proofs_Downhill.v
theories/Props_Lbfgs.v
theories/Spec_Qr.v
theories/Proofs_Householder.v
theories/Props_Householder.v
theories/Proofs_Columns.v
theories/Proofs_Factorize.v
theories/Proofs_QrSolve.v
theories/Proofs_Tree.v
theories/Proofs_Counts.v
theories/Proofs_Rows.v
theories/Proofs_Structure.v
theories/Proofs_Symbolic.v
theories/Proofs_QrReturns.v
theories/Proofs_FullRank.v
theories/Props_Qr.v
theories/Proofs_QrFactor.v
theories/Props_Factor.v
theories/Proofs_LmTextbook.v
theories/Props_Lm.v
theories/ModelOptimize.v
theories/Proofs_QrSafe.v
theories/Proofs_Optimize.v
theories/Proofs_LmExact.v
theories/Proofs_Returns.v
theories/Proofs_Hang.v
theories/Proofs_LbfgsHang.v
theories/Props_Solve.v
theories/ModelColamd.v
theories/ModelSymamd.v
theories/Spec_Colamd.v
theories/Spec_Symamd.v
theories/Proofs_Zlist.v
theories/Proofs_Order.v
theories/Proofs_View.v
theories/Proofs_DegreeLists.v
theories/Proofs_Absorb.v
theories/Proofs_Collect.v
theories/Proofs_Gather.v
theories/Proofs_Rescore.v
theories/Proofs_Merge.v
theories/Proofs_Invariant.v
theories/Proofs_Round.v
theories/Proofs_Pivot.v
theories/Proofs_Search.v
theories/Proofs_Init.v
theories/Proofs_Colamd.v
theories/Proofs_Symamd.v
theories/Proofs_Validate.v
theories/Props_Colamd.v
theories/Props_Symamd.v
theories/ModelAssembly.v
theories/Spec_Assembly.v
theories/Proofs_Assembly.v
theories/Proofs_AssemblyFrame.v
theories/Proofs_Plan.v
theories/Proofs_Incidence.v
theories/Props_Assembly.v
theories/Spec_Reproducible.v
theories/Proofs_Reproducible.v
theories/Props_Reproducible.v
theories/Proofs_Reorder.v
theories/Proofs_OrderSolve.v
theories/Proofs_OrderHistory.v
theories/Props_Reorder.v
theories/Proofs_Whole.v
theories/Spec_Whole.v
theories/Proofs_WholeR.v
theories/Proofs_PassWhole.v
theories/Proofs_Clustered.v
theories/Proofs_AssemblyBroken.v
theories/Proofs_WholeDemo.v
theories/Proofs_Steps.v
theories/Proofs_Idle.v
theories/Proofs_IdleDemo.v
theories/Props_Whole.v
theories/Props_Whole64.v
theories/ModelSvg.v
theories/Spec_Svg.v
theories/Proofs_Svg.v
theories/Proofs_SvgFrame.v
theories/Props_Svg.v
theories/Props_SvgFrame.v
theories/Spec_Units.v
theories/Proofs_Units.v
theories/Proofs_UnitsHistory.v
theories/Props_Units.v
theories/Props_Units64.v
theories/Spec_Options.v
theories/Proofs_Options.v
theories/Props_Options.v
