-Q theories Verif
theories/Num.v
theories/NumQ.v
theories/Model_TimeStepping.v
theories/Spec_TimeStepping.v
theories/Transfer_TimeStepping.v
theories/Proofs_TimeStepping.v
theories/Proofs_TimeStepping2.v
theories/Properties_TimeStepping.v
theories/Model_Parameters.v
theories/Spec_Parameters.v
theories/Proofs_Parameters.v
theories/Properties_Parameters.v
theories/Model_Boundary.v
theories/Properties_Boundary.v
theories/Model_Output.v
theories/Properties_Output.v
theories/Model_NonlinearSolver.v
theories/Properties_NonlinearSolver.v
theories/Model_Refinement.v
theories/Properties_Refinement.v
theories/SumR.v
theories/Model_NSOperator.v
theories/Properties_NSOperator.v
theories/Model_MatrixState.v
theories/Properties_MatrixState.v
theories/Model_Blocks.v
theories/Properties_Blocks.v
theories/Model_Indices.v
theories/Properties_Indices.v
theories/Model_Reductions.v
theories/Properties_Reductions.v
theories/Model_Bubble.v
theories/Properties_Bubble.v
theories/Properties_Bubble2.v
theories/Model_LevelSet.v
theories/Properties_LevelSet.v
theories/Properties_LevelSet2.v
theories/Model_Force.v
theories/Properties_Force.v
theories/Model_LevelSetOps.v
theories/Properties_LevelSetOps.v
theories/Model_Reinit.v
theories/Properties_Reinit.v
theories/Model_TwoPhaseClocks.v
theories/Properties_TwoPhaseClocks.v
theories/Model_LevelSetBoundary.v
theories/Properties_LevelSetBoundary.v
theories/Model_PhaseField.v
theories/Properties_PhaseField.v
theories/Model_Curvature.v
theories/Properties_Curvature.v
theories/Model_SharpInterface.v
theories/Properties_SharpInterface.v
theories/Model_Stabilization.v
theories/Properties_Stabilization.v
theories/Model_RefinementIndicator.v
theories/Properties_RefinementIndicator.v
theories/Model_VelocityMatrix.v
theories/Properties_VelocityMatrix.v
theories/Model_ProjectionMatrix.v
theories/Properties_ProjectionMatrix.v
theories/Model_Transfer.v
theories/Properties_Transfer.v
theories/Model_BoundaryValues.v
theories/Properties_BoundaryValues.v
theories/Model_JointOutput.v
theories/Properties_JointOutput.v
theories/Model_Projection.v
theories/Properties_Projection.v
theories/Properties_Projection2.v
theories/Model_MatrixForce.v
theories/Properties_MatrixForce.v
theories/Model_MatrixLevelSet.v
theories/Properties_MatrixLevelSet.v
theories/Model_Examples.v
theories/Properties_Examples.v
theories/Model_FrontGeometry.v
theories/Properties_FrontGeometry.v
theories/Model_InteriorPenalty.v
theories/Properties_InteriorPenalty.v
theories/Model_Record.v
theories/Properties_Record.v
theories/Model_Gather.v
theories/Properties_Gather.v
theories/Model_GlobalMatrix.v
theories/Properties_GlobalMatrix.v
theories/Model_ContactAngle.v
theories/Properties_ContactAngle.v
theories/Model_Dispatch.v
theories/Properties_Dispatch.v
theories/Model_PhaseFieldMatrix.v
theories/Properties_PhaseFieldMatrix.v
theories/Model_PressureInterpolation.v
theories/Properties_PressureInterpolation.v
theories/Model_AbortedStep.v
theories/Properties_AbortedStep.v
theories/Model_Run.v
theories/Properties_Run.v
theories/Model_LevelSetRun.v
theories/Properties_LevelSetRun.v
theories/Properties_Energy.v
theories/Model_Coefficients.v
theories/Properties_Coefficients.v
theories/Model_Distribution.v
theories/Properties_Distribution.v
theories/Model_SurfaceProcesses.v
theories/Properties_SurfaceProcesses.v
theories/Properties_SteadyFlow.v
theories/Model_PhaseFieldRun.v
theories/Properties_PhaseFieldRun.v
theories/Properties_PhaseFieldEnergy.v
theories/Model_FaceDensities.v
theories/Properties_FaceDensities.v
theories/Properties_BalancedForce.v
theories/Properties_OneFluid.v
theories/Model_TimerSections.v
theories/Properties_TimerSections.v
theories/Model_ThetaSchemes.v
theories/Properties_ThetaSchemes.v
theories/Model_MatrixRun.v
theories/Properties_MatrixRun.v
theories/Model_CellLoop.v
theories/Properties_CellLoop.v
theories/Model_MicroFluidic.v
theories/Properties_MicroFluidic.v
theories/Properties_MassBalance.v
theories/Model_Statistics.v
theories/Properties_Statistics.v
theories/Model_HangingRun.v
theories/Properties_HangingRun.v
theories/Model_MemoryReport.v
theories/Properties_MemoryReport.v
theories/Properties_HangingBalance.v
theories/Properties_HangingEnergy.v
theories/Properties_HangingBalanced.v
