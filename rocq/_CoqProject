-Q theories Verif
theories/L_Boundary.v
theories/L_Burgers.v
theories/L_Coarsener.v
theories/L_CommandLine.v
theories/L_CommandRun.v
theories/L_Contraction.v
theories/L_Convergence.v
theories/L_EOC.v
theories/L_FE.v
theories/L_FEEntropy.v
theories/L_FELinear.v
theories/L_FELow.v
theories/L_FEMCL.v
theories/L_FERates.v
theories/L_FVSolver.v
theories/L_FloatMass.v
theories/L_Floats.v
theories/L_Flux.v
theories/L_GaussExist.v
theories/L_Generate.v
theories/L_GenerateRun.v
theories/L_Hills.v
theories/L_Interpolate.v
theories/L_Invariant.v
theories/L_Jumps.v
theories/L_JumpsRows.v
theories/L_Lagrange.v
theories/L_Mesh.v
theories/L_Neighbours.v
theories/L_NewtonCotes.v
theories/L_Norm.v
theories/L_ODE.v
theories/L_ODEOrder.v
theories/L_Poly.v
theories/L_Prelude.v
theories/L_Quadrature.v
theories/L_SWBounds.v
theories/L_SWLake.v
theories/L_SWLow.v
theories/L_SWMirror.v
theories/L_SWNodes.v
theories/L_SWRuns.v
theories/L_SWSized.v
theories/L_SWTotal.v
theories/L_SWWater.v
theories/L_SWWide.v
theories/L_Scalar.v
theories/L_ShallowWater.v
theories/L_Solution.v
theories/L_Solve.v
theories/L_Solver.v
theories/L_TimeStepping.v
theories/L_Timed.v
theories/L_Tools.v
theories/L_Units.v
theories/L_Variation.v
theories/M_Benchmark.v
theories/M_Boundary.v
theories/M_Coarsener.v
theories/M_Command.v
theories/M_CommandLine.v
theories/M_EOC.v
theories/M_FE.v
theories/M_FEChoice.v
theories/M_FVSolver.v
theories/M_FloatODE.v
theories/M_FloatStepping.v
theories/M_Flux.v
theories/M_Generate.v
theories/M_GenerateRun.v
theories/M_Interpolate.v
theories/M_Mesh.v
theories/M_Misc.v
theories/M_Neighbours.v
theories/M_Network.v
theories/M_Norm.v
theories/M_ODE.v
theories/M_Parser.v
theories/M_Program.v
theories/M_Quadrature.v
theories/M_Scalar.v
theories/M_ScalarSolver.v
theories/M_Series.v
theories/M_ShallowWater.v
theories/M_Solution.v
theories/M_Solver.v
theories/M_TimeStepping.v
theories/M_Tools.v
theories/P_Benchmark.v
theories/P_BenchmarkSW.v
theories/P_Boundary.v
theories/P_Burgers.v
theories/P_BurgersFV.v
theories/P_Coarsener.v
theories/P_Command.v
theories/P_CommandCalc.v
theories/P_CommandLine.v
theories/P_CommandMore.v
theories/P_CommandRun.v
theories/P_Constant.v
theories/P_Contraction.v
theories/P_Convergence.v
theories/P_ConvergenceBench.v
theories/P_ConvergenceEx.v
theories/P_ConvergenceFE.v
theories/P_ConvergenceLine.v
theories/P_EOC.v
theories/P_EOCEx.v
theories/P_Ends.v
theories/P_FE.v
theories/P_FECG.v
theories/P_FEChoice.v
theories/P_FEEntropy.v
theories/P_FELow.v
theories/P_FEMCL.v
theories/P_FEMatrix.v
theories/P_FEOneCell.v
theories/P_FEOrder.v
theories/P_FERun.v
theories/P_FESolver.v
theories/P_FVCoarse.v
theories/P_FVLake.v
theories/P_FVReduced.v
theories/P_FVReinit.v
theories/P_FVWater.v
theories/P_FloatMass.v
theories/P_FloatStepping.v
theories/P_Flux.v
theories/P_Gauss.v
theories/P_Generate.v
theories/P_GenerateRun.v
theories/P_Interpolate.v
theories/P_Jumps.v
theories/P_JumpsBench.v
theories/P_JumpsEOC.v
theories/P_Mesh.v
theories/P_Misc.v
theories/P_Network.v
theories/P_Norm.v
theories/P_ODE.v
theories/P_Options.v
theories/P_Parser.v
theories/P_Program.v
theories/P_Quadrature.v
theories/P_Restart.v
theories/P_SWBounds.v
theories/P_SWEnergy.v
theories/P_SWLimiter.v
theories/P_SWSymmetry.v
theories/P_SWWaves.v
theories/P_Scalar.v
theories/P_ScalarScheme.v
theories/P_ScalarSolver.v
theories/P_Series.v
theories/P_ShallowWater.v
theories/P_Sharp.v
theories/P_Shift.v
theories/P_Solution.v
theories/P_Solver.v
theories/P_TimeStepping.v
theories/P_Tools.v
theories/P_Units.v
theories/P_Variation.v
theories/P_VariationFE.v
theories/P_VariationLine.v
theories/Prelude.v
theories/S_Benchmark.v
theories/S_Boundary.v
theories/S_Burgers.v
theories/S_Coarsener.v
theories/S_Command.v
theories/S_CommandLine.v
theories/S_CommandRun.v
theories/S_Constant.v
theories/S_Contraction.v
theories/S_Convergence.v
theories/S_ConvergenceLine.v
theories/S_EOC.v
theories/S_Ends.v
theories/S_FE.v
theories/S_FEEntropy.v
theories/S_FELow.v
theories/S_FESolver.v
theories/S_FVCoarse.v
theories/S_FVSolver.v
theories/S_FloatMass.v
theories/S_Flux.v
theories/S_Generate.v
theories/S_GenerateRun.v
theories/S_Interpolate.v
theories/S_Jumps.v
theories/S_Neighbours.v
theories/S_Network.v
theories/S_Norm.v
theories/S_ODE.v
theories/S_Options.v
theories/S_Parser.v
theories/S_Poly.v
theories/S_Program.v
theories/S_Quadrature.v
theories/S_SWBounds.v
theories/S_Scalar.v
theories/S_ScalarSolver.v
theories/S_Series.v
theories/S_ShallowWater.v
theories/S_Solution.v
theories/S_Solve.v
theories/S_Solver.v
theories/S_Symmetry.v
theories/S_Tools.v
theories/S_Units.v
theories/S_Variation.v
theories/S_VariationLine.v
theories/S_Waves.v
