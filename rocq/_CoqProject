-Q theories Verif
theories/Base.v
theories/Num.v
theories/Node.v
theories/NodeDiff.v
theories/NodeStd.v
theories/Constraint.v
theories/Matrix.v
theories/Problem.v
theories/ModelStd.v
theories/Model.v
theories/ExprSpec.v
theories/NodeInd.v
theories/World.v
theories/Fresh.v
theories/EvalProofs.v
theories/MapProofs.v
theories/StdPropProofs.v
theories/PathProofs.v
theories/DerivProofs.v
theories/DiffSpec.v
theories/DiffProofs.v
theories/PanicProofs.v
theories/GradProofs.v
theories/HessProofs.v
theories/CompProofs.v
theories/Api.v
theories/ApiProofs.v
theories/ExprExtra.v
theories/Sim.v
theories/Properties_Expr.v
theories/Properties_Diff.v
theories/MatSpec.v
theories/MatrixProofs.v
theories/SumDupProofs.v
theories/CsrProofs.v
theories/ProblemProofs.v
theories/Properties_Matrix.v
theories/OccProofs.v
theories/ConstrSpec.v
theories/ConstrProofs.v
theories/ConstrEquiv.v
theories/PartsProofs.v
theories/BuildProofs.v
theories/BuildMain.v
theories/ModelApi.v
theories/StdMain.v
theories/HistProofs.v
theories/ModelSpec.v
theories/PointProofs.v
theories/EvalRun.v
theories/SlotProofs.v
theories/ConstrPanic.v
theories/ModelExample.v
theories/Properties_Constr.v
theories/StdFacts.v
theories/HistAff.v
theories/Properties_Std.v
theories/Properties_Feas.v
theories/EvalSpec.v
theories/JacProofs.v
theories/Properties_Eval.v
theories/HashSpec.v
theories/HashProofs.v
theories/HashMain.v
theories/Properties_Hash.v
theories/Properties_HashSol.v
theories/SolveProofs.v
theories/Properties_Solve.v
theories/KktSpec.v
theories/KktProofs.v
theories/LinOptProofs.v
theories/KktConverse.v
theories/Properties_Kkt.v
theories/Text.v
theories/SolverBase.v
theories/LpFile.v
theories/SolFile.v
theories/CmdSolver.v
theories/TextProofs.v
theories/FmtProofs.v
theories/FloatProofs.v
theories/Properties_Num.v
theories/SolSpec.v
theories/Properties_Sol.v
theories/TextSpec.v
theories/Properties_Text.v
theories/Properties_Cmd.v
theories/LpSpec.v
theories/LpProofs.v
theories/Properties_Lp.v
theories/Properties_End.v
theories/Ipopt.v
theories/IpoptSpec.v
theories/EndSpec.v
theories/IpoptProofs.v
theories/Properties_Ipopt.v
theories/Properties_EndIpopt.v
theories/Display.v
theories/DispSpec.v
theories/Properties_Display.v
theories/FloatOps.v
theories/ExactSim.v
theories/ExactSpec.v
theories/ExactF.v
theories/ExactHist.v
theories/Properties_Exact.v
theories/Properties_ExactModel.v
theories/SparseProofs.v
theories/Properties_Sparse.v
theories/LpModelSpec.v
theories/LpModelProofs.v
theories/Properties_LpModel.v
theories/CmdSteps.v
theories/StepSpec.v
theories/StepProofs.v
theories/Properties_Steps.v
theories/RoundOps.v
theories/RoundSpec.v
theories/RoundProofs.v
theories/Properties_Round.v
theories/PlaceSpec.v
theories/SlotAny.v
theories/Properties_Place.v
theories/NoFun.v
theories/RoundCoef.v
theories/CoefSpec.v
theories/CoefProofs.v
theories/CoefHist.v
theories/Properties_Coef.v
theories/TolSpec.v
theories/Properties_Tol.v
theories/PostSpec.v
theories/PostProofs.v
theories/Properties_Post.v
theories/PolySpec.v
theories/DegProofs.v
theories/DerivSim.v
theories/PolyVars.v
theories/PolyProofs.v
theories/Properties_Poly.v
theories/PolyModelSpec.v
theories/PolyComp.v
theories/PolyHist.v
theories/PolyParts.v
theories/Properties_PolyModel.v
theories/Properties_Problem.v
theories/DerivVars.v
theories/BitSpec.v
theories/BitProofs.v
theories/NegF.v
theories/Properties_Bit.v
theories/ArithKind.v
theories/DerEstSpec.v
theories/DerEstProofs.v
theories/Properties_DerEst.v
theories/Properties_Full.v
theories/SecondSpec.v
theories/SecondProofs.v
theories/Properties_Second.v
theories/PartialSpec.v
theories/Properties_Partial.v
theories/RawSpec.v
theories/Properties_Raw.v
theories/GapSpec.v
theories/Properties_Gap.v
theories/ToldSpec.v
theories/Properties_Told.v
theories/AffSpec.v
theories/Properties_Aff.v
theories/LagSpec.v
theories/Properties_Lag.v
theories/SlackSpec.v
theories/Properties_Slack.v
theories/ConvSpec.v
theories/Properties_Conv.v
theories/ConvexSpec.v
theories/Properties_Convex.v
theories/Tests.v
