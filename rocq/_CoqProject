-Q theories Verif

theories/Base.v
theories/MathOp.v
theories/IEEE.v
theories/NodeModel.v
theories/ParseModel.v
theories/ToStringModel.v
theories/SimplifyModel.v
theories/SubsModel.v
theories/DiffModel.v
theories/MatModel.v
theories/LinearModel.v
theories/MatSpec.v
theories/ExprSpec.v
theories/NodeProofs.v
theories/MatProofs.v
theories/DetProofs.v
theories/PivotProofs.v
theories/LinearProofs.v
theories/GrammarSpec.v
theories/ParseProofs.v
theories/ParseSound.v
theories/ParseTotal.v
theories/RealSpec.v
theories/RField.v
theories/MatRealSpec.v
theories/MatReal.v
theories/Sylvester.v
theories/LinearReal.v
theories/LinearSolve.v
theories/Thm_Linear.v
theories/Thm_Node.v
theories/Thm_Mat.v
theories/Thm_Parse.v
theories/SimplifySpec.v
theories/Thm_Simplify.v
theories/SubsSpec.v
theories/Thm_Subs.v
theories/DiffSpec.v
theories/DiffProofs.v
theories/DiffReal.v
theories/DiffSmooth.v
theories/DiffLax.v
theories/Thm_Diff.v
theories/VarsTableModel.v
theories/SymMatModel.v
theories/NonlinearModel.v
theories/VarsSpec.v
theories/Thm_Vars.v
theories/SymMatSpec.v
theories/SymMatProofs.v
theories/Thm_SymMat.v
theories/LinearTotal.v
theories/NonlinearSpec.v
theories/NonlinearProofs.v
theories/Thm_Nonlinear.v
theories/Thm_LM64.v
theories/TextSpec.v
theories/TextProofs.v
theories/NumTextSpec.v
theories/NumText.v
theories/Thm_Text.v
theories/HeapModel.v
theories/HeapSpec.v
theories/HeapProofs.v
theories/HeapSubs.v
theories/HeapSimplify.v
theories/HeapDiff.v
theories/HeapParse.v
theories/ApiModel.v
theories/ApiSpec.v
theories/ApiProofs.v
theories/MemSpec.v
theories/MemProofs.v
theories/Thm_Api.v
theories/AffineSpec.v
theories/AffineSolve.v
theories/Thm_Affine.v
theories/Thm_Norms.v
theories/Conformance.v
theories/NewtonSpec.v
theories/NewtonProofs.v
theories/Thm_Newton.v
theories/MatTextSpec.v
theories/Thm_MatText.v
theories/Thm_Vec.v
theories/HashSpec.v
theories/HashProofs.v
theories/Thm_Words.v
theories/ThreadSpec.v
theories/Thm_Threads.v
theories/Thm_Stack.v
theories/LinearSpec.v
theories/Thm_Linear64.v
theories/AngleModel.v
theories/Thm_Angle.v
theories/RegexModel.v
theories/Thm_Regex.v
theories/ErrorModel.v
theories/ErrorSpec.v
theories/Thm_Errors.v
theories/SciText.v
theories/Thm_Sci.v
theories/FloatSpec.v
theories/FloatFacts.v
theories/Thm_Float.v
theories/IntSpec.v
theories/IntProofs.v
theories/Thm_Int.v
theories/LogModel.v
theories/LogSpec.v
theories/LogProofs.v
theories/Thm_Log.v
theories/RoundSpec.v
theories/RoundProofs.v
theories/Thm_Round.v
theories/RoundInv.v
theories/Thm_RoundDet.v
theories/Thm_RoundInv.v
theories/Thm_RoundFun.v
theories/SolveSpec.v
theories/LinRound.v
theories/LinGen.v
theories/LinFloat.v
theories/LinLoop.v
theories/Thm_Solve.v
theories/SymHeapModel.v
theories/SymHeapSpec.v
theories/SymHeapProofs.v
theories/SymHeapRun.v
theories/Thm_SymHeap.v
theories/DerivSpec.v
theories/Thm_Deriv.v
theories/Newton64Spec.v
theories/NewtonRound.v
theories/Thm_Newton64.v
theories/LMSpec.v
theories/LMSolve.v
theories/LMProofs.v
theories/Thm_LM.v
theories/Thm_Names.v
theories/SizeSpec.v
theories/Thm_Size.v
theories/Thm_Mixed.v
theories/Thm_Root.v
theories/AltModel.v
theories/Thm_Alt.v
theories/Thm_Settle.v
theories/Thm_Relax.v
theories/RenameSpec.v
theories/Thm_Rename.v
theories/SolveFinite.v
theories/WrittenSpec.v
theories/Thm_Written.v
theories/MachineModel.v
theories/MachineSpec.v
theories/Thm_Machine.v
theories/ChainSpec.v
theories/Thm_Chain.v
theories/ComposeSpec.v
theories/Thm_Compose.v
theories/NumeralSpec.v
theories/NumeralProofs.v
theories/Thm_Numeral.v
theories/Thm_LinAlg.v
theories/ScalarSpec.v
theories/Thm_Global.v
theories/LineSpec.v
theories/Thm_Armijo.v
theories/Thm_Check.v
theories/RewriteSpec.v
theories/IdenticalProofs.v
theories/Thm_Rewrite.v
theories/ClearSpec.v
theories/ClearLinear.v
theories/Thm_Order.v
theories/Thm_OrderEx.v
theories/SignSpec.v
theories/TieSpec.v
theories/TieProofs.v
theories/SignProofs.v
theories/Thm_Sign.v
theories/Thm_SignEx.v
theories/Thm_Tie.v
theories/Thm_TieEx.v
