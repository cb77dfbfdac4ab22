-Q theories Verif
theories/Prelude.v
theories/Sympy.v
theories/AlgebraModel.v
theories/Denote.v
theories/FunctionModel.v
theories/CircuitModel.v
theories/SymSpec.v
theories/Spec.v
theories/ClassSpec.v
theories/CertSpec.v
theories/StateSpec.v
theories/SessionModel.v
theories/PreludeFacts.v
theories/SympyFacts.v
theories/AlgebraFacts.v
theories/GramFacts.v
theories/SymFacts.v
theories/SpecFacts.v
theories/ClassFacts.v
theories/StateFacts.v
theories/CertFacts.v
theories/AlgebraProps.v
theories/Props_Algebra.v
theories/ClassProps.v
theories/RepeatFacts.v
theories/FunctionSpec.v
theories/FunctionFacts.v
theories/FunctionFacts2.v
theories/FunctionProps.v
theories/Examples.v
theories/Props_Classes.v
theories/InterpFacts.v
theories/InterpSmooth.v
theories/InterpProps.v
theories/Props_Interp.v
theories/DualitySpec.v
theories/DualityFacts.v
theories/DualityProps.v
theories/DualityExamples.v
theories/Props_Duality.v
theories/VerifySpec.v
theories/VerifyProps.v
theories/Props_Verify.v
theories/StrictSpec.v
theories/StrictProps.v
theories/StrictSum.v
theories/StrictBuild.v
theories/StrictMulti.v
theories/StrictNet.v
theories/StrictLoop.v
theories/StrictDual.v
theories/Props_Strict.v
theories/TextbookProps.v
theories/Props_Textbook.v
theories/Props_Functions.v
theories/RenameFacts.v
theories/Props_History.v
theories/ParsingModel.v
theories/SolverModel.v
theories/ParsingSpec.v
theories/ParsingFacts.v
theories/CoeffFacts.v
theories/SolverSpec.v
theories/SolverFacts.v
theories/SymbolFacts.v
theories/IpoptFacts.v
theories/IpoptTail.v
theories/IpoptProof.v
theories/IpoptComplete.v
theories/MatFacts.v
theories/SolverProps.v
theories/Props_Solver.v
theories/QcqpModel.v
theories/QcqpSpec.v
theories/QcqpFacts.v
theories/QcqpFacts2.v
theories/QcqpBuild.v
theories/QcqpProof.v
theories/QcqpMain.v
theories/UtilModel.v
theories/UtilSpec.v
theories/UtilFacts.v
theories/Props_Qcqp.v
theories/SdpModel.v
theories/SdpSpec.v
theories/SdpFacts.v
theories/SdpRelax.v
theories/ExtraModel.v
theories/ExtraSpec.v
theories/ExtraFacts.v
theories/CheckFacts.v
theories/Props_Sdp.v
theories/MiscModel.v
theories/MiscSpec.v
theories/MiscFacts.v
theories/LinFacts.v
theories/PolyFacts.v
theories/Props_Misc.v
theories/BuilderModel.v
theories/BuilderSpec.v
theories/BuildsSpec.v
theories/BuilderLogic.v
theories/BuilderT.v
theories/BuilderRun.v
theories/BuilderProof.v
theories/BuilderList.v
theories/BuilderListProof.v
theories/BuilderUseSpec.v
theories/BuilderUse.v
theories/BuilderExamples.v
theories/Props_Builders.v
theories/MethodModel.v
theories/MethodSpec.v
theories/GraphFacts.v
theories/ProxFacts.v
theories/DadmmFacts.v
theories/DadmmConv.v
theories/DadmmLimit.v
theories/PgFacts.v
theories/FormFacts.v
theories/PgConv.v
theories/MetropolisFacts.v
theories/ProxSpec.v
theories/ProxForms.v
theories/MethodRunSpec.v
theories/MethodRuns.v
theories/MethodApps.v
theories/MethodUse.v
theories/MethodExamples.v
theories/Props_Methods.v
