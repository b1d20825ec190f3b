-Q theories Verif
theories/Lazy.v
theories/LazySpec.v
theories/LazyProofs.v
theories/P_Lazy.v
theories/Naming.v
theories/NamingProofs.v
theories/P_Naming.v
theories/Context.v
theories/ContextSpec.v
theories/ContextProofs.v
theories/P_Context.v
theories/Graph.v
theories/Machine.v
theories/Refine.v
theories/Worlds.v
theories/Eval.v
theories/GraphSpec.v
theories/GraphProofs.v
theories/GraphOps.v
theories/GraphFacts.v
theories/P_Graph.v
theories/RV.v
theories/RVProofs.v
theories/Sound.v
theories/Typing.v
theories/Formal.v
theories/ModelSpec.v
theories/ModelFacts.v
theories/Plain.v
theories/Cond.v
theories/CondFacts.v
theories/CrossFacts.v
theories/Combine.v
theories/CombineFacts.v
theories/VarFacts.v
theories/LawFacts.v
theories/DiffApprox.v
theories/DiffFacts.v
theories/PointFacts.v
theories/ModelThms.v
theories/PlainThms.v
theories/PostDefined.v
theories/ExModel.v
theories/ExUser.v
theories/StepFacts.v
theories/ModelRefute.v
theories/ExDiff.v
theories/P_Model.v
theories/TotalSpec.v
theories/TotalPos.v
theories/TotalLogs.v
theories/Total.v
theories/TotalThms.v
theories/TotalEx.v
theories/TotalEx2.v
theories/P_Total.v
theories/ProdSpec.v
theories/ProdLogs.v
theories/Schur.v
theories/Prod.v
theories/ProdThms.v
theories/ProdEx.v
theories/P_Prod.v
theories/SymSpec.v
theories/SymEval.v
theories/SymLogs.v
theories/SymThms.v
theories/SymEx.v
theories/P_Sym.v
theories/ExactSpec.v
theories/Shape.v
theories/Exact.v
theories/ExactLogs.v
theories/ExactRV.v
theories/ExactMain.v
theories/ExactThms.v
theories/ExactEx.v
theories/P_Exact.v
theories/MulSpec.v
theories/MulFacts.v
theories/ExMul.v
theories/P_Mul.v
theories/Reals_field.v
theories/NormalSpec.v
theories/MatrixFacts.v
theories/Spectral.v
theories/Normal.v
theories/NormalFacts.v
theories/DiagonalFacts.v
theories/NormalExp.v
theories/NormalRVFacts.v
theories/ExNormal.v
theories/P_Normal.v
theories/NormalLazy.v
theories/LazyNormalFacts.v
theories/LazyNormalSpec.v
theories/LazyNormalThms.v
theories/LazyZero.v
theories/P_LazyNormal.v
theories/Pseudo.v
theories/PseudoSpec.v
theories/PseudoFacts.v
theories/PseudoGraph.v
theories/PseudoMain.v
theories/Leaves.v
theories/PseudoTup.v
theories/Elbo.v
theories/PseudoElbo.v
theories/ExPseudo.v
theories/ExPseudoGraph.v
theories/P_Pseudo.v
theories/P_PseudoGraph.v
theories/Caches.v
theories/CachesSpec.v
theories/CachesFacts.v
theories/CachesOnce.v
theories/P_Caches.v
theories/LogPdf.v
theories/LogPdfFacts.v
theories/ExLogPdf.v
theories/P_LogPdf.v
theories/Infer.v
theories/InferSpec.v
theories/ElwiseFacts.v
theories/InferFacts.v
theories/InferThms.v
theories/InferPdf.v
theories/ExInfer.v
theories/P_Infer.v
theories/GeneralSpec.v
theories/GeneralThms.v
theories/GeneralEx.v
theories/P_General.v
theories/Api.v
theories/ApiSpec.v
theories/ApiFacts.v
theories/ApiThms.v
theories/P_Api.v
theories/Stationary.v
theories/StationaryFacts.v
theories/P_Stationary.v
theories/SizeSpec.v
theories/SizeFacts.v
theories/SizeEx.v
theories/P_Size.v
