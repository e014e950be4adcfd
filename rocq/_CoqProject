-Q theories Verif
theories/Res.v
theories/Num.v
theories/Categoric.v
theories/Combs.v
theories/Func.v
theories/FuncProofs.v
theories/GroupProofs.v
theories/FactorProofs.v
theories/FactorApi.v
theories/P_Categoric.v
theories/P_Factor.v
theories/Special.v
theories/SpecialProofs.v
theories/P_Special.v
theories/Graph.v
theories/GraphLemmas.v
theories/Clusters.v
theories/Belief.v
theories/Query.v
theories/GraphInv.v
theories/EvidInv.v
theories/BeliefInv.v
theories/GraphSpec.v
theories/Hist.v
theories/Demo.v
theories/P_Graph.v
theories/BigOp.v
theories/Tree.v
theories/Cycle.v
theories/BPStep.v
theories/BPRun.v
theories/BeliefSpec.v
theories/Sums.v
theories/Exact.v
theories/BeliefHist.v
theories/Queries.v
theories/Rebuild.v
theories/BeliefDemo.v
theories/P_Belief.v
theories/Pool.v
theories/PoolProofs.v
theories/PoolComm.v
theories/Indep.v
theories/SchedIndep.v
theories/PoolMsg.v
theories/Halt.v
theories/P_Pool.v
theories/Gibbs.v
theories/GibbsSpec.v
theories/GibbsProofs.v
theories/GibbsChain.v
theories/MarkovSpec.v
theories/Markov.v
theories/GibbsPool.v
theories/P_Gibbs.v
theories/Train.v
theories/TrainHist.v
theories/TrainDemo.v
theories/P_Train.v
theories/CRF.v
theories/Coherent.v
theories/Parts.v
theories/JointSpec.v
theories/Joint.v
theories/P_Joint.v
theories/TrainSpec.v
theories/Gradient.v
theories/TrainInv.v
theories/RealNum.v
theories/GradientRun.v
theories/Likelihood.v
theories/P_Gradient.v
theories/P_GradientDemo.v
theories/CRFHist.v
theories/CRFInv.v
theories/CRFSpec.v
theories/P_CRF.v
theories/P_CRFDemo.v
theories/CRFGradient.v
theories/P_CRFGradient.v
theories/P_CRFGradientDemo.v
theories/Trainer.v
theories/TrainerSpec.v
theories/TrainerProofs.v
theories/P_Trainer.v
theories/P_TrainerDemo.v
theories/Xml.v
theories/XmlProofs.v
theories/P_Xml.v
theories/P_FilesAnswers.v
theories/P_CopyAnswers.v
theories/P_CopyGradient.v
theories/P_CopyTraining.v
theories/P_FilesTraining.v
theories/IO.v
theories/TextSpec.v
theories/TextProofs.v
theories/P_IO.v
theories/FieldHist.v
theories/P_Field.v
theories/Json.v
theories/JsonRead.v
theories/Plan.v
theories/CopyProofs.v
theories/JsonProofs.v
theories/P_Copy.v
theories/P_Json.v
theories/SafeSpec.v
theories/Safe.v
theories/P_Safe.v
theories/Warm.v
theories/P_Loopy.v
theories/GradientPool.v
theories/P_GradientPool.v
theories/FieldSafeSpec.v
theories/FieldSafe.v
theories/SampleSafe.v
theories/P_FieldSafe.v
theories/AbsorbSpec.v
theories/Absorb.v
theories/P_Absorb.v
theories/FieldHalt.v
theories/P_Halt.v
theories/CondSafeSpec.v
theories/CondSafe.v
theories/P_CondSafe.v
theories/CondCopy.v
theories/P_CondAnswers.v
theories/P_CondCopy.v
theories/P_CondFiles.v
theories/P_CondFilesAnswers.v
theories/P_CondCopyAnswers.v
theories/P_CondCopyTraining.v
theories/P_CondFilesTraining.v
theories/P_Markov.v
theories/FloatNum.v
theories/P_Float.v
theories/ImportSpec.v
theories/CompleteSpec.v
theories/Import.v
theories/Complete.v
theories/P_Import.v
theories/P_Complete.v
theories/SeparateSpec.v
theories/Separate.v
theories/P_Separate.v
theories/P_Trained.v
theories/P_CondTrained.v
