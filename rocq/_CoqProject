-Q theories Verif
theories/Base.v
theories/BaseFacts.v
theories/Spec.v
theories/SpecFacts.v
theories/PdaModel.v
theories/PdaProof.v
theories/StoreProof.v
theories/AutModel.v
theories/AutProof.v
theories/PreStarModel.v
theories/PreStarProof.v
theories/PreStarLang.v
theories/PostStarModel.v
theories/PostStarProof.v
theories/PostStarLang.v
theories/SolverModel.v
theories/SolverProof.v
theories/QueryModel.v
theories/QueryProof.v
theories/ProductModel.v
theories/ProductProof.v
theories/VerdictModel.v
theories/VerdictProof.v
theories/ConfigProof.v
theories/TraceModel.v
theories/TraceProof.v
theories/TraceSolver.v
theories/PathModel.v
theories/PathProof.v
theories/RegexSpec.v
theories/GrammarSpec.v
theories/NfaModel.v
theories/NfaProof.v
theories/RegexProof.v
theories/ParserModel.v
theories/ParserProof.v
theories/ConstructProof.v
theories/AtomModel.v
theories/AtomProof.v
theories/NfaQueryModel.v
theories/NfaQueryProof.v
theories/ContainersModel.v
theories/ContainersSpec.v
theories/ContainersProof.v
theories/TrieModel.v
theories/RefineModel.v
theories/MappingProof.v
theories/RefineProof.v
theories/PairProof.v
theories/AbstractionModel.v
theories/AbstractionProof.v
theories/HeaderModel.v
theories/SearchProof.v
theories/UtilModel.v
theories/UtilProof.v
theories/ExHelp.v
theories/PropsSaturation.v
theories/PropsQuery.v
theories/PropsSolver.v
theories/PropsTrace.v
theories/PropsNfa.v
theories/PropsNfaQuery.v
theories/PropsContainers.v
theories/PropsRefine.v
theories/PropsAbstraction.v
theories/WeightModel.v
theories/WeightProof.v
theories/PropsWeight.v
theories/HeaderProof.v
theories/PropsHeader.v
theories/ShortSpec.v
theories/ShortModel.v
theories/ShortProdProof.v
theories/PostShortProof.v
theories/ShortProof.v
theories/PropsShort.v
theories/PreShortModel.v
theories/PreShortProof.v
theories/PreShortLang.v
theories/PropsPreShort.v
theories/ByteModel.v
theories/ByteProof.v
theories/TypedModel.v
theories/TypedProof.v
theories/PropsTyped.v
theories/ReducerSpec.v
theories/ReducerModel.v
theories/ReducerProof.v
theories/PropsReducer.v
theories/CopyModel.v
theories/CopyProof.v
theories/PropsCopy.v
theories/JsonModel.v
theories/JsonSpec.v
theories/JsonProof.v
theories/JsonSafe.v
theories/JsonWrite.v
theories/PropsJson.v
theories/FixSpec.v
theories/FixModel.v
theories/FixChain.v
theories/FixPre1.v
theories/FixPre2.v
theories/FixPre3.v
theories/FixPre4.v
theories/FixPre5.v
theories/FixPre6.v
theories/PropsFix.v
theories/FixPath.v
theories/FixPath2.v
theories/FixSolveModel.v
theories/FixSolveProof.v
theories/PropsFixSolve.v
theories/FixTraceModel.v
theories/FixTrace1.v
theories/FixTrace2.v
theories/FixTrace3.v
theories/FixTrace4.v
theories/FixTrace5.v
theories/PropsFixTrace.v
theories/ShortTraceModel.v
theories/ShortTrace1.v
theories/ShortTrace2.v
theories/ShortTrace3.v
theories/PropsShortTrace.v
theories/FactoryModel.v
theories/FactoryProof.v
theories/PropsFactory.v
theories/AutJsonModel.v
theories/AutJsonSpec.v
theories/AutJsonProof.v
theories/PropsAutJson.v
theories/InstModel.v
theories/InstSpec.v
theories/InstProof.v
theories/InstRun.v
theories/PropsInst.v
theories/InstWriteModel.v
theories/InstWriteProof.v
theories/PropsInstWrite.v
theories/InterModel.v
theories/InterProof.v
theories/PropsInter.v
theories/DualShortModel.v
theories/DualShortProof.v
theories/DualSatProof.v
theories/PropsDualShort.v
theories/QTextSpec.v
theories/QTextModel.v
theories/QTextProof.v
theories/QBuildProof.v
theories/PropsQText.v
theories/CegarModel.v
theories/CegarProof.v
theories/PropsCegar.v
theories/PropsQState.v
theories/VerifyModel.v
theories/VerifyProof.v
theories/PropsVerify.v
theories/PropsWorkset.v
theories/PropsCount.v
theories/VerifyShortModel.v
theories/PropsVerifyShort.v
theories/VerifyText.v
theories/VerifyFixModel.v
theories/PropsVerifyFix.v
theories/FixPost1.v
theories/FixPost2.v
theories/FixPost3.v
theories/FixPost4.v
theories/PropsFixPost.v
theories/PropsFixPostTrace.v
