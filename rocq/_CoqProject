-Q theories Verif

theories/Text.v
theories/IntervalSetModel.v
theories/IntervalSetSpec.v
theories/IntervalSetProofs.v
theories/IntervalSetProps.v
theories/CharStreamModel.v
theories/CharStreamSpec.v
theories/CharStreamProofs.v
theories/CharStreamProps.v
theories/TokenStreamModel.v
theories/TokenStreamSpec.v
theories/TokenStreamProofs.v
theories/CommonTokenStreamProofs.v
theories/TokenStreamProps.v
theories/Outcome.v
theories/SemContextModel.v
theories/SemContextSpec.v
theories/SemContextProofs.v
theories/SemContextProps.v
theories/PredContextModel.v
theories/PredContextSpec.v
theories/PredContextProofs.v
theories/PredContextProps.v
theories/ConfigSetModel.v
theories/ConfigSetSpec.v
theories/ConfigSetProofs.v
theories/ConfigSetProps.v
theories/DfaModel.v
theories/DfaSpec.v
theories/DfaProofs.v
theories/DfaProps.v
theories/AtnModel.v
theories/AtnSpec.v
theories/AtnProofs.v
theories/AtnProps.v
theories/DeserModel.v
theories/DeserSpec.v
theories/DeserProofs.v
theories/DeserProps.v
theories/Ll1Model.v
theories/Ll1Spec.v
theories/Ll1Proofs.v
theories/Ll1Props.v
theories/TreeModel.v
theories/TreeSpec.v
theories/TreeProofs.v
theories/TreeProps.v
theories/VocabModel.v
theories/VocabSpec.v
theories/VocabProofs.v
theories/VocabProps.v
theories/FactoryModel.v
theories/FactorySpec.v
theories/FactoryProofs.v
theories/FactoryProps.v
theories/LexerModel.v
theories/LexerSpec.v
theories/LexerProofs.v
theories/LexerProps.v
theories/LexMatchSpec.v
theories/LexMatchProofs.v
theories/LexCacheProofs.v
theories/LexTextProofs.v
theories/LexMatchProps.v
theories/LexTotalProofs.v
theories/LexTotalProps.v
theories/ParserModel.v
theories/ParserSpec.v
theories/ParserTreeProofs.v
theories/ParserRunProofs.v
theories/ParserEventProofs.v
theories/ParserWalkProofs.v
theories/ParserDemo.v
theories/ParserStreamProofs.v
theories/ParserProps.v
theories/RecoverSpec.v
theories/RecoverProofs.v
theories/RecoverProps.v
theories/RecoverSetSpec.v
theories/RecoverSetProofs.v
theories/RecoverSetProps.v
theories/PredictModel.v
theories/PredictSpec.v
theories/PredictFrameProofs.v
theories/PredictStreamProofs.v
theories/PredictDemo.v
theories/PredictFilterProofs.v
theories/PredictProps.v
theories/PredictFilterProps.v
theories/PredictLLSpec.v
theories/PredictLLContextProofs.v
theories/PredictLLSetProofs.v
theories/PredictLLClosureProofs.v
theories/PredictLLReachProofs.v
theories/PredictLLFullProofs.v
theories/PredictDfaFrameProofs.v
theories/PredictLLDfaProofs.v
theories/PredictLLExecProofs.v
theories/PredictLLStreamProofs.v
theories/PredictLLDemo.v
theories/PredictLLProps.v
theories/PredictAltProofs.v
theories/PredictAltProps.v
theories/MessageSpec.v
theories/MessageProofs.v
theories/MessageProps.v
theories/ErrorListenerModel.v
theories/ErrorListenerSpec.v
theories/ErrorListenerProofs.v
theories/ErrorListenerProps.v
theories/DumpModel.v
theories/DumpSpec.v
theories/DumpProofs.v
theories/DumpProps.v
theories/PredictTotalSpec.v
theories/PredictTotalBaseProofs.v
theories/PredictTotalContextProofs.v
theories/PredictTotalStackProofs.v
theories/PredictTotalSetProofs.v
theories/PredictTotalClosureProofs.v
theories/PredictTotalReachProofs.v
theories/PredictTotalDfaProofs.v
theories/PredictTotalExecProofs.v
theories/PredictTotalFuelProofs.v
theories/PredictTotalStreamProofs.v
theories/PredictTotalDemo.v
theories/PredictTotalProps.v
theories/GenModel.v
theories/GenSpec.v
theories/GenBaseProofs.v
theories/GenStepProofs.v
theories/GenAcceptProofs.v
theories/GenSoundProofs.v
theories/GenFuelProofs.v
theories/GenDemo.v
theories/GenProps.v
theories/GenBailSpec.v
theories/GenBailBaseProofs.v
theories/GenBailProofs.v
theories/GenBailProps.v
theories/GenHangProofs.v
theories/GenHangDemo.v
theories/GenHangProps.v
theories/ConcModel.v
theories/ConcSpec.v
theories/ConcProofs.v
theories/ConcLiveProofs.v
theories/ConcReentryProofs.v
theories/ConcPredictModel.v
theories/ConcPredictSpec.v
theories/ConcPredictProofs.v
theories/ConcDemo.v
theories/ConcProps.v
theories/ConcResultProofs.v
theories/ConcLexModel.v
theories/ConcLexSpec.v
theories/ConcLexProofs.v
theories/ConcLexTokensProofs.v
theories/ConcLexDemo.v
theories/ConcLexProps.v
theories/ConcLazyProps.v
theories/StreamLookProofs.v
theories/RecModel.v
theories/RecSpec.v
theories/RecCallsProofs.v
theories/RecSoundProofs.v
theories/RecTreeProofs.v
theories/RecDemo.v
theories/RecProps.v
theories/RecBuildSpec.v
theories/RecBuildProofs.v
theories/RecDerivProofs.v
theories/RecBuildProps.v
theories/SpanModel.v
theories/SpanSpec.v
theories/SpanProofs.v
theories/SpanStreamProofs.v
theories/SpanProps.v
theories/WholeSpec.v
theories/WholeProofs.v
theories/WholeProps.v
theories/MunchSpec.v
theories/MunchProofs.v
theories/MunchProps.v
theories/TextSpec.v
theories/TextProofs.v
theories/TextProps.v
theories/OperatorSpec.v
theories/OperatorProofs.v
theories/OperatorReachProofs.v
theories/OperatorDfaProofs.v
theories/OperatorExecProofs.v
theories/OperatorProps.v
theories/OrderSpec.v
theories/OrderTreeProofs.v
theories/OrderWalkProofs.v
theories/OrderUniqueProofs.v
theories/OrderProps.v
theories/OrderDemo.v
theories/TokenDisplayModel.v
theories/TokenDisplaySpec.v
theories/TokenDisplayProofs.v
theories/TokenDisplayProps.v
theories/CachedHashModel.v
theories/CachedHashSpec.v
theories/CachedHashProofs.v
theories/CachedHashProps.v
theories/VisitorModel.v
theories/VisitorSpec.v
theories/VisitorProofs.v
theories/VisitorProps.v
theories/LazySpec.v
theories/LazyOrderProofs.v
theories/LazyProofs.v
theories/LazyProps.v
theories/LazyLexSpec.v
theories/LazySameProofs.v
theories/LazyLexProps.v
theories/LazySameProps.v
theories/ConsoleSpec.v
theories/ConsoleProps.v
