-Q theories Verif

theories/Base/Arrays.v
theories/Base/Collections.v
theories/Base/Difference.v
theories/Base/Lattice.v
theories/Base/Merging.v
theories/Base/Order.v
theories/Model/AgentM.v
theories/Model/AltNeuM.v
theories/Model/ApplicativeM.v
theories/Model/ArrangeM.v
theories/Model/BuilderM.v
theories/Model/CalculusM.v
theories/Model/CaptureM.v
theories/Model/CaptureSourceM.v
theories/Model/ChunkCursorM.v
theories/Model/ChunkM.v
theories/Model/ColCollM.v
theories/Model/CollectionM.v
theories/Model/ColumnarM.v
theories/Model/ConsolidationM.v
theories/Model/ContainerM.v
theories/Model/CursorM.v
theories/Model/DdirM.v
theories/Model/DescriptionM.v
theories/Model/DifferenceM.v
theories/Model/ExplainCloneM.v
theories/Model/ExtendM.v
theories/Model/GraphM.v
theories/Model/HalfJoin2M.v
theories/Model/HalfJoinM.v
theories/Model/HistoryM.v
theories/Model/IdentifiersM.v
theories/Model/InputM.v
theories/Model/IterateM.v
theories/Model/JoinDriverM.v
theories/Model/JoinM.v
theories/Model/JoinTacticM.v
theories/Model/LatticeM.v
theories/Model/LookupM.v
theories/Model/LowerM.v
theories/Model/MergeBatcherM.v
theories/Model/OrdNeuM.v
theories/Model/PipeParseM.v
theories/Model/PipeProgM.v
theories/Model/PointStampM.v
theories/Model/PrefixSumM.v
theories/Model/ProxyJoinM.v
theories/Model/ProxyReduceM.v
theories/Model/ProxyTacticM.v
theories/Model/ReduceM.v
theories/Model/RenderM.v
theories/Model/ScopeIrM.v
theories/Model/ServerM.v
theories/Model/SpineM.v
theories/Model/TokensM.v
theories/Model/TotalM.v
theories/Model/UpsertM.v
theories/Model/WrappersM.v
theories/Proofs/AgentP.v
theories/Proofs/AppExprP.v
theories/Proofs/ApplicativeP.v
theories/Proofs/ArrangeP.v
theories/Proofs/BatchP.v
theories/Proofs/BijkstraP.v
theories/Proofs/BilinearP.v
theories/Proofs/BuilderP.v
theories/Proofs/CaptureP.v
theories/Proofs/CaptureSourceP.v
theories/Proofs/ChunkBatchP.v
theories/Proofs/ChunkCursorP.v
theories/Proofs/ChunkP.v
theories/Proofs/CloneAllP.v
theories/Proofs/CloneCopyP.v
theories/Proofs/CloneP.v
theories/Proofs/CloneRecP.v
theories/Proofs/CloneScopeP.v
theories/Proofs/ColAdvanceP.v
theories/Proofs/ColChunkP.v
theories/Proofs/ColChunkerP.v
theories/Proofs/ColCollP.v
theories/Proofs/ColCursorP.v
theories/Proofs/ColDistP.v
theories/Proofs/ColListsP.v
theories/Proofs/ColMeldP.v
theories/Proofs/ColMergeP.v
theories/Proofs/ColPairP.v
theories/Proofs/ColReadP.v
theories/Proofs/ColSurveyP.v
theories/Proofs/ColTrieP.v
theories/Proofs/ColTrimP.v
theories/Proofs/ComputeLoopP.v
theories/Proofs/ComputeP.v
theories/Proofs/ConsolidationP.v
theories/Proofs/ContainerP.v
theories/Proofs/CursorListP.v
theories/Proofs/CursorP.v
theories/Proofs/DdirExP.v
theories/Proofs/DdirMeansP.v
theories/Proofs/DdirP.v
theories/Proofs/DdirSnapP.v
theories/Proofs/DeferredP.v
theories/Proofs/DescriptionP.v
theories/Proofs/DifferenceP.v
theories/Proofs/DiscoverCoreP.v
theories/Proofs/DiscoverP.v
theories/Proofs/DiscoverResultP.v
theories/Proofs/ExtendP.v
theories/Proofs/FlatCursorP.v
theories/Proofs/FollowP.v
theories/Proofs/GraphP.v
theories/Proofs/HalfJoin2P.v
theories/Proofs/HalfJoinP.v
theories/Proofs/HalvesP.v
theories/Proofs/HistoryP.v
theories/Proofs/IdentifiersP.v
theories/Proofs/InputP.v
theories/Proofs/IterateP.v
theories/Proofs/JoinDriverP.v
theories/Proofs/JoinTacticP.v
theories/Proofs/JoinTimesP.v
theories/Proofs/LatticeP.v
theories/Proofs/LinearP.v
theories/Proofs/LookupP.v
theories/Proofs/LowerAcceptP.v
theories/Proofs/LowerNestedP.v
theories/Proofs/LowerP.v
theories/Proofs/LowerPromptP.v
theories/Proofs/LowerRejectP.v
theories/Proofs/LowerScopeP.v
theories/Proofs/LowerTreeP.v
theories/Proofs/MergeBatcherP.v
theories/Proofs/NodeEqP.v
theories/Proofs/OperatorsP.v
theories/Proofs/OptimizeAllP.v
theories/Proofs/OptimizeP.v
theories/Proofs/OrdKeyP.v
theories/Proofs/OrdNeuP.v
theories/Proofs/OwnP.v
theories/Proofs/PackP.v
theories/Proofs/PipeExprP.v
theories/Proofs/PipeMeansP.v
theories/Proofs/PipeParseP.v
theories/Proofs/PipeProgP.v
theories/Proofs/PipeProperP.v
theories/Proofs/PointStampP.v
theories/Proofs/PrefixSumP.v
theories/Proofs/ProxyBackendP.v
theories/Proofs/ProxyJoinP.v
theories/Proofs/ProxyKeyP.v
theories/Proofs/ProxyOperatorP.v
theories/Proofs/ProxyRetireP.v
theories/Proofs/ProxyRoundsP.v
theories/Proofs/ProxyWindowP.v
theories/Proofs/ReadableInstP.v
theories/Proofs/ReadableP.v
theories/Proofs/ReduceKeyP.v
theories/Proofs/ReduceP.v
theories/Proofs/ReducerP.v
theories/Proofs/ReplayP.v
theories/Proofs/RetireP.v
theories/Proofs/SccP.v
theories/Proofs/SequenceP.v
theories/Proofs/ServerDataP.v
theories/Proofs/ServerInvP.v
theories/Proofs/ServerP.v
theories/Proofs/ServerPeekP.v
theories/Proofs/ServerStepP.v
theories/Proofs/ServerWorkersP.v
theories/Proofs/ShowsP.v
theories/Proofs/SpineInstP.v
theories/Proofs/SpineP.v
theories/Proofs/StreamP.v
theories/Proofs/SummaryP.v
theories/Proofs/TermP.v
theories/Proofs/ThinkP.v
theories/Proofs/TokenCharP.v
theories/Proofs/TokensP.v
theories/Proofs/TotalP.v
theories/Proofs/TrieP.v
theories/Proofs/UpsertP.v
theories/Proofs/VecChunkP.v
theories/Proofs/VecCursorP.v
theories/Proofs/WrappersP.v
theories/Props/AgentProps.v
theories/Props/ApplicativeProps.v
theories/Props/ArrangeProps.v
theories/Props/BatcherProps.v
theories/Props/CaptureProps.v
theories/Props/CaptureSourceProps.v
theories/Props/ChunkCursorProps.v
theories/Props/ChunkProps.v
theories/Props/CloneProps.v
theories/Props/ColCollProps.v
theories/Props/ColumnarProps.v
theories/Props/ConsolidationProps.v
theories/Props/ContainerProps.v
theories/Props/CursorListProps.v
theories/Props/DdirProps.v
theories/Props/DifferenceProps.v
theories/Props/GraphProps.v
theories/Props/HalfJoin2Props.v
theories/Props/HalfJoinProps.v
theories/Props/HistoryProps.v
theories/Props/IdentifiersProps.v
theories/Props/InputProps.v
theories/Props/IterateProps.v
theories/Props/JoinProps.v
theories/Props/LatticeProps.v
theories/Props/LinearProps.v
theories/Props/LookupProps.v
theories/Props/LowerProps.v
theories/Props/OrdNeuProps.v
theories/Props/PipeProgProps.v
theories/Props/PipeProps.v
theories/Props/PointStampProps.v
theories/Props/PrefixSumProps.v
theories/Props/ProxyJoinProps.v
theories/Props/ProxyReduceProps.v
theories/Props/ReduceProps.v
theories/Props/ReduceRunProps.v
theories/Props/ServerProps.v
theories/Props/SpineProps.v
theories/Props/TermProps.v
theories/Props/ThinkProps.v
theories/Props/TokensProps.v
theories/Props/TotalProps.v
theories/Props/UpsertProps.v
theories/Props/WrapperProps.v
theories/Spec/AgentSpec.v
theories/Spec/ApplicativeSpec.v
theories/Spec/ArrangeSpec.v
theories/Spec/BatchLaws.v
theories/Spec/BatchSpec.v
theories/Spec/BatcherSpec.v
theories/Spec/CaptureSourceSpec.v
theories/Spec/CaptureSpec.v
theories/Spec/ChunkCursorSpec.v
theories/Spec/ChunkSpec.v
theories/Spec/CloneSpec.v
theories/Spec/ColCollSpec.v
theories/Spec/Collection.v
theories/Spec/ColumnarSpec.v
theories/Spec/CursorSpec.v
theories/Spec/DdirSpec.v
theories/Spec/DifferenceLaws.v
theories/Spec/ExtendSpec.v
theories/Spec/GraphSpec.v
theories/Spec/HalfJoin2Spec.v
theories/Spec/HalfJoinSpec.v
theories/Spec/HalvesSpec.v
theories/Spec/IdentifierSpec.v
theories/Spec/InputSpec.v
theories/Spec/IterateSpec.v
theories/Spec/JoinOpSpec.v
theories/Spec/JoinSpec.v
theories/Spec/LatticeLaws.v
theories/Spec/LinearSpec.v
theories/Spec/LookupSpec.v
theories/Spec/PipeMeansSpec.v
theories/Spec/PipeProgSpec.v
theories/Spec/PipeSpec.v
theories/Spec/PointStampSpec.v
theories/Spec/PrefixSumSpec.v
theories/Spec/Presents.v
theories/Spec/ProxyJoinSpec.v
theories/Spec/ProxyReduceSpec.v
theories/Spec/ReadableSpec.v
theories/Spec/ReduceSpec.v
theories/Spec/ReplaySpec.v
theories/Spec/SequenceSpec.v
theories/Spec/ServerSpec.v
theories/Spec/SourceSpec.v
theories/Spec/StreamSpec.v
theories/Spec/TermSpec.v
theories/Spec/TokensSpec.v
theories/Spec/TotalSpec.v
theories/Spec/UpsertSpec.v
