-Q theories Verif
theories/Integer.v
theories/IntegerSpec.v
theories/IntegerProofs.v
theories/IntegerProperties.v
theories/IntervalSetSpec.v
theories/IntervalSet.v
theories/IntervalSetProofs.v
theories/IntervalSetProperties.v
theories/Vars.v
theories/VarsSpec.v
theories/VarsProofs.v
theories/State.v
theories/StateSpec.v
theories/StateProofs.v
theories/Epochs.v
theories/EpochsSpec.v
theories/EpochsProofs.v
theories/StateProperties.v
theories/Engine.v
theories/EngineSpec.v
theories/EngineQueueProofs.v
theories/EngineWatchProofs.v
theories/EngineProofs.v
theories/EngineLoopProofs.v
theories/EngineCallProofs.v
theories/Session.v
theories/SessionSpec.v
theories/SessionProofs.v
theories/SessionInvProofs.v
theories/SessionResults.v
theories/SessionSkipProofs.v
theories/Search.v
theories/Tracker.v
theories/ContractSpec.v
theories/ContractProofs.v
theories/RunProofs.v
theories/ChoiceProofs.v
theories/SearchSpec.v
theories/SearchProofs.v
theories/SearchResults.v
theories/SearchTermProofs.v
theories/Heuristics.v
theories/HeuristicsSpec.v
theories/HeuristicsProofs.v
theories/Reify.v
theories/ReifySpec.v
theories/ReifyProofs.v
theories/Equals.v
theories/EqualsProofs.v
theories/Comparison.v
theories/ComparisonProofs.v
theories/Quiet.v
theories/QuietProofs.v
theories/ConsistencySpec.v
theories/Plus.v
theories/PlusProofs.v
theories/NegativeTable.v
theories/TableSpec.v
theories/Nogoods.v
theories/Solve.v
theories/LubySpec.v
theories/LubyProofs.v
theories/WatchSpec.v
theories/WatchProofs.v
theories/WatchSessionProofs.v
theories/NogoodsProofs.v
theories/Logical.v
theories/LogicalProofs.v
theories/Abs.v
theories/AbsProofs.v
theories/Member.v
theories/MemberProofs.v
theories/MinMax.v
theories/MinMaxProofs.v
theories/Counting.v
theories/CountingProofs.v
theories/Expressions.v
theories/ExpressionsSpec.v
theories/ExpressionsProofs.v
theories/Linear.v
theories/LinearSpec.v
theories/LinearProofs.v
theories/SolveSpec.v
theories/SolveProofs.v
theories/Stateful.v
theories/StatefulSpec.v
theories/StatefulProofs.v
theories/AllDifferent.v
theories/AllDifferentSpec.v
theories/AllDifferentProofs.v
theories/Scc.v
theories/SccSpec.v
theories/SccProofs.v
theories/Matching.v
theories/MatchingSpec.v
theories/MatchingProofs.v
theories/StatefulReify.v
theories/StatefulReifyProofs.v
theories/GacAllDifferent.v
theories/GacGraphProofs.v
theories/GacAllDifferentProofs.v
theories/Table.v
theories/TableProofs.v
theories/EqualsConsistencyProofs.v
theories/Element.v
theories/ElementSpec.v
theories/ElementProofs.v
theories/AllEqual.v
theories/Increasing.v
theories/NValue.v
theories/Parity.v
theories/GlobalsSpec.v
theories/IncreasingProofs.v
theories/NValueProofs.v
theories/ParityProofs.v
theories/AllEqualProofs.v
theories/Precede.v
theories/Settle.v
theories/Inverse.v
theories/ChannelSpec.v
theories/PartsProofs.v
theories/SettleProofs.v
theories/PrecedeProofs.v
theories/InverseProofs.v
theories/Lex.v
theories/LexSpec.v
theories/LexProofs.v
theories/Tabulation.v
theories/TabulationProofs.v
theories/Passes.v
theories/PassesProofs.v
theories/OnceProofs.v
theories/ProductBounds.v
theories/ProductSpec.v
theories/ProductBoundsProofs.v
theories/Multiply.v
theories/MultiplyProofs.v
theories/Stages.v
theories/StagesProofs.v
theories/DivideModulus.v
theories/DivideModulusProofs.v
theories/Layered.v
theories/LayeredSpec.v
theories/LayeredProofs.v
theories/RegexSpec.v
theories/Regex.v
theories/RegexProofs.v
theories/RegexAutomatonProofs.v
theories/PowerSpec.v
theories/Power.v
theories/PowerProofs.v
theories/GlobalCardinalitySpec.v
theories/GlobalCardinality.v
theories/GlobalCardinalityProofs.v
theories/CircuitSpec.v
theories/Circuit.v
theories/TourProofs.v
theories/CircuitProofs.v
theories/CircuitScc.v
theories/TourSetProofs.v
theories/CircuitSccProofs.v
theories/Disjunctive2DSpec.v
theories/Disjunctive2D.v
theories/Disjunctive2DProofs.v
theories/SortednessSpec.v
theories/Sortedness.v
theories/SortBandProofs.v
theories/SortRoundProofs.v
theories/SortednessProofs.v
theories/MaxFlow.v
theories/MaxFlowProofs.v
theories/GacCardinality.v
theories/GacNetworkProofs.v
theories/GacFlowProofs.v
theories/GacCutProofs.v
theories/GacCardinalitySpec.v
theories/GacCardinalityProofs.v
theories/ArgSortSpec.v
theories/ArgSort.v
theories/ArgSortOrderProofs.v
theories/ArgSortProofs.v
theories/KnapsackSpec.v
theories/Knapsack.v
theories/KnapsackProofs.v
theories/BinPacking.v
theories/BinPackingSpec.v
theories/BinPackingProofs.v
theories/SmartTable.v
theories/SmartTableSpec.v
theories/SmartTableTreeProofs.v
theories/SmartTableValueProofs.v
theories/SmartTableProofs.v
theories/MinDistance.v
theories/MinDistanceSpec.v
theories/MinDistanceMatchingProofs.v
theories/MinDistanceProofs.v
theories/Catalogue.v
theories/CatalogueSpec.v
theories/CatalogueProofs.v
theories/SolveResults.v
theories/NegativeTableProofs.v
theories/NegativeTableWatchProofs.v
theories/WatchExample.v
theories/ExampleProblem.v
theories/SolveExample.v
theories/ConstraintExample.v
theories/EngineProperties.v
theories/WatchProperties.v
theories/ConstraintProperties.v
theories/SolveProperties.v
theories/CatalogueProperties.v
theories/LinearProperties.v
theories/AllDifferentProperties.v
theories/TableProperties.v
theories/ElementProperties.v
theories/GlobalsProperties.v
theories/ChannelProperties.v
theories/LexProperties.v
theories/TabulationProperties.v
theories/MultiplyProperties.v
theories/DivideModulusProperties.v
theories/LayeredProperties.v
theories/RegexProperties.v
theories/PowerProperties.v
theories/GlobalCardinalityProperties.v
theories/CircuitProperties.v
theories/CircuitSccProperties.v
theories/Disjunctive2DProperties.v
theories/SortednessProperties.v
theories/GacCardinalityProperties.v
theories/ArgSortProperties.v
theories/KnapsackProperties.v
theories/BinPackingProperties.v
theories/SmartTableExamples.v
theories/SmartTableProperties.v
theories/MinDistanceProperties.v
theories/Difference.v
theories/DifferenceSpec.v
theories/DifferencePotentialProofs.v
theories/DifferenceBoundsProofs.v
theories/DifferenceProperties.v
theories/Simplify.v
theories/SimplifySpec.v
theories/SimplifyProofs.v
theories/SimplifyEndsProofs.v
theories/SimplifyAllProofs.v
theories/SimplifyProperties.v
theories/DifferenceSession.v
theories/DifferenceSessionSpec.v
theories/DifferenceSessionProofs.v
theories/DifferenceSessionProperties.v
theories/IntervalTree.v
theories/IntervalTreeSpec.v
theories/IntervalTreeProofs.v
theories/Containment.v
theories/ContainmentSpec.v
theories/ContainmentProofs.v
theories/ContainmentProperties.v
theories/Partition.v
theories/PartitionSpec.v
theories/PartitionProofs.v
theories/PartitionOnceProofs.v
theories/PartitionProperties.v
theories/SExpr.v
theories/SExprSpec.v
theories/SExprProofs.v
theories/SExprProperties.v
theories/BitsEncoding.v
theories/BitsSpec.v
theories/BitsProofs.v
theories/EncodingProperties.v
theories/PseudoBoolean.v
theories/PseudoBooleanSpec.v
theories/PseudoBooleanProofs.v
theories/PseudoBooleanProperties.v
