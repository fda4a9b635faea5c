-Q theories Verif
theories/BoundsModel.v
theories/BoundsProofs.v
theories/ConstraintModel.v
theories/GuardSpec.v
theories/ConstraintProofs.v
theories/ConstraintProofs2.v
theories/ConstraintProofs3.v
theories/ConstraintProofs4.v
theories/PropertiesGuards.v
theories/ZoneModel.v
theories/ZoneSpec.v
theories/ZoneProofs.v
theories/ZoneProofs2.v
theories/ZoneProofs3.v
theories/ZoneProofs4.v
theories/ZoneProofs5.v
theories/ZoneProofs6.v
theories/PropertiesZones.v
theories/AutomatonModel.v
theories/AutomatonSpec.v
theories/AutomatonProofs.v
theories/AutomatonProofs2.v
theories/AutomatonProofs3.v
theories/AutomatonProofs4.v
theories/AutomatonProofs5.v
theories/AutomatonProofs6.v
theories/AutomatonProofs7.v
theories/PropertiesProduct.v
theories/PropertiesAutomata.v
theories/PropertiesSimplify.v
theories/TimedWordModel.v
theories/TimedWordSpec.v
theories/TimedWordProofs.v
theories/PropertiesWords.v
theories/OracleModel.v
theories/OracleSpec.v
theories/OracleProofs.v
theories/OracleProofs2.v
theories/PropertiesOracles.v
theories/TimedConditionModel.v
theories/TimedConditionSpec.v
theories/TimedConditionProofs.v
theories/TimedConditionProofs2.v
theories/TimedConditionProofs3.v
theories/TimedConditionProofs4.v
theories/TimedConditionProofs5.v
theories/ElementaryModel.v
theories/ElementarySpec.v
theories/ElementaryProofs.v
theories/ElementaryProofs2.v
theories/PropertiesConditions.v
theories/RegionalModel.v
theories/RegionalSpec.v
theories/RegionalProofs.v
theories/RegionalProofs2.v
theories/RegionalProofs3.v
theories/RegionalProofs4.v
theories/RegionalProofs5.v
theories/RegionalProofs6.v
theories/PropertiesRegions.v
theories/SymbolicModel.v
theories/SymbolicSpec.v
theories/SymbolicProofs.v
theories/SymbolicProofs2.v
theories/RegionInvariance.v
theories/PropertiesSymbolic.v
theories/CexModel.v
theories/CexSpec.v
theories/CexProofs.v
theories/CexProofs2.v
theories/PropertiesCex.v
theories/ZoneGraphModel.v
theories/ZoneGraphSpec.v
theories/ZoneGraphProofs.v
theories/AlmostFull.v
theories/ZoneGraphTermination.v
theories/PropertiesZoneGraph.v
theories/SampleProofs.v
theories/ReconstructProofs.v
theories/ReconstructProofs2.v
theories/PropertiesSampling.v
theories/EquivModel.v
theories/EquivProofs.v
theories/SimplifyZonesModel.v
theories/SimplifyZonesProofs.v
theories/PropertiesEquivalence.v
theories/LooseProofs.v
theories/RenamingModel.v
theories/RenamingSpec.v
theories/RenamingProofs.v
theories/RenamingProofs2.v
theories/RenamingProofs3.v
theories/RenamingProofs4.v
theories/RenamingProofs7.v
theories/RenamingProofs5.v
theories/RenamingProofs6.v
theories/OracleInstance.v
theories/QueryableProofs.v
theories/PropertiesRenaming.v
theories/TableModel.v
theories/TableProofs.v
theories/ShapeProofs.v
theories/ShapeProofs2.v
theories/TableProofs2.v
theories/TableProofs3.v
theories/TableProofs4.v
theories/TableProofs5.v
theories/TableProofs6.v
theories/TableProofs7.v
theories/TableProofs8.v
theories/TableSpec.v
theories/TableProofs9.v
theories/TableProofs10.v
theories/TableProofs11.v
theories/TableProofs12.v
theories/PropertiesTable.v
theories/HypothesisModel.v
theories/HypothesisBox.v
theories/HypothesisChain.v
theories/HypothesisGuard.v
theories/HypothesisTimes.v
theories/HypothesisBfs.v
theories/HypothesisBfs2.v
theories/HypothesisBfs3.v
theories/HypothesisRaw.v
theories/HypothesisRaw2.v
theories/HypothesisRows.v
theories/HypothesisReset.v
theories/HypothesisStep.v
theories/HypothesisStep2.v
theories/HypothesisRun.v
theories/HypothesisSpec.v
theories/HypothesisMain.v
theories/HypothesisMain2.v
theories/HypothesisMain3.v
theories/HypothesisSample.v
theories/HypothesisAgree.v
theories/HypothesisAgree2.v
theories/HypothesisAgree3.v
theories/PropertiesAgree.v
theories/PropertiesHypothesis.v
theories/ResetSpec.v
theories/ConditionResets.v
theories/PropertiesResets.v
theories/FinalHypothesisModel.v
theories/FinalHypothesisProofs.v
theories/PropertiesSimplifyZones.v
theories/PropertiesCrash.v
theories/NeighborModel.v
theories/NeighborSpec.v
theories/NeighborProofs.v
theories/NeighborProofs2.v
theories/NeighborProofs3.v
theories/NeighborProofs4.v
theories/PropertiesNeighbors.v
theories/TargetResetModel.v
theories/TargetResetSpec.v
theories/TargetResetProofs.v
theories/TargetResetProofs2.v
theories/TargetResetProofs3.v
theories/PropertiesTargetResets.v
theories/ImpreciseModel.v
theories/ImpreciseSpec.v
theories/ImpreciseProofs.v
theories/ImpreciseProofs2.v
theories/ImpreciseProofs3.v
theories/PropertiesImprecise.v
theories/MergeModel.v
theories/MergeProofs.v
theories/PropertiesMerge.v
theories/SuffixModel.v
theories/SuffixProofs.v
theories/SuffixProofs2.v
theories/SuffixProofs3.v
theories/SuffixProofs4.v
theories/PropertiesSuffix.v
theories/SplitModel.v
theories/SplitProofs.v
theories/SplitProofs2.v
theories/SplitProofs3.v
theories/SplitProofs4.v
theories/PropertiesSplit.v
theories/FullRenamingModel.v
theories/FullRenamingProofs.v
theories/PropertiesFullRenaming.v
