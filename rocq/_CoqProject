-Q theories Verif
theories/Spec.v
theories/Base.v
theories/Decide.v
theories/Model_SimpleRounding.v
theories/Proofs_SimpleRounding.v
theories/Props_SimpleRounding.v
theories/Model_TreeInfo.v
theories/Proofs_TreeInfo.v
theories/Props_TreeInfo.v
theories/Model_Stored.v
theories/Props_Stored.v
theories/Model_Param.v
theories/Props_Param.v
theories/Model_Clique.v
theories/Proofs_Clique.v
theories/Props_Clique.v
theories/Model_OddHole.v
theories/Proofs_OddHole.v
theories/Props_OddHole.v
theories/Model_AllDifferent.v
theories/Proofs_AllDifferent.v
theories/Props_AllDifferent.v
theories/Model_ResidualCapacity.v
theories/Proofs_ResidualCapacity.v
theories/Props_ResidualCapacity.v
theories/Model_KnapsackCover.v
theories/Proofs_Knapsack.v
theories/Proofs_KnapsackLift.v
theories/Proofs_KnapsackUpDown.v
theories/Proofs_KnapsackSearch.v
theories/Proofs_KnapsackCover.v
theories/Props_KnapsackCover.v
theories/Model_Copies.v
theories/Props_Copies.v
theories/Proofs_MirCore.v
theories/Model_MIR.v
theories/Proofs_MIR.v
theories/Proofs_MIRTotal.v
theories/Props_MIR.v
theories/Model_GMI.v
theories/Proofs_GMI.v
theories/Props_GMI.v
theories/Model_Probing.v
theories/Proofs_Probing.v
theories/Props_Probing.v
theories/Model_Gomory.v
theories/Proofs_Gomory.v
theories/Proofs_GomoryData.v
theories/Proofs_GomoryTotal.v
theories/Props_Gomory.v
theories/Model_ZeroHalf.v
theories/Proofs_ZeroHalf.v
theories/Proofs_ZeroHalfTotal.v
theories/Props_ZeroHalf.v
theories/Model_FlowCover.v
theories/Proofs_FlowCover.v
theories/Proofs_FlowLift.v
theories/Proofs_FlowCut.v
theories/Proofs_FlowBack.v
theories/Proofs_FlowRow.v
theories/Proofs_FlowGen.v
theories/Props_FlowCover.v
theories/Spec_Literals.v
theories/Model_CliqueStrengthening.v
theories/Proofs_CliqueStrengthening.v
theories/Proofs_CliqueStrRow.v
theories/Proofs_CliqueStrRun.v
theories/Props_CliqueStrengthening.v
theories/Model_LiftAndProject.v
theories/Proofs_LiftAndProject.v
theories/Props_LiftAndProject.v
theories/Model_BKClique.v
theories/Proofs_BKClique.v
theories/Props_BKClique.v
theories/Model_OddWheel.v
theories/Proofs_OddWheel.v
theories/Props_OddWheel.v
theories/Model_Scratch.v
theories/Props_Scratch.v
theories/Model_Twomir.v
theories/Proofs_TwomirCore.v
theories/Proofs_Twomir.v
theories/Props_Twomir.v
theories/Model_RedSplit.v
theories/Proofs_RedSplitReduce.v
theories/Proofs_RedSplit.v
theories/Props_RedSplit.v
theories/Model_DuplicateRow.v
theories/Proofs_DuplicateRow.v
theories/Proofs_DuplicateRowLP.v
theories/Props_DuplicateRow.v
theories/Model_LandP.v
theories/Proofs_LandP.v
theories/Proofs_LandPCut.v
theories/Proofs_LandPLoop.v
theories/Proofs_LandPGen.v
theories/Proofs_LandPSafe.v
theories/Props_LandP.v
theories/Model_MIR2.v
theories/Proofs_MIR2.v
theories/Props_MIR2.v
theories/Model_RowCutHash.v
theories/Proofs_RowCutHash.v
theories/Props_RowCutHash.v
theories/Model_CliqueIt.v
theories/Proofs_CliqueIt.v
theories/Props_CliqueIt.v
theories/Model_MakeInteger.v
theories/Proofs_MakeInteger.v
theories/Props_MakeInteger.v
theories/Model_ColumnFixing.v
theories/Proofs_ColumnFixing.v
theories/Props_ColumnFixing.v
theories/Model_TightenPrimal.v
theories/Proofs_TightenPrimal.v
theories/Props_TightenPrimal.v
theories/Props_TightenRows.v
theories/Model_CleanRows.v
theories/Proofs_CleanRows.v
theories/Props_CleanRows.v
theories/Props_CleanDone.v
theories/Model_Analyze.v
theories/Proofs_Analyze.v
theories/Props_Analyze.v
theories/Props_AnalyzePairs.v
theories/Model_OriginalIndices.v
theories/Proofs_OriginalIndices.v
theories/Props_OriginalIndices.v
theories/Props_UpdateMarks.v
