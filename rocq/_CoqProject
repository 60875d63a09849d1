-Q theories Verif
theories/Base.v
theories/Ext.v
theories/Fl.v
theories/LFl.v
theories/LList.v
theories/MConvert.v
theories/MData.v
theories/MDiag.v
theories/MEstimator.v
theories/MFeatures.v
theories/MFloat.v
theories/MFloat10.v
theories/MFloat2.v
theories/MFloat3.v
theories/MFloat4.v
theories/MFloat5.v
theories/MFloat6.v
theories/MFloat7.v
theories/MFloat8.v
theories/MFloat9.v
theories/MHist.v
theories/MInit.v
theories/MIntTarget.v
theories/MModel.v
theories/MModelHist.v
theories/MObModel.v
theories/MObSklearn.v
theories/MOblivious.v
theories/MPredict32.v
theories/MPredictType.v
theories/MSampler.v
theories/MScalar.v
theories/MScore.v
theories/MSeed.v
theories/MSingle.v
theories/MSingle2.v
theories/MSklearn.v
theories/MSplit.v
theories/MSplitEq.v
theories/MTree.v
theories/MTreeHist.v
theories/PAlpha.v
theories/PBook.v
theories/PChains.v
theories/PClosed.v
theories/PCol.v
theories/PColOb.v
theories/PCond.v
theories/PConvert.v
theories/PCopy.v
theories/PCounts.v
theories/PData.v
theories/PDataProps.v
theories/PDiag.v
theories/PFeatures.v
theories/PFloat.v
theories/PFloat10.v
theories/PFloat11.v
theories/PFloat12.v
theories/PFloat13.v
theories/PFloat14.v
theories/PFloat15.v
theories/PFloat16.v
theories/PFloat17.v
theories/PFloat2.v
theories/PFloat3.v
theories/PFloat4.v
theories/PFloat5.v
theories/PFloat6.v
theories/PFloat7.v
theories/PFloat8.v
theories/PFloat9.v
theories/PGiven.v
theories/PGrown.v
theories/PHeap.v
theories/PInit.v
theories/PInit2.v
theories/PIntTarget.v
theories/PInvar.v
theories/PModel.v
theories/PModel10.v
theories/PModel11.v
theories/PModel12.v
theories/PModel13.v
theories/PModel2.v
theories/PModel3.v
theories/PModel4.v
theories/PModel5.v
theories/PModel6.v
theories/PModel7.v
theories/PModel8.v
theories/PModel9.v
theories/PNoise.v
theories/PObAlpha.v
theories/PObBook.v
theories/PObFlat.v
theories/PObModel.v
theories/PObModel2.v
theories/PObModel3.v
theories/PObModel4.v
theories/PObModel5.v
theories/PObNoise.v
theories/PObNoise2.v
theories/PObPropose.v
theories/PObRel.v
theories/PObRel2.v
theories/PObScore.v
theories/PObScore2.v
theories/PObSize.v
theories/PObSklearn.v
theories/PObSklearn2.v
theories/POblivious.v
theories/POblivious2.v
theories/POblivious3.v
theories/POblivious4.v
theories/POblivious5.v
theories/PPerm.v
theories/PPred.v
theories/PPropose.v
theories/PPropose2.v
theories/PPropose3.v
theories/PRel.v
theories/PRel2.v
theories/PRel3.v
theories/PRows.v
theories/PSampler.v
theories/PSampler2.v
theories/PSampler3.v
theories/PScore.v
theories/PScore2.v
theories/PSelect.v
theories/PSim.v
theories/PSim2.v
theories/PSingle.v
theories/PSingle2.v
theories/PSingle3.v
theories/PSklearn.v
theories/PSklearn2.v
theories/PSklearn3.v
theories/PSplit.v
theories/PTree.v
theories/PTreeHist.v
theories/PTreeProps.v
theories/PTreeProps2.v
theories/Properties_Alpha.v
theories/Properties_Alpha2.v
theories/Properties_Book.v
theories/Properties_Chains.v
theories/Properties_Column.v
theories/Properties_Convert.v
theories/Properties_Copy.v
theories/Properties_Data.v
theories/Properties_Defaults.v
theories/Properties_Diag.v
theories/Properties_Double.v
theories/Properties_Double10.v
theories/Properties_Double2.v
theories/Properties_Double3.v
theories/Properties_Double4.v
theories/Properties_Double5.v
theories/Properties_Double6.v
theories/Properties_Double7.v
theories/Properties_Double8.v
theories/Properties_Double9.v
theories/Properties_Drift.v
theories/Properties_Edges.v
theories/Properties_Edges2.v
theories/Properties_Estimator.v
theories/Properties_Features.v
theories/Properties_Features2.v
theories/Properties_Features3.v
theories/Properties_Features4.v
theories/Properties_Features5.v
theories/Properties_Gain.v
theories/Properties_Given.v
theories/Properties_Grown.v
theories/Properties_Importance.v
theories/Properties_Init.v
theories/Properties_IntTarget.v
theories/Properties_Invariance.v
theories/Properties_Kinds.v
theories/Properties_Model.v
theories/Properties_Model2.v
theories/Properties_Noise.v
theories/Properties_ObAlpha.v
theories/Properties_ObBook.v
theories/Properties_ObFlat.v
theories/Properties_ObInvariance.v
theories/Properties_ObModel.v
theories/Properties_ObNoise.v
theories/Properties_ObPropose.v
theories/Properties_ObScore.v
theories/Properties_ObSklearn.v
theories/Properties_Oblivious.v
theories/Properties_Order.v
theories/Properties_Predict32.v
theories/Properties_PredictType.v
theories/Properties_Propose.v
theories/Properties_Quality.v
theories/Properties_Rows.v
theories/Properties_Sampler.v
theories/Properties_Score.v
theories/Properties_Seed.v
theories/Properties_Select.v
theories/Properties_Single.v
theories/Properties_Sklearn.v
theories/Properties_Sklearn2.v
theories/Properties_SplitEq.v
theories/Properties_Tree.v
theories/Properties_Tree2.v
theories/Properties_Tree3.v
theories/Spec.v
theories/SpecAlpha.v
theories/SpecBook.v
theories/SpecChains.v
theories/SpecColumn.v
theories/SpecConvert.v
theories/SpecCopy.v
theories/SpecDiag.v
theories/SpecDouble.v
theories/SpecDouble10.v
theories/SpecDouble3.v
theories/SpecDouble4.v
theories/SpecDouble5.v
theories/SpecDouble6.v
theories/SpecDouble7.v
theories/SpecDouble8.v
theories/SpecDouble9.v
theories/SpecEstimator.v
theories/SpecFeatures.v
theories/SpecGain.v
theories/SpecGiven.v
theories/SpecGrown.v
theories/SpecImportance.v
theories/SpecInit.v
theories/SpecIntTarget.v
theories/SpecInvariance.v
theories/SpecModel.v
theories/SpecObFlat.v
theories/SpecObModel.v
theories/SpecObNoise.v
theories/SpecObPropose.v
theories/SpecObScore.v
theories/SpecObSklearn.v
theories/SpecOblivious.v
theories/SpecOrder.v
theories/SpecPropose.v
theories/SpecQuality.v
theories/SpecRows.v
theories/SpecSampler.v
theories/SpecScore.v
theories/SpecSelect.v
theories/SpecSingle.v
theories/SpecSklearn.v
theories/SpecTree.v
