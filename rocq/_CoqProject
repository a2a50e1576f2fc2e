-Q theories Verif

theories/Base.v
theories/Numpy.v
theories/Spec.v
theories/NumpyFacts.v
theories/Utils.v
theories/UtilsProofs.v
theories/FillProofs.v
theories/AccProofs.v
theories/LocalProofs.v
theories/Prop_Utils.v
theories/Helpers.v
theories/Integrate.v
theories/HelpersProofs.v
theories/IntegrateProofs.v
theories/Prop_Helpers.v
theories/Binning.v
theories/BinProofs.v
theories/GreedyProofs.v
theories/Walk.v
theories/DPProofs.v
theories/GreedyRule.v
theories/Prop_Binning.v
theories/ParamsProofs.v
theories/LimitsProofs.v
theories/GlobalALE.v
theories/ALEState.v
theories/ALEHist.v
theories/ALEFit.v
theories/ALEProps.v
theories/ALESuccess.v
theories/ALECurves.v
theories/Prop_GlobalALE.v
theories/GlobalPDP.v
theories/PDPProofs.v
theories/PDPFacts.v
theories/Prop_PDP.v
theories/PartSpec.v
theories/Partition.v
theories/PartProofs.v
theories/PartSearch.v
theories/PartTree.v
theories/PartFacts.v
theories/PartNodes.v
theories/PartTransform.v
theories/Prop_Partition.v
theories/Prop_Tree.v
theories/GlobalShap.v
theories/ShapProofs.v
theories/Indices.v
theories/Prop_Shap.v
theories/Prop_Kept.v
theories/Rename.v
theories/Prop_Rename.v
theories/Interaction.v
theories/Prop_Interaction.v
theories/Regional.v
theories/RegProofs.v
theories/RegNodes.v
theories/Prop_Regional.v
theories/PlotSpec.v
theories/Vis.v
theories/VisProofs.v
theories/Prop_Vis.v
theories/RegPlot.v
theories/RegPlotProofs.v
theories/Prop_RegPlot.v
theories/Report.v
theories/ReportProofs.v
theories/HeterProofs.v
theories/Prop_Report.v
theories/ALESpec.v
theories/ALESpecFacts.v
theories/ALEDefProofs.v
theories/LawsProofs.v
theories/Prop_ALEDef.v
theories/Prop_ALELaws.v
theories/OrderProofs.v
theories/Prop_Order.v
theories/Prop_Additive.v
theories/Transformer.v
theories/TransformerProofs.v
theories/Prop_Transform.v
theories/Prop_Choice.v
theories/RegOrder.v
theories/RegOrder2.v
theories/PDPOrder.v
theories/RegOrder3.v
theories/Prop_RegOrder.v
theories/Prop_Options.v
theories/Prop_Average.v
theories/Prop_Drop.v
theories/Prop_PDPLaws.v
theories/Quad.v
theories/Prop_Quad.v
theories/Columns.v
theories/Prop_Columns.v
theories/Units.v
theories/Origin.v
theories/Prop_Units.v
theories/FeatHist.v
theories/Prop_Features.v
theories/Pointwise.v
theories/Prop_Pointwise.v
theories/Copies.v
theories/Prop_Copies.v
theories/Query.v
theories/Prop_Query.v
theories/Stable.v
theories/Prop_Stable.v
theories/FloatModel.v
theories/FloatFacts.v
theories/FloatGrid.v
theories/FloatBins.v
theories/FloatProofs.v
theories/FloatJac.v
theories/Prop_Float.v
theories/FloatMean.v
theories/Prop_FloatMean.v
theories/FloatAcc.v
theories/Prop_FloatAcc.v
theories/FloatDer.v
theories/Prop_FloatDer.v
theories/FloatVar.v
theories/FloatFill.v
theories/Prop_FloatVar.v
theories/FloatNan.v
theories/Prop_FloatNan.v
theories/FloatCat.v
theories/Prop_FloatCat.v
theories/FloatLine.v
theories/FloatLine2.v
theories/FloatLine3.v
theories/Prop_FloatLine.v
theories/FloatAdapt.v
theories/FloatGreedy.v
theories/Prop_FloatGreedy.v
theories/FloatFit.v
theories/Prop_FloatRhale.v
theories/Prop_FloatMid.v
theories/FloatDP.v
theories/FloatDPGrid.v
theories/Prop_FloatDP.v
theories/FloatRegion.v
theories/FloatRegionProofs.v
theories/FloatRegionSum.v
theories/FloatRegionTop.v
theories/FloatRegionMain.v
theories/FloatRegionNan.v
theories/FloatRegionPos.v
theories/FloatRegionGuard.v
theories/FloatRegionAll.v
theories/Prop_FloatRegion.v
theories/FloatRegionMore.v
theories/FloatRegionTotal.v
theories/Prop_FloatRegion2.v
theories/FloatPDP.v
theories/FloatPDPSpec.v
theories/FloatPDPMean.v
theories/FloatPDPStd.v
theories/FloatPDPProofs.v
theories/FloatPDPMore.v
theories/Prop_FloatPDP.v
theories/FloatRegionIdeal.v
theories/FloatRegionPDP.v
theories/FloatRegionPDPProofs.v
theories/Prop_FloatRegionPDP.v
theories/FloatRegionALE.v
theories/FloatRegionALEProofs.v
theories/Prop_FloatRegionALE.v
theories/FloatGrain.v
theories/FloatGood.v
theories/FloatRegionALEGood.v
theories/Prop_FloatRegionALE2.v
theories/FloatRegionALEDiff.v
theories/Prop_FloatRegionALE3.v
theories/FloatRegionExt.v
theories/Prop_FloatRegion3.v
theories/FloatScale.v
theories/Prop_FloatScale.v
theories/FloatOpp.v
theories/FloatOppALE.v
theories/FloatOppAll.v
theories/Prop_FloatOpp.v
theories/FloatAsk.v
theories/Prop_FloatAsk.v
theories/FloatEdges.v
theories/Prop_FloatEdges.v
theories/FloatTree.v
theories/Prop_FloatTree.v
theories/FloatTune.v
theories/Prop_FloatTune.v
theories/FloatRecode.v
theories/Prop_FloatRecode.v
theories/FloatLabel.v
theories/Prop_FloatLabel.v
