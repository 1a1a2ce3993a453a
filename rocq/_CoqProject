-Q theories Verif
theories/Num.v
theories/NumFloat.v
theories/Base.v
theories/Outcome.v
theories/Spec.v
theories/MergeModel.v
theories/MergeProofs.v
theories/Props_Merge.v
theories/Condensed.v
theories/CollapseModel.v
theories/CollapseProofs.v
theories/Props_Collapse.v
theories/LatticeModel.v
theories/LatticeProofs.v
theories/LatticeProofs2.v
theories/CacheModel.v
theories/CacheProofs.v
theories/Props_Lattice.v
theories/SpecGeom.v
theories/NNModel.v
theories/VecR.v
theories/NNProofs.v
theories/NNSpecProofs.v
theories/NNComplete.v
theories/NNInvariance.v
theories/Props_NN.v
theories/SpecCalc.v
theories/CalcModel.v
theories/CalcProofs.v
theories/CalcProofs2.v
theories/Line.v
theories/CalcCanon.v
theories/Props_Calc.v
theories/CalcInv.v
theories/Props_Inv.v
theories/Props_Geo.v
theories/Props_Finite.v
theories/EmdModel.v
theories/EmdArr.v
theories/EmdTree.v
theories/EmdOps.v
theories/EmdPath.v
theories/EmdFlow.v
theories/EmdSurgery.v
theories/EmdCycle.v
theories/EmdPivot.v
theories/EmdTerm.v
theories/EmdInit.v
theories/Sums.v
theories/EmdCert.v
theories/EmdOpt.v
theories/SpecEmd.v
theories/EmdMain.v
theories/EmdUniq.v
theories/EmdFlat.v
theories/EmdReal.v
theories/EmdRun.v
theories/Transport.v
theories/EmdThm.v
theories/EmdNear.v
theories/EmdSym.v
theories/EmdTop.v
theories/EmdEval.v
theories/Props_Emd.v
theories/Props_EmdPdd.v
theories/CompareModel.v
theories/SpecCompare.v
theories/CompareProofs.v
theories/CompareNear.v
theories/Props_Matrix.v
theories/CompareTop.v
theories/Props_Compare.v
theories/TextModel.v
theories/SpecText.v
theories/TextProofs.v
theories/Props_Text.v
theories/SitesModel.v
theories/SpecSites.v
theories/SitesProofs.v
theories/SitesExpand.v
theories/Props_Sites.v
theories/BlocksModel.v
theories/SpecBlocks.v
theories/BlocksProofs.v
theories/Props_Blocks.v
theories/Props_Groups.v
theories/ReaderModel.v
theories/Props_Reader.v
theories/Props_Cif.v
theories/SpecCell.v
theories/UtilsModel.v
theories/Props_Utils.v
theories/PSetModel.v
theories/Props_PSet.v
theories/SpecRecon.v
theories/ReconModel.v
theories/Props_Recon.v
theories/Props_Search.v
theories/Tests_Float.v
theories/SpecDet.v
theories/DetProofs.v
theories/SpecPPC.v
theories/PPCModel.v
theories/Props_PPC.v
theories/SpecData.v
theories/NNDataModel.v
theories/Props_Data.v
theories/SpecMinval.v
theories/MinvalModel.v
theories/MinvalProofs.v
theories/MinvalProofs2.v
theories/Props_Minval.v
theories/BallProofs.v
theories/CountProofs.v
theories/GramProofs.v
theories/AsymProofs.v
theories/SpecAsym.v
theories/NNError.v
theories/AsymProofs2.v
theories/Props_Asym.v
theories/SpecSymmetry.v
theories/SymmetryProofs.v
theories/Props_Symmetry.v
theories/ObjectsModel.v
theories/SpecObjects.v
theories/ObjectsProofs.v
theories/Props_Objects.v
theories/Props_Objects2.v
theories/Emd64Model.v
theories/Emd64Proofs.v
theories/Emd64Run.v
theories/SpecEmd64.v
theories/Emd64Real.v
theories/Props_Emd64.v
theories/RoundModel.v
theories/SpecRound.v
theories/RoundSum.v
theories/RoundSearch.v
theories/RoundProofs.v
theories/RoundGeom.v
theories/RoundTop.v
theories/RoundCalc.v
theories/RoundCollapse.v
theories/RoundBinary.v
theories/Props_Round.v
theories/RoundFinite.v
theories/Props_RoundFinite.v
theories/Props_Jump.v
theories/RoundEmdModel.v
theories/RoundEmd.v
theories/RoundEmdTop.v
theories/RoundEmdArgs.v
theories/RoundEmdPdd.v
theories/Props_RoundEmd.v
theories/SpecCont.v
theories/ContProofs.v
theories/Props_Cont.v
theories/SpecRoundSites.v
theories/RoundSitesModel.v
theories/RoundSites.v
theories/RoundSites2.v
theories/RoundSites3.v
theories/Props_RoundSites.v
theories/SpecDeform.v
theories/DeformProofs.v
theories/Props_Deform.v
theories/DominantProofs.v
theories/RoundCellModel.v
theories/SpecRoundCell.v
theories/RoundCell.v
theories/RoundCell2.v
theories/Props_RoundCell.v
theories/SpecFound.v
theories/ReconFound.v
theories/ReconFound2.v
theories/Props_Found.v
theories/SpecMetric.v
theories/MetricModel.v
theories/MetricProofs.v
theories/Props_Metric.v
theories/ReadRows.v
theories/Props_ReadEmd.v
theories/Props_ParEmd.v
theories/Props_RoundAmd.v
theories/SymCacheModel.v
theories/Props_SymCache.v
theories/Props_Filter.v
theories/Props_PddNear.v
