-Q theories Verif
theories/Base.v
theories/HungModel.v
theories/HungSpec.v
theories/HungProofs.v
theories/HungProps.v
theories/MurtyModel.v
theories/MurtySpec.v
theories/MurtyProofs.v
theories/MurtyProps.v
theories/BfmModel.v
theories/BfmSpec.v
theories/BfmProofs.v
theories/BfmProps.v
theories/KShortModel.v
theories/KShortSpec.v
theories/KShortProofs.v
theories/KShortProps.v
theories/AStarModel.v
theories/AStarSpec.v
theories/AStarProofs.v
theories/AStarReal.v
theories/AStarProps.v
theories/GibbsModel.v
theories/GibbsSpec.v
theories/GibbsProofs.v
theories/GibbsProps.v
theories/Lists.v
theories/PhdModel.v
theories/PhdSpec.v
theories/PhdProofs.v
theories/PhdProps.v
theories/OspaModel.v
theories/OspaSpec.v
theories/OspaProofs.v
theories/OspaMetric.v
theories/OspaProps.v
theories/CphdModel.v
theories/CphdSpec.v
theories/CphdProofs.v
theories/CphdProps.v
theories/GuidModel.v
theories/GuidSpec.v
theories/GuidProofs.v
theories/GuidProps.v
theories/GlmbModel.v
theories/GlmbSpec.v
theories/GlmbProofs.v
theories/GlmbInv.v
theories/GlmbExtract.v
theories/GlmbMost.v
theories/GlmbTotal.v
theories/GlmbProps.v
theories/GlmbProps2.v
theories/GlmbDemo.v
theories/GlmbProps3.v
theories/GlmbBayes.v
theories/GlmbProps4.v
theories/SnapModel.v
theories/SnapProofs.v
theories/SnapProps.v
theories/SaveModel.v
theories/SaveSpec.v
theories/SaveProps.v
theories/JglmbModel.v
theories/JglmbSpec.v
theories/JglmbProofs.v
theories/JglmbInv.v
theories/GibbsReal.v
theories/JglmbGibbs.v
theories/JglmbProps.v
theories/JglmbTotal.v
theories/JglmbBayes.v
theories/JglmbProps2.v
theories/JglmbDemo.v
theories/GlmbDistinct.v
theories/GlmbProps5.v
theories/AStarOpt.v
theories/AStarProps2.v
theories/SmcModel.v
theories/SmcSpec.v
theories/SmcProofs.v
theories/SmcBayes.v
theories/SmcUpd.v
theories/SmcTotal.v
theories/SmcProps.v
theories/SmcDemo.v
theories/SmcDemo2.v
theories/RBase.v
theories/RHungModel.v
theories/RHungSpec.v
theories/RHungProofs.v
theories/RMurtyModel.v
theories/RMurtySpec.v
theories/RMurtyProofs.v
theories/RBfmModel.v
theories/RBfmSpec.v
theories/RBfmProofs.v
theories/RKShortModel.v
theories/RKShortSpec.v
theories/RKShortProofs.v
theories/LibAlgs.v
theories/LibProps.v
theories/LibTrans.v
theories/LibPredict.v
theories/LibSmc.v
theories/GlmbVary.v
theories/StmModel.v
theories/JglmbVary.v
theories/SmcJModel.v
theories/SmcJProofs.v
theories/SmcJProps.v
theories/SmcJDemo.v
theories/MixModel.v
theories/MixProps.v
theories/StmJProps.v
theories/OspaOrder.v
theories/OspaProps2.v
theories/PhdHist.v
theories/RLists.v
theories/RPhdModel.v
theories/RPhdSpec.v
theories/RPhdProofs.v
theories/RPhdProps.v
theories/RPhdHist.v
theories/PhdClutter.v
theories/CphdHist.v
theories/ElqrModel.v
theories/ElqrSpec.v
theories/ElqrProofs.v
theories/ElqrInit.v
theories/ElqrProps.v
theories/ElqrPasses.v
theories/FltModel.v
theories/FltExact.v
theories/FltSpec.v
theories/FltHung.v
theories/FltAssign.v
theories/FltIeee.v
theories/FltProps.v
theories/FltMurtyModel.v
theories/FltMurtySpec.v
theories/FltMurty.v
theories/FltMurtyTop.v
theories/FltMurtyProps.v
theories/FltGibbsModel.v
theories/FltGibbs.v
theories/FltGibbsDraw.v
theories/FltGibbsTop.v
theories/FltGibbsProps.v
theories/FltGibbsDemo.v
theories/GibbsChainSpec.v
theories/GibbsChain.v
theories/FltGibbsChain.v
theories/GuidProps2.v
theories/LibPositive.v
theories/CphdProps2.v
theories/FltNear.v
theories/FltOspaModel.v
theories/FltOspaSpec.v
theories/FltOspa.v
theories/FltOspaStep.v
theories/FltOspaProps.v
theories/FltPhdModel.v
theories/FltPhdSpec.v
theories/FltPhd.v
theories/FltPhdMerge.v
theories/FltPhdProps.v
theories/FltGlmbModel.v
theories/FltGlmbSpec.v
theories/FltGlmb.v
theories/FltGlmbPred.v
theories/FltGlmbProps.v
theories/FltBfmModel.v
theories/FltBfmSpec.v
theories/FltBfm.v
theories/FltKShort.v
theories/FltBfmErr.v
theories/FltBfmProps.v
theories/FltHungModel.v
theories/FltHungGen.v
theories/FltHungErr.v
theories/FltHungTop.v
theories/FltHungGrid.v
theories/FltHungSpec.v
theories/FltHungProps.v
theories/HungRecModel.v
theories/HungRecProofs.v
theories/HungRecProps.v
theories/KShortTrue.v
theories/KShortProps2.v
theories/CphdThin.v
theories/HellSpec.v
theories/HellDet.v
theories/HellProps.v
theories/RKShortTrue.v
theories/RKShortProps2.v
theories/LibBelow.v
theories/CphdBirth.v
theories/PhdRecord.v
theories/KShortSecond.v
theories/RKShortSecond.v
theories/LibSecond.v
theories/LibSmc2.v
theories/GlmbMost2.v
theories/CphdRecord.v
theories/GlmbNewest.v
theories/NewestAll.v
theories/NewestDemo.v
theories/AlignAll.v
theories/AlignDemo.v
theories/JointAlive.v
theories/JointMost.v
theories/CphdMass.v
theories/GuidFrame.v
theories/PhdOrder.v
theories/PhdOrderMerge.v
theories/PhdOrderRef.v
theories/CphdOrder.v
theories/OspaFrame.v
theories/OspaMono.v
theories/MurtyNumber.v
theories/OspaStatic.v
theories/PhdFrame.v
theories/GlmbOrder.v
theories/SmcOrder.v
theories/GlmbFrame.v
theories/JglmbFrame.v
theories/SmcFrame.v
theories/SmcJFrame.v
theories/CphdFrame.v
theories/CphdComps.v
theories/PlotModel.v
theories/PlotProps.v
theories/PlotLabels.v
theories/PlotPhd.v
theories/PlotCphd.v
theories/PlotCount.v
theories/PlotTruth.v
theories/PlotAnim.v
theories/PlotGlmb.v
