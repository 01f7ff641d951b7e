-Q theories Verif
theories/Num.v
theories/NumLaws.v
theories/Py.v
theories/Series.v
theories/Masks.v
theories/DtwModel.v
theories/Spec.v
theories/DpProofs.v
theories/DtwProofs.v
theories/SpecDtw.v
theories/DtwThms.v
theories/Fill.v
theories/VariantModel.v
theories/LimitedThms.v
theories/SubseqThms.v
theories/SpecLcss.v
theories/LcssThms.v
theories/MaskThms.v
theories/Dataset.v
theories/ValidThms.v
theories/CdistThms.v
theories/DtwExact.v
theories/PropDtw.v
theories/PropMasks.v
theories/PropCdist.v
theories/PropVariants.v
theories/PropLcss.v
theories/RList.v
theories/LbModel.v
theories/PropLb.v
theories/PathSum.v
theories/SoftModel.v
theories/SoftThms.v
theories/RealSeries.v
theories/CdistGen.v
theories/PropSoft.v
theories/PropSoftCdist.v
theories/GakModel.v
theories/PropGak.v
theories/PaaModel.v
theories/PaaThms.v
theories/PropPaa.v
theories/PropSax.v
theories/PropSax1d.v
theories/CtwModel.v
theories/PropCtw.v
theories/CyccModel.v
theories/CyccThms.v
theories/PropCycc.v
theories/PreModel.v
theories/PropScale.v
theories/PropResample.v
theories/PropImpute.v
theories/BaryModel.v
theories/BaryThms.v
theories/BaryReal.v
theories/PropBary.v
theories/IntSeries.v
theories/PropBary2.v
theories/ClusterModel.v
theories/ClusterThms.v
theories/PropCluster.v
theories/PropCluster2.v
theories/KernelModel.v
theories/PropKernel.v
theories/PropKernel2.v
theories/KshapeModel.v
theories/PropKshape.v
theories/PropKshape2.v
theories/PropAttempts.v
theories/NeighModel.v
theories/PropNeigh.v
theories/PropNeigh2.v
theories/MpModel.v
theories/PropMp.v
theories/PropSigma.v
theories/EarlyModel.v
theories/PropEarly.v
theories/PropEarly2.v
theories/ArimaModel.v
theories/ArimaStatModel.v
theories/ArimaLaws.v
theories/PropArima.v
theories/PropArima2.v
theories/PropAuto.v
theories/PersistModel.v
theories/PersistLsModel.v
theories/PropPersist.v
theories/PropPersist2.v
theories/PropPersist3.v
theories/PropPersist4.v
theories/ShapeletModel.v
theories/PropShapelet.v
theories/PropShapelet2.v
theories/PropShapelet3.v
theories/PropShapelet4.v
theories/CacheModel.v
theories/PropCache.v
theories/TextModel.v
theories/PropText.v
theories/CastModel.v
theories/PropCast.v
theories/SoftBaryModel.v
theories/PropSoftBary.v
theories/PropSoftBary2.v
theories/PerfModel.v
theories/PropPerf.v
theories/PropCache2.v
theories/DbscanModel.v
theories/PropDbscan.v
theories/SvmModel.v
theories/PropSvm.v
theories/PropSigma2.v
theories/TorchLossModel.v
theories/PropTorchLoss.v
theories/SilhouetteModel.v
theories/PropSilhouette.v
theories/GeneratorModel.v
theories/PropGenerator.v
theories/SyncModel.v
theories/PropSync.v
theories/KInitModel.v
theories/PropKInit.v
theories/SaxNeighModel.v
theories/PropSaxNeigh.v
theories/MlpModel.v
theories/PropMlp.v
theories/CdistMoreModel.v
theories/PropCdistMore.v
theories/SoftClassModel.v
theories/PropSoftClass.v
theories/PropSoftClass2.v
theories/SoftKmeansModel.v
theories/SoftKmeansThms.v
theories/PropSoftKmeans.v
theories/PropSoftKmeans2.v
theories/PropSoftKmeans3.v
theories/BackendModel.v
theories/BackendThms.v
theories/PropBackend.v
theories/PropBackend2.v
theories/EarlyCostModel.v
theories/PropEarly3.v
theories/CachedModel.v
theories/PropCached.v
theories/ReaderModel.v
theories/PropReader.v
theories/FloatOps.v
theories/FloatScalerModel.v
theories/PropFloatScaler.v
theories/PropSoftAttempts.v
theories/FloatLbModel.v
theories/PropFloatLb.v
theories/MetaThms.v
theories/PropMeta.v
theories/SvmStateModel.v
theories/PropSvmState.v
theories/ConcModel.v
theories/PropConc.v
theories/PropConc2.v
theories/PropConc3.v
theories/PropKInit2.v
theories/PropFloatDtw.v
theories/PropFloatLb2.v
theories/BaselineModel.v
theories/PropBaseline.v
theories/PropFloatVar.v
theories/SigmaTorchModel.v
theories/PropSigma3.v
theories/PropGakPsd.v
theories/PropSoftMeta.v
theories/PropKernel3.v
theories/PropLb2.v
theories/PropLcssMeta.v
theories/PropScaleMeta.v
theories/PropSaxMeta.v
theories/PropPreMeta.v
theories/PropKmMeta.v
theories/PropArimaStat.v
theories/PropPersist5.v
theories/PropMetaVar.v
theories/PropBaryMeta.v
theories/PropKmMeta2.v
theories/SubTorchModel.v
theories/PropSubTorch.v
theories/MetricTorchModel.v
theories/PropMetricTorch.v
theories/PropNeighMeta.v
theories/PropKernelMeta.v
theories/PropDbscanMeta.v
theories/PropCyccMeta.v
theories/PropPerfMeta.v
theories/PropMpMeta.v
theories/PropSilMeta.v
theories/AllModel.v
theories/PropAll.v
theories/PropFrechetMetric.v
theories/PropArimaMa.v
theories/PropCheck.v
theories/ParamsModel.v
theories/PropParams.v
theories/SummaryModel.v
theories/PropSummary.v
theories/SilParamsModel.v
theories/PropSilParams.v
