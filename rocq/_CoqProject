-Q theories Verif
theories/Base.v
theories/CacheKernelProofs.v
theories/CacheLruProofs.v
theories/CacheModel.v
theories/CacheProofs.v
theories/CacheSpec.v
theories/CacheTheorems.v
theories/CdModel.v
theories/CdProofs.v
theories/CdSpec.v
theories/CdTheorems.v
theories/CovModel.v
theories/CovProofs.v
theories/CovSpec.v
theories/CovTheorems.v
theories/CsvAccuracyProofs.v
theories/CsvDetectModel.v
theories/CsvDetectProofs.v
theories/CsvDetectSpec.v
theories/CsvDetectTheorems.v
theories/CsvFillProofs.v
theories/CsvFloatProofs.v
theories/CsvNumModel.v
theories/CsvNumProofs.v
theories/CsvNumSpec.v
theories/CsvNumTheorems.v
theories/CsvReadProofs.v
theories/CsvTokCapProofs.v
theories/CsvTokModel.v
theories/CsvTokProofs.v
theories/CsvTokSpec.v
theories/CsvTokTheorems.v
theories/CsvWriteProofs.v
theories/DbscanModel.v
theories/DbscanParProofs.v
theories/DbscanProofs.v
theories/DbscanSpec.v
theories/DbscanTheorems.v
theories/ErrorModel.v
theories/ErrorProofs.v
theories/ErrorSpec.v
theories/ErrorTheorems.v
theories/F64.v
theories/FloatMid.v
theories/FloatOrder.v
theories/ForestModel.v
theories/ForestProbaProofs.v
theories/ForestProofs.v
theories/ForestSpec.v
theories/ForestTheorems.v
theories/ForestVoteProofs.v
theories/HandleModel.v
theories/HandleProofs.v
theories/HandleSpec.v
theories/HandleTheorems.v
theories/HistFloatProofs.v
theories/HistModel.v
theories/HistProofs.v
theories/HistSpec.v
theories/HistTheorems.v
theories/IntervalModel.v
theories/IntervalProofs.v
theories/IntervalSpec.v
theories/IntervalTheorems.v
theories/IvfModel.v
theories/IvfProofs.v
theories/IvfSearchProofs.v
theories/IvfSpec.v
theories/IvfTheorems.v
theories/KmAnyProofs.v
theories/KmBlockProofs.v
theories/KmCostProofs.v
theories/KmElkanModel.v
theories/KmElkanProofs.v
theories/KmElkanTheorems.v
theories/KmKernelProofs.v
theories/KmLloydProofs.v
theories/KmLoopProofs.v
theories/KmMacModel.v
theories/KmMacProofs.v
theories/KmMacTheorems.v
theories/KmModel.v
theories/KmSessionModel.v
theories/KmSessionProofs.v
theories/KmSessionSpec.v
theories/KmSessionTheorems.v
theories/KmSpec.v
theories/KmTheorems.v
theories/LinDirectProofs.v
theories/LinGradProofs.v
theories/LinMainProofs.v
theories/LinModel.v
theories/LinProofs.v
theories/LinScaleProofs.v
theories/LinSessModel.v
theories/LinSessProofs.v
theories/LinSessSpec.v
theories/LinSessTheorems.v
theories/LinSpec.v
theories/LinSysProofs.v
theories/LinTheorems.v
theories/ListFacts.v
theories/LogCodeProofs.v
theories/LogMainProofs.v
theories/LogModel.v
theories/LogProofs.v
theories/LogSpec.v
theories/LogTheorems.v
theories/MomModel.v
theories/MomProofs.v
theories/MomRealProofs.v
theories/MomSpec.v
theories/MomStdProofs.v
theories/MomTheorems.v
theories/NnBoxProofs.v
theories/NnFloatProofs.v
theories/NnHeapProofs.v
theories/NnModel.v
theories/NnPredictModel.v
theories/NnPredictProofs.v
theories/NnPredictSpec.v
theories/NnPredictTheorems.v
theories/NnProofs.v
theories/NnRadiusProofs.v
theories/NnSelectProofs.v
theories/NnSessionModel.v
theories/NnSessionProofs.v
theories/NnSessionSpec.v
theories/NnSessionTheorems.v
theories/NnSpec.v
theories/NnTheorems.v
theories/NnTreeProofs.v
theories/OptionsModel.v
theories/OptionsProofs.v
theories/OptionsSpec.v
theories/OptionsTheorems.v
theories/PairFloatProofs.v
theories/PairMainProofs.v
theories/PairMetricProofs.v
theories/PairModel.v
theories/PairProofs.v
theories/PairSpec.v
theories/PairTheorems.v
theories/Par.v
theories/PersistModel.v
theories/PersistProofs.v
theories/PersistSpec.v
theories/PersistTheorems.v
theories/QrModel.v
theories/QrProofs.v
theories/QrSpec.v
theories/QuantFloatProofs.v
theories/QuantLoopProofs.v
theories/QuantMainProofs.v
theories/QuantModel.v
theories/QuantProofs.v
theories/QuantSpec.v
theories/QuantTheorems.v
theories/RadiusModel.v
theories/RadiusProofs.v
theories/RadiusSpec.v
theories/RadiusTheorems.v
theories/RealArith.v
theories/RegistryModel.v
theories/RegistryProofs.v
theories/RegistrySpec.v
theories/ShuffleFairProofs.v
theories/ShuffleFreqProofs.v
theories/ShuffleMainProofs.v
theories/ShuffleModel.v
theories/ShuffleProofs.v
theories/ShuffleSpec.v
theories/ShuffleTheorems.v
theories/SortModel.v
theories/SortMoreProofs.v
theories/SortProofs.v
theories/SortSpec.v
theories/SortTheorems.v
theories/SplineModel.v
theories/SplineProofs.v
theories/SplineSpec.v
theories/SplineTheorems.v
theories/SplitModel.v
theories/SplitProofs.v
theories/SplitSpec.v
theories/SplitTheorems.v
theories/StoreConcatProofs.v
theories/StoreExamples.v
theories/StoreExtractProofs.v
theories/StoreFinalProofs.v
theories/StoreLabelProofs.v
theories/StoreLabelSpec.v
theories/StoreModel.v
theories/StoreProofs.v
theories/StoreReadProofs.v
theories/StoreSelProofs.v
theories/StoreSelSpec.v
theories/StoreSpec.v
theories/StoreTheorems.v
theories/SvmClassModel.v
theories/SvmClassProofs.v
theories/SvmClassSpec.v
theories/SvmClassTheorems.v
theories/SvmModel.v
theories/SvmProofs.v
theories/SvmResultModel.v
theories/SvmResultProofs.v
theories/SvmResultSpec.v
theories/SvmResultTheorems.v
theories/SvmRunTheorems.v
theories/SvmSmoProofs.v
theories/SvmSpec.v
theories/SvmTheorems.v
theories/SvmTrainProofs.v
theories/TreeFitProofs.v
theories/TreeGrowProofs.v
theories/TreeModel.v
theories/TreePartProofs.v
theories/TreeScanProofs.v
theories/TreeSearchModel.v
theories/TreeSearchProofs.v
theories/TreeSearchSpec.v
theories/TreeSpec.v
theories/TreeTheorems.v
theories/TreeTrainModel.v
theories/TreeTrainProofs.v
theories/TreeTrainSpec.v
theories/UtilModel.v
theories/UtilProofs.v
theories/UtilSpec.v
theories/UtilTheorems.v
theories/VecModel.v
theories/VecProofs.v
theories/VecSpec.v
theories/VecTheorems.v
