-Q theories Verif
theories/Base.v
theories/ParamsModel.v
theories/ParamsSpec.v
theories/ParamsProofs.v
theories/ParamsProofs2.v
theories/FlagsModel.v
theories/FlagsProofs.v
theories/ParamsProps.v
theories/PatchModel.v
theories/PatchSpec.v
theories/PatchProofs.v
theories/PatchProps.v
theories/CacheModel.v
theories/CacheProps.v
theories/Ext.v
theories/EngineModel.v
theories/EngineProps.v
theories/OptimModel.v
theories/OptimProps.v
theories/PriorModel.v
theories/PriorProps.v
theories/LsqModel.v
theories/LsqSpec.v
theories/LsqProofs.v
theories/LsqProps.v
theories/SharedProps.v
theories/DerivModel.v
theories/DerivSpec.v
theories/DerivProofs.v
theories/DerivProps.v
theories/DerivProps2.v
theories/DerivProps3.v
theories/DerivProps4.v
theories/DerivExamples.v
theories/IntImgModel.v
theories/IntImgSpec.v
theories/IntImgProps.v
theories/RoiModel.v
theories/RoiProps.v
theories/MagsModel.v
theories/MagsProps.v
theories/EllipseModel.v
theories/EllipseProps.v
theories/MixModel.v
theories/MixProps.v
theories/SplineModel.v
theories/SplineProps.v
theories/ShiftModel.v
theories/ShiftProps.v
theories/MultiprocModel.v
theories/MultiprocProps.v
theories/Corr7Model.v
theories/Corr7Props.v
theories/LanczosModel.v
theories/LanczosProps.v
theories/PsfModel.v
theories/PsfProps.v
theories/MogModel.v
theories/MogProps.v
theories/Approx3Model.v
theories/Approx3Props.v
theories/DenseModel.v
theories/DenseProps.v
theories/ForcedModel.v
theories/ForcedProps.v
theories/FitstatsModel.v
theories/FitstatsProps.v
theories/GalPatchModel.v
theories/GalPatchProps.v
theories/HeapModel.v
theories/HeapProps.v
theories/ClassCopyModel.v
theories/ClassCopyProps.v
theories/HashModel.v
theories/HashProps.v
theories/PsfFftModel.v
theories/PsfFftProps.v
theories/GaussPsfModel.v
theories/GaussPsfProps.v
theories/SersicModel.v
theories/SersicProps.v
theories/SersicProps2.v
theories/GpuModel.v
theories/GpuProps.v
theories/GpuSearchModel.v
theories/GpuSearchProps.v
theories/GpuMixModel.v
theories/GpuMixProps.v
theories/GpuLsqModel.v
theories/GpuLsqProps.v
theories/EmModel.v
theories/EmProps.v
theories/CompositeModel.v
theories/CompositeProps.v
theories/CeresModel.v
theories/CeresProps.v
theories/CeresOptModel.v
theories/CeresOptProps.v
theories/MotionModel.v
theories/MotionProps.v
theories/VaryPsfModel.v
theories/VaryPsfProps.v
theories/FastDerivModel.v
theories/FastDerivProps.v
theories/ImageModel.v
theories/ImageProps.v
theories/SkyGridModel.v
theories/SkyGridProps.v
theories/SkyOpsModel.v
theories/SkyOpsProps.v
theories/TanModel.v
theories/TanProps.v
theories/SurfModel.v
theories/SurfProps.v
theories/SfdModel.v
theories/SfdProps.v
theories/WiseModel.v
theories/WiseProps.v
theories/OptionsModel.v
theories/OptionsProps.v
theories/SdssSrcModel.v
theories/SdssSrcProps.v
theories/SdssBrightModel.v
theories/SdssBrightProps.v
theories/SdssImgModel.v
theories/SdssImgProps.v
theories/GpuPickModel.v
theories/GpuPickProps.v
theories/EvalModel.v
theories/EvalProps.v
theories/SurveyCalModel.v
theories/SurveyCalProps.v
theories/WiseCatModel.v
theories/WiseCatProps.v
theories/UnwiseModel.v
theories/UnwiseProps.v
theories/RebinModel.v
theories/RebinProps.v
theories/OdictModel.v
theories/OdictProps.v
theories/NpParamsModel.v
theories/NpParamsProps.v
theories/GalProfModel.v
theories/GalProfProps.v
theories/GalMixProps.v
theories/SersicLawNum.v
theories/SersicLawProps.v
theories/SextModel.v
theories/SextProps.v
theories/StateModel.v
theories/StateProps.v
theories/RoundModel.v
theories/RoundArith.v
theories/RoundImgProps.v
theories/RoundLikProps.v
theories/RoundModProps.v
theories/OverPsfModel.v
theories/OverPsfProps.v
theories/WrapModel.v
theories/WrapProps.v
theories/RoundDerivModel.v
theories/RoundDerivProps.v
theories/FitModel.v
theories/FitProps.v
theories/SetupModel.v
theories/SetupProps.v
theories/ForcedFitProps.v
theories/AgreeProps.v
theories/RoundStepProps.v
theories/MaskedProps.v
theories/MaskedForcedProps.v
theories/OrderProps.v
theories/UnitsProps.v
theories/FreezeProps.v
theories/FreezeMaskProps.v
theories/LinearProps.v
theories/LinearUniqueProps.v
theories/HybridModel.v
theories/HybridProps.v
theories/CutProps.v
theories/TrimProps.v
theories/CoaddProps.v
theories/DropProps.v
theories/EdgeProps.v
theories/JoinProps.v
