-Q theories Verif
theories/Base.v
theories/Sweep.v
theories/Base64Model.v
theories/Base64Spec.v
theories/Base64Proofs.v
theories/Base64Props.v
theories/PathModel.v
theories/PathSpec.v
theories/PathProofs.v
theories/PathProps.v
theories/TrackerModel.v
theories/TrackerSpec.v
theories/TrackerProofs.v
theories/TrackerProps.v
theories/BinModel.v
theories/BinSpec.v
theories/BinOrder.v
theories/BinProofs.v
theories/BinSafety.v
theories/BinWrite.v
theories/BinMore.v
theories/BinGrammar.v
theories/BinProps.v
theories/EnumModel.v
theories/EnumSpec.v
theories/EnumProofs.v
theories/EnumProps.v
theories/EnumOpsModel.v
theories/EnumOpsProofs.v
theories/EnumOpsProps.v
theories/HashModel.v
theories/HashSpec.v
theories/HashProofs.v
theories/HashSignedProofs.v
theories/HashProps.v
theories/TextModel.v
theories/TextSpec.v
theories/TextProofs.v
theories/TextProps.v
theories/ZipModel.v
theories/ZipSpec.v
theories/ZipProofs.v
theories/ZipProps.v
theories/XinfoModel.v
theories/XinfoSpec.v
theories/XinfoProofs.v
theories/XinfoProps.v
theories/SysModel.v
theories/SysSpec.v
theories/SysProofs.v
theories/SysProps.v
theories/SignalModel.v
theories/SignalSpec.v
theories/SignalMemProofs.v
theories/SignalRelProofs.v
theories/SignalStepProofs.v
theories/SignalFrameProofs.v
theories/SignalTauProofs.v
theories/SignalEmitProofs.v
theories/SignalRunProofs.v
theories/SignalDeadProofs.v
theories/SignalTraceProofs.v
theories/SignalCallProofs.v
theories/SignalEndProofs.v
theories/SignalHoldProofs.v
theories/SignalOrderProofs.v
theories/SignalStopProofs.v
theories/SignalWitnessProofs.v
theories/SignalProps.v
theories/SignalRaceModel.v
theories/SignalRaceEraseProofs.v
theories/SignalRaceSpec.v
theories/SignalRaceHbProofs.v
theories/SignalRaceInvProofs.v
theories/SignalRaceLightProofs.v
theories/SignalRaceUserProofs.v
theories/SignalRaceListProofs.v
theories/SignalRaceRegionProofs.v
theories/SignalRaceLockProofs.v
theories/SignalRaceSwapProofs.v
theories/SignalRaceFreeProofs.v
theories/SignalRaceWriteProofs.v
theories/SignalRaceSamples.v
theories/SignalRaceSampleProofs.v
theories/SignalRaceProps.v
theories/ScalarModel.v
theories/ScalarSpec.v
theories/ScalarProofs.v
theories/SerialModel.v
theories/SerialSpec.v
theories/SerialDocSpec.v
theories/SerialLeafProofs.v
theories/SerialBaseProofs.v
theories/SerialTypeProofs.v
theories/SerialDumpProofs.v
theories/SerialIntProofs.v
theories/SerialKeyProofs.v
theories/SerialRoundProofs.v
theories/SerialFieldProofs.v
theories/SerialPatchProofs.v
theories/SerialTextProofs.v
theories/SerialMoreProofs.v
theories/SerialSamples.v
theories/SerialProps.v
theories/SerialDocProofs.v
theories/SerialReadProofs.v
theories/SerialExnProofs.v
theories/SerialDocProps.v
theories/SerialYamlSpec.v
theories/SerialYamlProofs.v
theories/SerialYamlProps.v
theories/SerialMsgModel.v
theories/SerialMsgSpec.v
theories/SerialMsgEraseProofs.v
theories/SerialMsgProofs.v
theories/SerialMsgTextProofs.v
theories/SerialMsgSamples.v
theories/SerialMsgProps.v
theories/ReflectModel.v
theories/ReflectSpec.v
theories/ReflectSamples.v
theories/ReflectProofs.v
theories/ReflectProps.v
theories/AttrModel.v
theories/AttrSpec.v
theories/AttrProofs.v
theories/AttrNameProofs.v
theories/AttrSamples.v
theories/AttrRefuted.v
theories/AttrProps.v
theories/ResourceModel.v
theories/ResourceSpec.v
theories/ResourceBaseProofs.v
theories/ResourcePathProofs.v
theories/ResourceOpProofs.v
theories/ResourceCaseProofs.v
theories/ResourceFrameProofs.v
theories/ResourceMainProofs.v
theories/ResourceLawProofs.v
theories/ResourceSamples.v
theories/ResourceRefutedProofs.v
theories/ResourceProps.v
theories/ResourceAnswerSpec.v
theories/ResourceAnswerProofs.v
theories/ResourceAnswerProps.v
theories/FloatModel.v
theories/FloatSpec.v
theories/FloatProofs.v
theories/FloatRoundProofs.v
theories/FloatMainProofs.v
theories/FloatSamples.v
theories/FloatProps.v
theories/RangeModel.v
theories/RangeSpec.v
theories/RangeProofs.v
theories/RangeSamples.v
theories/RangeProps.v
theories/BuildModel.v
theories/BuildSpec.v
theories/BuildProofs.v
theories/BuildSamples.v
theories/BuildProps.v
theories/DiagModel.v
theories/DiagSpec.v
theories/DiagProofs.v
theories/DiagSamples.v
theories/DiagProps.v
theories/CustomModel.v
theories/CustomSpec.v
theories/CustomProofs.v
theories/CustomPairProofs.v
theories/CustomSamples.v
theories/CustomProps.v
theories/JtextModel.v
theories/JtextSpec.v
theories/JtextNumProofs.v
theories/JtextStringProofs.v
theories/JtextReadProofs.v
theories/JtextWriteProofs.v
theories/JtextUtf8Proofs.v
theories/JtextSamples.v
theories/JtextProofs.v
theories/JtextMoreProofs.v
theories/JtextThrowProofs.v
theories/JtextProps.v
theories/JnumModel.v
theories/JnumSpec.v
theories/JnumRoundProofs.v
theories/JnumArithProofs.v
theories/JnumProofs.v
theories/JnumMainProofs.v
theories/JnumLongProofs.v
theories/JnumSamples.v
theories/JnumMoreProofs.v
theories/JnumProps.v
theories/PpModel.v
theories/PpSpec.v
theories/PpProofs.v
theories/PpMacroProofs.v
theories/PpLoopProofs.v
theories/PpLoop2Proofs.v
theories/PpEnumProofs.v
theories/PpStructProofs.v
theories/PpCallProofs.v
theories/PpOtherProofs.v
theories/PpSamples.v
theories/PpFindingProofs.v
theories/PpProps.v
theories/TmplModel.v
theories/TmplSpec.v
theories/TmplProofs.v
theories/TmplMoreProofs.v
theories/TmplSamples.v
theories/TmplProps.v
theories/OverModel.v
theories/OverSpec.v
theories/OverProofs.v
theories/OverEffortProofs.v
theories/OverMatchProofs.v
theories/OverRangeProofs.v
theories/OverMoreProofs.v
theories/OverSamples.v
theories/OverProps.v
theories/EdgeSpec.v
theories/EdgeProofs.v
theories/EdgeBinProofs.v
theories/EdgeYamlProofs.v
theories/EdgeProps.v
theories/PickModel.v
theories/PickSpec.v
theories/PickProofs.v
theories/PickAgreeProofs.v
theories/PickMoreProofs.v
theories/PickSamples.v
theories/PickProps.v
theories/PassModel.v
theories/PassSpec.v
theories/PassProofs.v
theories/PassDeliverProofs.v
theories/PassValueProofs.v
theories/PassSamples.v
theories/PassProps.v
theories/CaptModel.v
theories/CaptSpec.v
theories/CaptProofs.v
theories/CaptReleaseProofs.v
theories/CaptSignalProofs.v
theories/CaptOpProofs.v
theories/CaptRunProofs.v
theories/CaptSamples.v
theories/CaptProps.v
theories/ThrowModel.v
theories/ThrowSpec.v
theories/ThrowProofs.v
theories/ThrowCastProofs.v
theories/ThrowSamples.v
theories/ThrowProps.v
theories/YviewModel.v
theories/YviewSpec.v
theories/YviewProofs.v
theories/YviewFreshProofs.v
theories/YviewFitsProofs.v
theories/YviewMadeProofs.v
theories/YviewSamples.v
theories/YviewSampleProofs.v
theories/YviewProps.v
theories/HandModel.v
theories/HandSpec.v
theories/HandSamples.v
theories/HandProofs.v
theories/HandStepProofs.v
theories/HandRunProofs.v
theories/HandAllProofs.v
theories/HandSeenProofs.v
theories/HandOnceProofs.v
theories/HandProps.v
theories/LifeModel.v
theories/LifeSpec.v
theories/LifeSamples.v
theories/LifeProofs.v
theories/LifeBackProofs.v
theories/LifeGiveProofs.v
theories/LifeProps.v
theories/NsModel.v
theories/NsSpec.v
theories/NsSamples.v
theories/NsProofs.v
theories/NsCallProofs.v
theories/NsAllProofs.v
theories/NsOwnProofs.v
theories/NsProps.v
theories/SysDeferProofs.v
theories/EnumRangeProofs.v
theories/ReflectVisitProofs.v
theories/PathThrowProofs.v
theories/XinfoShareProofs.v
theories/SerialFlatSpec.v
theories/SerialFlatProofs.v
theories/AccModel.v
theories/AccSpec.v
theories/AccProofs.v
theories/AccRoundProofs.v
theories/AccSamples.v
theories/AccProps.v
theories/HookModel.v
theories/HookSpec.v
theories/HookProofs.v
theories/HookShapeProofs.v
theories/HookReasonProofs.v
theories/HookRestProofs.v
theories/HookFrameProofs.v
theories/HookMainProofs.v
theories/HookSamples.v
theories/HookRefutedProofs.v
theories/HookProps.v
theories/AdaptModel.v
theories/AdaptSpec.v
theories/AdaptProofs.v
theories/AdaptWrite.v
theories/AdaptSamples.v
theories/AdaptProps.v
theories/DispModel.v
theories/DispSpec.v
theories/DispProofs.v
theories/DispSamples.v
theories/DispProps.v
theories/FacadeModel.v
theories/FacadeSpec.v
theories/FacadeProofs.v
theories/FacadeSamples.v
theories/FacadeProps.v
theories/StrmModel.v
theories/StrmSpec.v
theories/StrmProofs.v
theories/StrmSamples.v
theories/StrmProps.v
theories/LinkModel.v
theories/LinkSpec.v
theories/LinkProofs.v
theories/LinkSamples.v
theories/LinkProps.v
theories/InitModel.v
theories/InitSpec.v
theories/InitProofs.v
theories/InitSamples.v
theories/InitProps.v
theories/XkeyModel.v
theories/XkeySpec.v
theories/XkeyProofs.v
theories/XkeySamples.v
theories/XkeyProps.v
theories/CgetModel.v
theories/CgetSpec.v
theories/CgetProofs.v
theories/CgetSamples.v
theories/CgetProps.v
theories/CurModel.v
theories/CurSpec.v
theories/CurProofs.v
theories/CurStepProofs.v
theories/CurRunProofs.v
theories/CurSamples.v
theories/CurProps.v
theories/FailModel.v
theories/FailSpec.v
theories/FailProofs.v
theories/FailMainProofs.v
theories/FailSamples.v
theories/FailProps.v
theories/FlagModel.v
theories/FlagSpec.v
theories/FlagProofs.v
theories/FlagMainProofs.v
theories/FlagTripProofs.v
theories/FlagSamples.v
theories/FlagProps.v
theories/CastModel.v
theories/CastSpec.v
theories/CastProofs.v
theories/CastLayProofs.v
theories/CastMainProofs.v
theories/CastSamples.v
theories/CastProps.v
theories/DangModel.v
theories/DangSpec.v
theories/DangProofs.v
theories/DangMainProofs.v
theories/DangSamples.v
theories/DangProps.v
theories/NameSpec.v
theories/NameProofs.v
theories/NameProps.v
theories/UnfModel.v
theories/UnfSpec.v
theories/UnfProofs.v
theories/UnfSamples.v
theories/UnfProps.v
theories/PmemModel.v
theories/PmemSpec.v
theories/PmemProofs.v
theories/PmemSetProofs.v
theories/PmemSamples.v
theories/PmemProps.v
theories/SelfModel.v
theories/SelfProofs.v
theories/SelfZeroProofs.v
theories/SelfSamples.v
theories/SelfProps.v
theories/PmovModel.v
theories/PmovProofs.v
theories/PmovSamples.v
theories/PmovProps.v
