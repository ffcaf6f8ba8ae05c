-Q theories Verif
theories/Base.v
theories/Num.v
theories/MlsModel.v
theories/MlsProofs.v
theories/MlsProperties.v
theories/HashModel.v
theories/HashProofs.v
theories/HashProperties.v
theories/ReduceModel.v
theories/ReduceProofs.v
theories/ReduceProperties.v
theories/DynModel.v
theories/DynSpec.v
theories/DynProofs.v
theories/DynProperties.v
theories/BufModel.v
theories/BufProofs.v
theories/UnitModel.v
theories/NodeModel.v
theories/NodeProofs.v
theories/NodeSpec.v
theories/NodeLaws.v
theories/NodeAddr.v
theories/UnitProofs.v
theories/NodeArith.v
theories/NodeArithProofs.v
theories/NodeProperties.v
theories/OrderModel.v
theories/OrderSpec.v
theories/OrderProofs.v
theories/NetModel.v
theories/NetSpec.v
theories/NetWf.v
theories/NetRemove.v
theories/NetFlow.v
theories/NetPlay.v
theories/NetCombine.v
theories/NetBinop.v
theories/NetHistory.v
theories/NetEdit.v
theories/NetMore.v
theories/NetExamples.v
theories/NetProperties.v
theories/FadeModel.v
theories/FadeSpec.v
theories/FadeProofs.v
theories/FadeExamples.v
theories/FadeProperties.v
theories/NetTags.v
theories/RealnetModel.v
theories/RealnetSpec.v
theories/RealnetProofs.v
theories/RealnetHistory.v
theories/RealnetExamples.v
theories/RealnetProperties.v
theories/SeqModel.v
theories/SeqSpec.v
theories/SeqGroups.v
theories/SeqProofs.v
theories/SeqHistory.v
theories/SeqSamples.v
theories/SeqExamples.v
theories/SeqProperties.v
theories/Requests.v
theories/DelayModel.v
theories/DelaySpec.v
theories/DelayProofs.v
theories/FbUnitProofs.v
theories/DelayReals.v
theories/DelayExamples.v
theories/DelayProperties.v
theories/RequestProofs.v
theories/AdaptModel.v
theories/AdaptSpec.v
theories/AdaptProofs.v
theories/AdaptExamples.v
theories/AdaptProperties.v
theories/WaveModel.v
theories/WaveSpec.v
theories/WaveProofs.v
theories/WaveRender.v
theories/WaveReals.v
theories/WaveExamples.v
theories/WaveProperties.v
theories/QueueProofs.v
theories/QueueProperties.v
theories/MathModel.v
theories/MathSpec.v
theories/MathReals.v
theories/MathNoise.v
theories/MathExamples.v
theories/MathProperties.v
theories/IdModel.v
theories/IdSpec.v
theories/IdProofs.v
theories/IdRuns.v
theories/IdExamples.v
theories/IdProperties.v
theories/SnoopModel.v
theories/SnoopSpec.v
theories/SnoopProofs.v
theories/SnoopExamples.v
theories/SnoopProperties.v
theories/SlotModel.v
theories/SlotSpec.v
theories/SlotProofs.v
theories/SlotSettle.v
theories/SlotSound.v
theories/SlotRate.v
theories/SlotExamples.v
theories/SlotProperties.v
theories/LayoutModel.v
theories/LayoutSpec.v
theories/LayoutProofs.v
theories/LayoutProperties.v
theories/HadamardModel.v
theories/HadamardSpec.v
theories/HadamardProofs.v
theories/HadamardProperties.v
theories/FirModel.v
theories/FirSpec.v
theories/FirProofs.v
theories/FirExamples.v
theories/FirProperties.v
theories/SignalModel.v
theories/SignalSpec.v
theories/StreamProofs.v
theories/SignalProofs.v
theories/LatencyProofs.v
theories/SignalExamples.v
theories/SignalProperties.v
theories/FilterModel.v
theories/FreqSpec.v
theories/FreqProofs.v
theories/FilterProofs.v
theories/ResponseProofs.v
theories/DesignProofs.v
theories/FilterExamples.v
theories/FilterProperties.v
theories/CharSpec.v
theories/CharProofs.v
theories/CharProperties.v
theories/FloatLink.v
theories/EnvModel.v
theories/EnvSpec.v
theories/EnvFloatSpec.v
theories/EnvProofs.v
theories/AdsrProofs.v
theories/EnvStop.v
theories/EnvExamples.v
theories/EnvProperties.v
theories/ResampleModel.v
theories/ResampleSpec.v
theories/ResampleProofs.v
theories/ResampleProperties.v
theories/OverModel.v
theories/OverSpec.v
theories/OverProofs.v
theories/OverProperties.v
theories/OscModel.v
theories/OscSpec.v
theories/OscProofs.v
theories/OscMore.v
theories/OscString.v
theories/OscFloatSpec.v
theories/OscFloat.v
theories/OscProperties.v
theories/TableModel.v
theories/TableSpec.v
theories/TableProofs.v
theories/TableBuild.v
theories/TableFloat.v
theories/TableCases.v
theories/TableProperties.v
theories/ShapeModel.v
theories/ShapeSpec.v
theories/ShapeProofs.v
theories/ShapeProperties.v
theories/ResynthModel.v
theories/ResynthSpec.v
theories/ResynthFourier.v
theories/ResynthLists.v
theories/ResynthProofs.v
theories/ResynthCases.v
theories/ResynthProperties.v
theories/WavModel.v
theories/WavSpec.v
theories/WavProofs.v
theories/WavParse.v
theories/WavNumbers.v
theories/WavProperties.v
theories/TuneModel.v
theories/TuneSpec.v
theories/TuneProofs.v
theories/TuneReal.v
theories/TuneBounds.v
theories/TuneRefute.v
theories/TuneProperties.v
theories/RevModel.v
theories/RevSpec.v
theories/RevProofs.v
theories/RevGraph.v
theories/RevStereo.v
theories/RevLoop.v
theories/RevDecay.v
theories/RevEarly.v
theories/RevProperties.v
theories/SysModel.v
theories/SysSpec.v
theories/SysProofs.v
theories/SysBlocks.v
theories/SysProperties.v
theories/SharedModel.v
theories/SharedSpec.v
theories/SharedProofs.v
theories/SharedFloat.v
theories/SharedProperties.v
theories/GranModel.v
theories/GranSpec.v
theories/GranProofs.v
theories/GranLink.v
theories/GranProperties.v
theories/MeterModel.v
theories/MeterSpec.v
theories/MeterProofs.v
theories/MeterProperties.v
theories/ReadModel.v
theories/ReadSpec.v
theories/ReadProofs.v
theories/ReadProperties.v
theories/OpModel.v
theories/OpSpec.v
theories/OpProofs.v
theories/OpProofs2.v
theories/OpProperties.v
theories/FxModel.v
theories/FxSpec.v
theories/FxProofs.v
theories/FxProofs2.v
theories/FxProofs3.v
theories/FxProperties.v
theories/ResetSpec.v
theories/ResetModel.v
theories/ResetProofs.v
theories/ResetUnits.v
theories/ResetTune.v
theories/ResetLeaves.v
theories/ResetProperties.v
theories/PreModel.v
theories/PreSpec.v
theories/PreProofs.v
theories/PreProperties.v
theories/SoundModel.v
theories/SoundSpec.v
theories/SoundProofs.v
theories/SoundCurves.v
theories/SoundProperties.v
theories/NetRouteModel.v
theories/NetRouteSpec.v
theories/NetRouteProofs.v
theories/NetRouteExamples.v
theories/NetRouteProperties.v
theories/HoldSpec.v
theories/HoldProofs.v
theories/HoldFloat.v
theories/HoldProperties.v
theories/ResonSpec.v
theories/ResonModel.v
theories/ResonProofs.v
theories/ResonProperties.v
theories/ShapedSpec.v
theories/ShapedProofs.v
theories/NetRateModel.v
theories/NetRateSpec.v
theories/NetRateProofs.v
theories/NetRateExamples.v
theories/NetRateProperties.v
theories/TimbreModel.v
theories/TimbreSpec.v
theories/TimbreProofs.v
theories/TimbreProperties.v
theories/ModSpec.v
theories/ModProofs.v
theories/ModSvf.v
theories/ModPoles.v
theories/ModBlow.v
theories/ModProperties.v
theories/TunePorts.v
theories/PortProperties.v
theories/NyqProofs.v
theories/NyqProperties.v
theories/NyqSpec.v
theories/NyqAll.v
theories/NyqBiquad.v
theories/NetRouteBinop.v
theories/ResonBand.v
theories/DrumModel.v
theories/DrumSpec.v
theories/DrumProofs.v
theories/DrumSnare.v
theories/DrumLevel.v
theories/DrumProperties.v
theories/PebbleModel.v
theories/PebbleProofs.v
theories/PebbleProperties.v
theories/HallModel.v
theories/HallSpec.v
theories/HallTap.v
theories/HallProofs.v
theories/HallSilence.v
theories/HallProperties.v
theories/MotionModel.v
theories/MotionSpec.v
theories/MotionProofs.v
theories/MotionProperties.v
theories/SlopeSpec.v
theories/SlopeProofs.v
theories/SlopeProperties.v
theories/ChorusSpec.v
theories/ChorusProofs.v
theories/ChorusProperties.v
theories/TapToneSpec.v
theories/TapToneProofs.v
theories/TapToneProperties.v
theories/ResampleTone.v
theories/ResampleToneProperties.v
theories/CymbalModel.v
theories/CymbalSpec.v
theories/TableHeardProofs.v
theories/TableHeardProperties.v
theories/CymbalProofs.v
theories/CymbalLevel.v
theories/CymbalProperties.v
theories/SweptLevel.v
theories/SweptProperties.v
theories/PeakSpec.v
theories/PeakProofs.v
theories/PeakProperties.v
theories/VoicesModel.v
theories/VoicesSpec.v
theories/VoicesProofs.v
theories/VoicesPitch.v
theories/VoicesProperties.v
theories/GlideProofs.v
theories/GlideProperties.v
