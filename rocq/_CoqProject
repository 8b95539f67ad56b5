-Q theories Verif
theories/MemModel.v
theories/MemProofs.v
theories/MemPropsAux.v
theories/MemProps.v
theories/HeapModel.v
theories/HeapSpec.v
theories/HeapProofs.v
theories/HeapPropsAux.v
theories/HeapProps.v
theories/CacheModel.v
theories/CacheSpec.v
theories/CacheProofs.v
theories/CacheProps.v
theories/PkgCacheModel.v
theories/PkgCacheSpec.v
theories/PkgCacheProofs.v
theories/PkgCacheProps.v
theories/GraphModel.v
theories/GraphSpec.v
theories/GraphProofs.v
theories/DagProofs.v
theories/GraphProps.v
theories/DsuModel.v
theories/DsuSpec.v
theories/DsuProofs.v
theories/DsuProps.v
theories/UGraphModel.v
theories/UGraphSpec.v
theories/UGraphProofs.v
theories/UGraphProps.v
theories/LayerModel.v
theories/LayerSpec.v
theories/LayerProofs.v
theories/LayerDagProofs.v
theories/LayerProps.v
theories/Cplx.v
theories/Qsem.v
theories/GateModel.v
theories/GateSpec.v
theories/GateProofs.v
theories/OpProofs.v
theories/CanonProofs.v
theories/TextbookProofs.v
theories/GateProps.v
theories/IRModel.v
theories/IRSpec.v
theories/IRProofs.v
theories/IRProps.v
theories/ExprModel.v
theories/ExprProofs.v
theories/ExprProps.v
theories/OptModel.v
theories/OptSem.v
theories/OptDagProofs.v
theories/OptDagProofs2.v
theories/OptFuseProofs.v
theories/OptProofs.v
theories/OptElideProofs.v
theories/OptBackProofs.v
theories/OptProps.v
theories/OptMeasModel.v
theories/OutcomeSpec.v
theories/OptDiagSem.v
theories/OptDiagProofs.v
theories/OptFinalProofs.v
theories/OptResetProofs.v
theories/OptDeferProofs.v
theories/OptBlockModel.v
theories/OptBlockProofs.v
theories/OptBlockWidthProofs.v
theories/OptMeasProps.v
theories/DDModel.v
theories/DDSpec.v
theories/DDProofs.v
theories/DDCanonProofs.v
theories/DDOpsProofs.v
theories/DDGateProofs.v
theories/DDStateProofs.v
theories/DDProps.v
theories/DDMoreModel.v
theories/DDKronProofs.v
theories/DDTraceProofs.v
theories/DDTransferProofs.v
theories/DDMoreProps.v
theories/RealTableModel.v
theories/RealTableProofs.v
theories/TagModel.v
theories/TagProofs.v
theories/NumProps.v
theories/SimModel.v
theories/SimOpProofs.v
theories/SimPermProofs.v
theories/SimLoopProofs.v
theories/SimMeasProofs.v
theories/SimNormProofs.v
theories/SimSampleProofs.v
theories/SimStaticProofs.v
theories/SimProps.v
theories/NoiseSpec.v
theories/NoiseModel.v
theories/NoiseExpProofs.v
theories/NoiseChanProofs.v
theories/NoiseStochProofs.v
theories/NoiseDetProofs.v
theories/NoiseProps.v
theories/PiModel.v
theories/PiProps.v
theories/ZXModel.v
theories/ZXSpec.v
theories/ZXPhaseProofs.v
theories/ZXSemProofs.v
theories/ZXUpdProofs.v
theories/ZXUpd2Proofs.v
theories/ZXUpd3Proofs.v
theories/ZXRuleProofs.v
theories/ZXRule2Proofs.v
theories/ZXRule3Proofs.v
theories/ZXGadgetProofs.v
theories/ZXGraphProofs.v
theories/ZXUpdSpec.v
theories/ZXBookProofs.v
theories/ZXProps.v
theories/ZXSimpSpec.v
theories/ZXSimpProofs.v
theories/ZXDiscProofs.v
theories/ZXTermProofs.v
theories/ZXSimpProps.v
theories/ZXBuildModel.v
theories/ZXBuildSpec.v
theories/ZXBuildProofs.v
theories/ZXBuildStateProofs.v
theories/ZXBuildGateProofs.v
theories/ZXBuildIOProofs.v
theories/ZXBuildMainProofs.v
theories/ZXBuildProps.v
theories/ZXCompSpec.v
theories/ZXIdProofs.v
theories/ZXConcatProofs.v
theories/ZXConcat2Proofs.v
theories/ZXConcat3Proofs.v
theories/ZXCompProps.v
theories/QasmScanModel.v
theories/QasmScanSpec.v
theories/QasmScanProofs.v
theories/QasmScanProps.v
theories/QasmEnvModel.v
theories/QasmEnvProofs.v
theories/QasmEnvProps.v
theories/QasmConstModel.v
theories/QasmConstSpec.v
theories/QasmConstProofs.v
theories/QasmConstProps.v
theories/QasmParseModel.v
theories/QasmParseSpec.v
theories/QasmParseProofs.v
theories/QasmParseProps.v
theories/QasmIfModel.v
theories/QasmIfProofs.v
theories/QasmIfProps.v
theories/QasmGateModel.v
theories/QasmGateSpec.v
theories/QasmGateProofs.v
theories/QasmGateMainProofs.v
theories/QasmGateProps.v
theories/AlgoModel.v
theories/AlgoSpec.v
theories/AlgoBaseProofs.v
theories/AlgoStateProofs.v
theories/AlgoQftProofs.v
theories/AlgoMeasProofs.v
theories/AlgoIterProofs.v
theories/AlgoUnrollProofs.v
theories/AlgoQpeProofs.v
theories/AlgoDistProofs.v
theories/AlgoGroverProofs.v
theories/AlgoGroverBound.v
theories/AlgoProps.v
theories/PrepModel.v
theories/PrepSpec.v
theories/PrepNormProofs.v
theories/PrepMuxProofs.v
theories/PrepStepProofs.v
theories/PrepProofs.v
theories/PrepProps.v
theories/NAModel.v
theories/NASpec.v
theories/NAProofs.v
theories/NAProps.v
theories/SerModel.v
theories/SerProofs.v
theories/SerProps.v
theories/ExportModel.v
theories/ExportSpec.v
theories/ExportRegProofs.v
theories/ExportGateProofs.v
theories/ExportCallProofs.v
theories/ExportStdProofs.v
theories/ExportProofs.v
theories/ExportProps.v
theories/CircModel.v
theories/CircSpec.v
theories/CircProofs.v
theories/CircKeepProofs.v
theories/CircStripProofs.v
theories/CircBuildProofs.v
theories/CircIOProofs.v
theories/CircAddProofs.v
theories/CircProps.v
theories/LayoutModel.v
theories/LayoutSpec.v
theories/LayoutProofs.v
theories/LayoutProps.v
theories/DDReduceModel.v
theories/DDReduceSpec.v
theories/DDReduceProofs.v
theories/DDGarbageProofs.v
theories/DDGarbageMProofs.v
theories/DDCloseProofs.v
theories/DDReduceProps.v
theories/SimReduceModel.v
theories/SimReduceProofs.v
theories/SimReduceProps.v
theories/SymModel.v
theories/SymSpec.v
theories/SymProofs.v
theories/SymProps.v
theories/ReorderModel.v
theories/ReorderSpec.v
theories/ReorderProofs.v
theories/ReorderSemProofs.v
theories/ReorderInvProofs.v
theories/ReorderProps.v
theories/QueryModel.v
theories/QuerySpec.v
theories/QueryProofs.v
theories/QueryCircProofs.v
theories/QueryActProofs.v
theories/QueryProps.v
theories/QasmLexModel.v
theories/QasmLexSpec.v
theories/QasmLexNumProofs.v
theories/QasmLexProofs.v
theories/QasmLexMainProofs.v
theories/QasmLexProps.v
theories/CliffordModel.v
theories/CliffordSpec.v
theories/CliffordProofs.v
theories/CliffordMainProofs.v
theories/CliffordLayerProofs.v
theories/CliffordProps.v
theories/QasmTypeModel.v
theories/QasmTypeSpec.v
theories/QasmTypeProofs.v
theories/QasmTypeMainProofs.v
theories/QasmTypeProgProofs.v
theories/QasmTypeRuleProofs.v
theories/QasmTypeProps.v
theories/TravModel.v
theories/TravSpec.v
theories/TravProofs.v
theories/TravDiagProofs.v
theories/TravProps.v
theories/FracModel.v
theories/FracSpec.v
theories/FracProofs.v
theories/FracProps.v
theories/PrintModel.v
theories/PrintSpec.v
theories/PrintProofs.v
theories/PrintProps.v
theories/OpNameModel.v
theories/OpNameProps.v
theories/FidModel.v
theories/FidSpec.v
theories/FidProofs.v
theories/FidProps.v
theories/PolarModel.v
theories/PolarSpec.v
theories/PolarProofs.v
theories/PolarProps.v
theories/DensModel.v
theories/DensSpec.v
theories/DensProofs.v
theories/DensProps.v
theories/AodModel.v
theories/AodSpec.v
theories/AodProofs.v
theories/AodProps.v
theories/ZxIterModel.v
theories/ZxIterProofs.v
theories/ZxIterProps.v
theories/NaTextModel.v
theories/NaTextSpec.v
theories/NaTextProofs.v
theories/NaTextProps.v
theories/CliffModel.v
theories/CliffProofs.v
theories/CliffProps.v
