-Q theories Verif
theories/Base.v
theories/EvidenceModel.v
theories/EvidenceSpec.v
theories/EvidenceProofs.v
theories/EvidenceProps.v
theories/IoModel.v
theories/IoSpec.v
theories/IoProofs.v
theories/IoProps.v
theories/BytesModel.v
theories/BytesSpec.v
theories/BytesProofs.v
theories/BytesProps.v
theories/TagModel.v
theories/TagSpec.v
theories/TagProofs.v
theories/TagProps.v
theories/RcModel.v
theories/RcSpec.v
theories/RcProofs.v
theories/RcProps.v
theories/LayoutModel.v
theories/LayoutSpec.v
theories/LayoutProofs.v
theories/LayoutProps.v
theories/DominanceModel.v
theories/DominanceSpec.v
theories/DominanceProofs.v
theories/DominanceProps.v
theories/ArithModel.v
theories/ArithSpec.v
theories/ArithProofs.v
theories/ArithProps.v
theories/InternModel.v
theories/InternSpec.v
theories/InternProofs.v
theories/InternProps.v
theories/IrModel.v
theories/IrSpec.v
theories/IrProofs.v
theories/IrInvProofs.v
theories/IrTreeSpec.v
theories/IrWalkProofs.v
theories/IrCloneProofs.v
theories/IrMainProofs.v
theories/IrProps.v
theories/CallGraphModel.v
theories/CallGraphSpec.v
theories/TarjanProofs.v
theories/CallGraphProofs.v
theories/CallGraphProps.v
theories/TargetModel.v
theories/TargetSpec.v
theories/TargetProofs.v
theories/TargetProps.v
theories/CacheModel.v
theories/CacheSpec.v
theories/CacheProofs.v
theories/CacheProps.v
theories/AttrModel.v
theories/AttrSpec.v
theories/AttrProofs.v
theories/AttrProps.v
theories/PassModel.v
theories/PassSpec.v
theories/PassProofs.v
theories/PassProps.v
theories/DceModel.v
theories/DceSpec.v
theories/DceProofs.v
theories/DceRunProofs.v
theories/DceProps.v
theories/TyModel.v
theories/TyProofs.v
theories/MangleModel.v
theories/MangleSpec.v
theories/MangleProofs.v
theories/MangleProps.v
theories/EffectRowModel.v
theories/EffectRowSpec.v
theories/EffectRowProofs.v
theories/EffectRowProps.v
theories/PathModel.v
theories/PathSpec.v
theories/PathProofs.v
theories/PathProps.v
theories/SubstModel.v
theories/SubstSpec.v
theories/SubstProofs.v
theories/SubstProps.v
theories/UnifyModel.v
theories/UnifySpec.v
theories/UnifySound.v
theories/UnifyMono.v
theories/UnifyComplete.v
theories/UnifyFree.v
theories/UnifyProps.v
theories/LspModel.v
theories/LspSpec.v
theories/LspProofs.v
theories/LspProps.v
theories/RcLiveModel.v
theories/RcLiveSpec.v
theories/RcLiveProofs.v
theories/UnifyFresh.v
theories/RcLiveExact.v
theories/RcLiveProps.v
theories/RcInsertModel.v
theories/RcInsertSpec.v
theories/RcInsertProofs.v
theories/RcInsertProps.v
theories/RcPairModel.v
theories/RcPairSpec.v
theories/RcPairProofs.v
theories/RcPairProps.v
theories/TailResModel.v
theories/TailResSpec.v
theories/TailResProofs.v
theories/TailResProps.v
theories/ValidModel.v
theories/ValidSpec.v
theories/ValidProofs.v
theories/ValidProps.v
theories/CastModel.v
theories/CastSpec.v
theories/CastProofs.v
theories/CastMain.v
theories/CastProps.v
theories/ScfModel.v
theories/ScfSpec.v
theories/ScfSim.v
theories/ScfRun.v
theories/ScfArena.v
theories/ScfLower.v
theories/ScfExits.v
theories/ScfObl.v
theories/ScfIf.v
theories/ScfLoop.v
theories/ScfSwitch.v
theories/ScfSwitchMain.v
theories/ScfMain.v
theories/ScfOrder.v
theories/ScfClean.v
theories/ScfProps.v
theories/TextModel.v
theories/TextSpec.v
theories/TextProofs.v
theories/TextMain.v
theories/TextAlias.v
theories/TextProps.v
theories/OpTextModel.v
theories/OpTextSpec.v
theories/OpTextProofs.v
theories/OpTextMain.v
theories/OpTextModule.v
theories/OpTextProps.v
theories/AliasModel.v
theories/AliasSpec.v
theories/AliasProofs.v
theories/AliasMain.v
theories/AliasProps.v
theories/BuildModel.v
theories/BuildSpec.v
theories/BuildProofs.v
theories/BuildNames.v
theories/BuildMain.v
theories/BuildModule.v
theories/BuildStable.v
theories/BuildProps.v
theories/InlineModel.v
theories/InlineSpec.v
theories/InlineProofs.v
theories/InlineKeep.v
theories/InlineClone.v
theories/InlineVisit.v
theories/InlineMain.v
theories/InlineTerm.v
theories/InlineDone.v
theories/InlineProps.v
theories/CaseModel.v
theories/CaseSpec.v
theories/CaseProofs.v
theories/CaseMain.v
theories/CaseExhaust.v
theories/CaseProps.v
theories/ResolveModel.v
theories/ResolveSpec.v
theories/ResolveProofs.v
theories/ResolveMain.v
theories/ResolveDecls.v
theories/ResolveDone.v
theories/ResolveReport.v
theories/ResolveEnvSpec.v
theories/ResolveEnvProofs.v
theories/ResolveEnvMain.v
theories/ResolveOrder.v
theories/ResolveItems.v
theories/ResolveUse.v
theories/ResolveProps.v
theories/MonoModel.v
theories/MonoSpec.v
theories/MonoSyntax.v
theories/MonoParts.v
theories/MonoArgs.v
theories/MonoRefs.v
theories/MonoTables.v
theories/MonoRounds.v
theories/MonoMain.v
theories/MonoOrder.v
theories/MonoDone.v
theories/MonoCheck.v
theories/MonoProps.v
theories/TdnrModel.v
theories/TdnrSpec.v
theories/TdnrTypes.v
theories/TdnrIndex.v
theories/TdnrMain.v
theories/TdnrDone.v
theories/TdnrProps.v
theories/LiteralModel.v
theories/LiteralSpec.v
theories/LiteralProofs.v
theories/LiteralMain.v
theories/LiteralProps.v
theories/PreludeModel.v
theories/PreludeSpec.v
theories/PreludeIntProofs.v
theories/IntTextProps.v
theories/PreludeRopeProofs.v
theories/RopeProps.v
theories/OperatorMachine.v
theories/OperatorModel.v
theories/OperatorSpec.v
theories/OperatorProofs.v
theories/OperatorProps.v
theories/BoxModel.v
theories/BoxSpec.v
theories/BoxProofs.v
theories/BoxProps.v
theories/HandlerSyntax.v
theories/HandlerModel.v
theories/HandlerSpec.v
theories/HandlerProofs.v
theories/HandlerState.v
theories/HandlerProps.v
theories/OwnModel.v
theories/OwnSpec.v
theories/OwnProofs.v
theories/OwnMain.v
theories/OwnProps.v
theories/NormModel.v
theories/NormSpec.v
theories/NormDirectModel.v
theories/NormProofs.v
theories/NormMain.v
theories/NormDone.v
theories/NormForm.v
theories/NormTree.v
theories/NormDirectProofs.v
theories/NormCount.v
theories/NormProps.v
theories/ClosModel.v
theories/ClosSpec.v
theories/ClosPair.v
theories/ClosLift.v
theories/ClosEnter.v
theories/ClosTurn.v
theories/ClosRounds.v
theories/ClosDone.v
theories/ClosProps.v
theories/CaptureModel.v
theories/CaptureSpec.v
theories/CaptureProofs.v
theories/CaptureMain.v
theories/CaptureProps.v
theories/InferModel.v
theories/InferSpec.v
theories/UnifyFuel.v
theories/InferRun.v
theories/InferSolve.v
theories/InferFo.v
theories/InferPat.v
theories/InferSound.v
theories/InferTyped.v
theories/InferMain.v
theories/InferCheck.v
theories/InferProps.v
theories/EmitModel.v
theories/EmitSpec.v
theories/EmitProofs.v
theories/EmitSim.v
theories/EmitValid.v
theories/EmitMain.v
theories/EmitProps.v
theories/RenameModel.v
theories/RenameSpec.v
theories/RenameProofs.v
theories/RenameMain.v
theories/RenameProps.v
theories/WasmEvModel.v
theories/WasmEvSpec.v
theories/WasmEvProofs.v
theories/WasmEvProps.v
theories/RttiModel.v
theories/RttiSpec.v
theories/RttiProofs.v
theories/RttiMain.v
theories/RttiProps.v
theories/WasmIoModel.v
theories/WasmIoSpec.v
theories/WasmIoProofs.v
theories/WasmIoMain.v
theories/WasmIoProps.v
theories/AbilityIdModel.v
theories/AbilityIdSpec.v
theories/AbilityIdProofs.v
theories/AbilityIdProps.v
theories/LitConstModel.v
theories/LitConstSpec.v
theories/LitConstProofs.v
theories/LitConstProps.v
theories/ListLowModel.v
theories/ListLowSpec.v
theories/ListLowProofs.v
theories/ListLowMain.v
theories/ListLowIter.v
theories/ListLowProps.v
theories/DriverModel.v
theories/DriverSpec.v
theories/DriverProofs.v
theories/DriverProps.v
theories/DriverUses.v
theories/HoverModel.v
theories/HoverSpec.v
theories/HoverProofs.v
theories/HoverProps.v
theories/TypeTextModel.v
theories/TypeTextSpec.v
theories/TypeTextProofs.v
theories/TypeTextProps.v
theories/ListIntrinsicModel.v
theories/ListIntrinsicSpec.v
theories/ListIntrinsicProofs.v
theories/ListIntrinsicProps.v
theories/SigHelpModel.v
theories/SigHelpSpec.v
theories/SigHelpProofs.v
theories/SigHelpProps.v
theories/DiagOrderModel.v
theories/DiagOrderSpec.v
theories/DiagOrderProofs.v
theories/DiagOrderProps.v
