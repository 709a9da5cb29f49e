-Q theories Verif
theories/Words.v
theories/Spec.v
theories/WordsFacts.v
theories/LinFacts.v
theories/OrderingModel.v
theories/FallbackModel.v
theories/FallbackFacts.v
theories/FallbackProofs.v
theories/FallbackStruct.v
theories/FallbackProgress.v
theories/FallbackMain.v
theories/FallbackExtra.v
theories/PropertiesFallback.v
theories/FallbackTight.v
theories/PropertiesWindow.v
theories/FallbackFair.v
theories/PropertiesFair.v
theories/OrderSpec.v
theories/DispatchModel.v
theories/PropertiesOrdering.v
theories/LoopModel.v
theories/LoopProofs.v
theories/Halves.v
theories/AsmModel.v
theories/AsmProofs.v
theories/WideSpec.v
theories/AtomicImpls.v
theories/AtomicImplsProofs.v
theories/AsmMain.v
theories/BlockModel.v
theories/BlockProofs.v
theories/X86Model.v
theories/X86Proofs.v
theories/X86Blocks.v
theories/X86Clobber.v
theories/X86Main.v
theories/PropertiesX86.v
theories/S390xModel.v
theories/S390xProofs.v
theories/S390xBlocks.v
theories/S390xMain.v
theories/PropertiesS390x.v
theories/PowerModel.v
theories/PowerProofs.v
theories/PowerBlocks.v
theories/PowerMain.v
theories/PropertiesPower.v
theories/RustOps.v
theories/RustOpsProofs.v
theories/ZacasModel.v
theories/KuserModel.v
theories/CoreModel.v
theories/RustLoopsProofs.v
theories/UpdateSpec.v
theories/RustLoopsMain.v
theories/LoopProgress.v
theories/AsmProgress.v
theories/LockFree.v
theories/ProgressMain.v
theories/PropertiesLoops.v
theories/FrontSpec.v
theories/FrontModel.v
theories/FrontProofs.v
theories/FloatSpec.v
theories/FloatProofs.v
theories/FrontMain.v
theories/PtrModel.v
theories/PtrProofs.v
theories/FloatExists.v
theories/PropertiesFront.v
theories/PropertiesFloat.v
theories/ByteMem.v
theories/ByteMemFacts.v
theories/ByteSpec.v
theories/RiscvModel.v
theories/RiscvProofs.v
theories/RiscvMain.v
theories/IntModel.v
theories/IntProofs.v
theories/IntMain.v
theories/IntRun.v
theories/IntTop.v
theories/PropertiesRiscv.v
theories/PropertiesInt.v
theories/CsSpec.v
theories/CsModel.v
theories/CsProofs.v
theories/CsMain.v
theories/CsTop.v
theories/PropertiesCs.v
theories/UtilsModel.v
theories/EncodeModel.v
theories/EncodeSpec.v
theories/PropertiesUtils.v
theories/DetectModel.v
theories/DetectProofs.v
theories/PropertiesDetect.v
theories/BlockClobber.v
theories/Aarch64Model.v
theories/Aarch64Proofs.v
theories/Aarch64Blocks.v
theories/Aarch64Impl.v
theories/Aarch64Main.v
theories/Aarch64Clobber.v
theories/PowerClobber.v
theories/S390xClobber.v
theories/PropertiesAarch64.v
theories/WeakMem.v
theories/WeakSpec.v
theories/WeakModel.v
theories/WeakFacts.v
theories/WeakInv.v
theories/WeakFrame.v
theories/WeakLocks.v
theories/WeakSim.v
theories/WeakOpt.v
theories/WeakHeld.v
theories/WeakRel.v
theories/WeakMain.v
theories/WeakShort.v
theories/WeakUse.v
theories/ScOrder.v
theories/ScLog.v
theories/ScMain.v
theories/PropertiesWeak.v
theories/TraceSpec.v
theories/TraceModel.v
theories/TraceFacts.v
theories/TraceCheck.v
theories/TraceBackends.v
theories/TracePower.v
theories/TraceUnit.v
theories/TraceS390x.v
theories/TraceAarch64.v
theories/TraceRest.v
theories/TraceExec.v
theories/PropertiesTrace.v
theories/ConfigSpec.v
theories/ConfigTaut.v
theories/ConfigFlat.v
theories/ConfigTargets.v
theories/ConfigModel.v
theories/ConfigProofs.v
theories/ConfigMain.v
theories/PropertiesConfig.v
theories/StrModel.v
theories/StrFacts.v
theories/RustflagsModel.v
theories/RustflagsSpec.v
theories/RustflagsProofs.v
theories/PropertiesRustflags.v
theories/VersionModel.v
theories/VersionSpec.v
theories/VersionProofs.v
theories/PropertiesVersion.v
theories/BuildModel.v
theories/BuildSpec.v
theories/BuildFacts.v
theories/BuildProofs.v
theories/BuildMain.v
theories/PropertiesBuild.v
theories/PrivModel.v
theories/PrivProofs.v
theories/PrivMain.v
theories/PropertiesPriv.v
theories/IntrinsicsModel.v
theories/IntrinsicsSpec.v
theories/IntrinsicsProofs.v
theories/IntrinsicsOrder.v
theories/IntrinsicsProgress.v
theories/PropertiesIntrinsics.v
theories/EntrySpec.v
theories/EntryModel.v
theories/EntryProofs.v
theories/EntryMain.v
theories/EntryLts.v
theories/EntryLtsProofs.v
theories/PropertiesEntry.v
theories/RegModel.v
theories/RegProofs.v
theories/RegExamples.v
theories/RegPowerModel.v
theories/RegPowerProofs.v
theories/PropertiesRegsPower.v
theories/RegS390xModel.v
theories/RegS390xProofs.v
theories/PropertiesRegsS390x.v
theories/RegAarch64Model.v
theories/RegAarch64Proofs.v
theories/PropertiesRegsAarch64.v
theories/OsSpec.v
theories/OsModel.v
theories/OsProofs.v
theories/PropertiesOs.v
theories/LayoutModel.v
theories/LifeSpec.v
theories/LifeModel.v
theories/LayoutProofs.v
theories/LifeProofs.v
theories/PropertiesLife.v
theories/ClientSpec.v
theories/ClientModel.v
theories/ClientProofs.v
theories/PropertiesClient.v
theories/LayerSpec.v
theories/LayerModel.v
theories/LayerProofs.v
theories/PublicProofs.v
theories/PropertiesPublic.v
theories/SelectSpec.v
theories/SelectModel.v
theories/SelectProofs.v
theories/PropertiesSelect.v
theories/RetrySpec.v
theories/RetryProofs.v
theories/RetryMain.v
theories/PropertiesRetry.v
theories/WholeSpec.v
theories/WholeModel.v
theories/WholeProofs.v
theories/WholeConfig.v
theories/WholeLocal.v
theories/WholeMain.v
theories/PropertiesWhole.v
theories/EvalSpec.v
theories/EvalProofs.v
theories/PropertiesEval.v
theories/ProgressSpec.v
theories/ProgressProofs.v
theories/PropertiesProgress.v
theories/LayerProgressSpec.v
theories/LayerProgressProofs.v
theories/PropertiesLayerProgress.v
theories/PropertiesEverywhere.v
theories/TraitSpec.v
theories/TraitModel.v
theories/TraitProofs.v
theories/PropertiesTrait.v
