-Q theories Verif

theories/Base.v
theories/Group.v
theories/DataStructures.v
theories/Generator.v
theories/Commit.v
theories/Statement.v
theories/Derived.v
theories/Prove.v
theories/Verify.v
theories/BaseLemmas.v
theories/MatLemmas.v
theories/CoreAlg.v
theories/ComLemmas.v
theories/ProveLemmas.v
theories/CommitLemmas.v
theories/VerifyLemmas.v
theories/Spec.v
theories/Holds.v
theories/Complete.v
theories/Sound.v
theories/Concrete.v
theories/Main.v
theories/Extract.v
theories/CapLemmas.v
theories/CapRefuted.v
theories/SoundGen.v
theories/SpecApi.v
theories/Draws.v
theories/CommitProps.v
theories/ApiLemmas.v
theories/Concrete2.v
theories/Concrete25.v
theories/Concrete26.v
theories/P_Complete.v
theories/P_Sound.v
theories/P_Commit.v
theories/SpecMat.v
theories/MatProps.v
theories/MatInst.v
theories/Concrete24.v
theories/P_Mat.v
theories/SpecCom.v
theories/ComProps.v
theories/P_Com.v
theories/GenProps.v
theories/P_Gen.v
theories/SpecVerify.v
theories/VProps.v
theories/P_Verify.v
theories/Codec.v
theories/SpecCodec.v
theories/CodecLemmas.v
theories/CodecProps.v
theories/Concrete3.v
theories/P_Codec.v
theories/HideCore.v
theories/HideTape.v
theories/RerandCore.v
theories/SpecHide.v
theories/Hiding.v
theories/HideProps.v
theories/Concrete4.v
theories/P_Hide.v
theories/SpecSxdh.v
theories/Sxdh.v
theories/Concrete5.v
theories/P_Sxdh.v
theories/EqProps.v
theories/SchedProps.v
theories/P_Eq.v
theories/SpecMulti.v
theories/SpecRerand.v
theories/MultiLemmas.v
theories/MultiProps.v
theories/Concrete6.v
theories/Concrete27.v
theories/P_Multi.v
theories/Rerand.v
theories/RerandProps.v
theories/Concrete7.v
theories/P_Rerand.v
theories/Exist.v
theories/ExistProps.v
theories/DocProps.v
theories/P_Exist.v
theories/SpecKeys.v
theories/Keys.v
theories/KeysProps.v
theories/Concrete8.v
theories/P_Keys.v
theories/SpecPanic.v
theories/PanicLemmas.v
theories/PanicSteps.v
theories/PanicProps.v
theories/PanicProve0.v
theories/PanicProve.v
theories/P_Panic.v
theories/RngState.v
theories/SpecRng.v
theories/RngLemmas.v
theories/P_RngState.v
theories/SpecFormula.v
theories/FormulaLemmas.v
theories/FormulaProps.v
theories/P_Formula.v
theories/SpecCodec2.v
theories/Codec2Lemmas.v
theories/Concrete9.v
theories/P_Codec2.v
theories/Suite.v
theories/SuiteLemmas.v
theories/SuiteLemmas2.v
theories/SuiteLemmas3.v
theories/SuiteLemmas4.v
theories/Concrete10.v
theories/P_Suite.v
theories/Bench.v
theories/BenchLemmas.v
theories/P_Bench.v
theories/SpecError.v
theories/ErrorLemmas.v
theories/P_Error.v
theories/SpecTrap.v
theories/TrapLemmas.v
theories/P_Trap.v
theories/SpecType3.v
theories/Type3Lemmas.v
theories/Concrete11.v
theories/P_Type3.v
theories/SpecNec.v
theories/NecLemmas.v
theories/Concrete12.v
theories/P_Nec.v
theories/Ark.v
theories/SpecArk.v
theories/ArkRel.v
theories/ArkLemmas.v
theories/ArkAll.v
theories/ArkTransfer.v
theories/ArkShift.v
theories/Concrete13.v
theories/Concrete28.v
theories/P_Ark.v
theories/ArkCodec.v
theories/SpecWire.v
theories/WireLemmas.v
theories/WireProps.v
theories/Concrete14.v
theories/P_Wire.v
theories/SpecArkGame.v
theories/ArkGame.v
theories/Concrete15.v
theories/P_ArkGame.v
theories/SpecArkZk.v
theories/ArkZk.v
theories/P_ArkZk.v
theories/SpecAdaptive.v
theories/Adaptive.v
theories/Concrete16.v
theories/P_Adaptive.v
theories/SpecPad.v
theories/PadLemmas.v
theories/PadProps.v
theories/Concrete17.v
theories/P_Pad.v
theories/SpecArkMulti.v
theories/ArkMulti.v
theories/Concrete18.v
theories/P_ArkMulti.v
theories/SpecPrg.v
theories/PrgLemmas.v
theories/PrgProps.v
theories/Concrete19.v
theories/P_Prg.v
theories/CodecAlloc.v
theories/SpecAlloc.v
theories/AllocLemmas.v
theories/AllocProps.v
theories/Concrete20.v
theories/P_Alloc.v
theories/SpecTrace.v
theories/TraceLemmas.v
theories/TraceCost.v
theories/TraceProps.v
theories/Concrete21.v
theories/P_Trace.v
theories/SpecReuse.v
theories/ReuseProps.v
theories/P_Reuse.v
theories/SpecTwice.v
theories/TwiceProps.v
theories/Formats.v
theories/SpecFormats.v
theories/FormatsLemmas.v
theories/FormatsProps.v
theories/Concrete22.v
theories/Concrete23.v
theories/P_Twice.v
theories/P_Formats.v
theories/SpecTamper.v
theories/TamperLemmas.v
theories/TamperProps.v
theories/P_Tamper.v
theories/MallProps.v
theories/P_Mall.v
theories/SpecStrip.v
theories/StripProps.v
theories/P_Strip.v
theories/FibreProps.v
theories/Concrete29.v
theories/P_Fibre.v
theories/SpecBij.v
theories/BijCore.v
theories/BijStages.v
theories/BijProps.v
theories/P_Bij.v
theories/SpecArkBij.v
theories/ArkBij.v
theories/P_ArkBij.v
theories/SpecGen.v
theories/GenInv.v
theories/FibreCom.v
theories/Concrete30.v
theories/P_FibreCom.v
theories/RunCore.v
theories/RunAlg.v
theories/SpecRun.v
theories/RunProps.v
theories/RunThms.v
theories/RunCount.v
theories/Concrete31.v
theories/P_Run.v
theories/SpecArkRun.v
theories/ArkRun.v
theories/Concrete32.v
theories/P_ArkRun.v
theories/ArkFibre.v
theories/Concrete33.v
theories/P_ArkFibre.v
theories/OutputProps.v
theories/P_Output.v
theories/SpecMirror.v
theories/MirrorProps.v
theories/P_Mirror.v
theories/MirrorRun.v
theories/P_MirrorRun.v
theories/SpecKnown.v
theories/KnownProps.v
theories/KnownYProps.v
theories/Concrete34.v
theories/P_Known.v
theories/P_KnownY.v
theories/SpecSubst.v
theories/SubstProps.v
theories/SubstHold.v
theories/Concrete35.v
theories/P_Subst.v
