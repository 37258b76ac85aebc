-Q theories Verif
theories/Zp.v
theories/GF.v
theories/Circuit.v
theories/Goldilocks.v
theories/GLProofs.v
theories/ExtProofs.v
theories/PoseidonGLConst.v
theories/LinAlg.v
theories/Sparse.v
theories/PoseidonSpec.v
theories/PoseidonGL.v
theories/PoseidonGLProofs.v
theories/Sponge.v
theories/PoseidonExt.v
theories/Prop_Base.v
theories/Prop_Poseidon.v
theories/BN254Const.v
theories/Fr.v
theories/BN254Spec.v
theories/BN254.v
theories/BN254Proofs.v
theories/BN254Hash.v
theories/Prop_BN254.v
theories/DenP.v
theories/Types.v
theories/Challenger.v
theories/ChallengerProofs.v
theories/ChallengerPhases.v
theories/Transcript.v
theories/ChallengerTop.v
theories/Prop_Challenger.v
theories/Poly.v
theories/Roots.v
theories/Interp.v
theories/Prop_Interp.v
theories/Fri.v
theories/FriMerkle.v
theories/FriEval.v
theories/FriQuery.v
theories/FriTop.v
theories/FriFacts.v
theories/Prop_Fri.v
theories/Gates.v
theories/GateProofs.v
theories/GateCoset.v
theories/GatePoseidon.v
theories/GateFilter.v
theories/GateAll.v
theories/Prop_Gates.v
theories/Plonk.v
theories/PlonkProofs.v
theories/Prop_Plonk.v
theories/GateIds.v
theories/GateIdProofs.v
theories/GateIdText.v
theories/Prop_GateIds.v
theories/Verifier.v
theories/VerifierProofs.v
theories/Prop_Verifier.v
theories/Malleable.v
theories/Prop_Malleable.v
theories/Prop_Forgery.v
theories/RangeModes.v
theories/RangeProofs.v
theories/Prop_Range.v
theories/Widths.v
theories/Prop_Modes.v
theories/Deser.v
theories/DeserProofs.v
theories/Prop_Deser.v
theories/Prop_Config.v
theories/Honest.v
theories/Prop_Honest.v
theories/FriSound.v
theories/FriRewind.v
theories/FriExtract.v
theories/Prop_FriSound.v
theories/GateDegree.v
theories/PlonkSound.v
theories/PlonkRows.v
theories/PlonkCopy.v
theories/Prop_GateDegree.v
theories/Prop_PlonkSound.v
theories/VerifierSound.v
theories/Prop_VerifierSound.v
theories/GateBase.v
theories/ProverPoly.v
theories/PlonkProver.v
theories/Complete.v
theories/Prop_Complete.v
theories/TrustedSetup.v
theories/Prop_TrustedSetup.v
theories/Benchmark.v
theories/Prop_Benchmark.v
theories/Prop_Resplit.v
theories/Pocklington.v
theories/PoseidonPerm.v
theories/Prop_PoseidonPerm.v
theories/Binding.v
theories/Prop_Binding.v
theories/Alias.v
theories/Prop_Alias.v
theories/GoSlice.v
theories/Prop_GoSlice.v
theories/Schema.v
theories/SchemaProofs.v
theories/Prop_Schema.v
theories/Wires.v
theories/WiresProofs.v
theories/WiresLayout.v
theories/Prop_Wires.v
theories/Config64.v
theories/Config64Proofs.v
theories/Prop_Config64.v
theories/FriForge.v
theories/Prop_FriForge.v
theories/ForgeAll.v
theories/Prop_ForgeAll.v
theories/Uniform.v
theories/UniformAll.v
theories/Prop_Uniform.v
theories/Prop_Key.v
theories/Prop_FriQuery.v
theories/FriCurve.v
theories/FriProx.v
theories/FriError.v
theories/Game.v
theories/Prop_FriError.v
theories/VerifierError.v
theories/Prop_VerifierError.v
theories/Prop_VerifierPow.v
theories/PoseidonFast.v
theories/ForgeSbox.v
theories/ForgeFast.v
theories/Prop_ForgeSbox.v
theories/Prop_ForgeGame.v
theories/RandomOracle.v
theories/FiatShamir.v
theories/Prop_FiatShamir.v
theories/SpongeOracle.v
theories/Prop_SpongeOracle.v
theories/TestData.v
theories/Prop_TestData.v
theories/Prop_Shape.v
theories/Requests.v
theories/Prop_Requests.v
theories/Census.v
theories/Prop_Census.v
theories/Repair.v
theories/Prop_Repair.v
