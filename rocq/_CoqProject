-Q theories Verif
theories/Outcome.v
theories/ZField.v
theories/Pocklington.v
theories/FrPrime.v
theories/Base.v
theories/Spec.v
theories/BitRev.v
theories/BitRevProofs.v
theories/FFT.v
theories/FFTProofs.v
theories/Domain.v
theories/DomainProofs.v
theories/Fr.v
theories/PolyCoeff.v
theories/PolyCoeffProofs.v
theories/PropFFT.v
theories/ExFFT.v
theories/ReedSolomon.v
theories/ReedSolomonProofs.v
theories/PropRS.v
theories/ExRS.v
theories/SpecKZG.v
theories/Lincomb.v
theories/LincombProofs.v
theories/FixedBaseMSM.v
theories/Cosets.v
theories/CosetsProofs.v
theories/Toeplitz.v
theories/ToeplitzProofs.v
theories/FK20Prover.v
theories/FK20ProverProofs.v
theories/PropFK20.v
theories/ExFK20.v
theories/Bytes.v
theories/SpecDAS.v
theories/FK20Verifier.v
theories/FK20VerifierProofs.v
theories/VerifierSoundness.v
theories/TranscriptProofs.v
theories/Eip7594.v
theories/Eip7594Proofs.v
theories/ApiProofs.v
theories/ApiRecoveryProofs.v
theories/ApiVerifyProofs.v
theories/SpecFr.v
theories/FrEnv.v
theories/ApiEip.v
theories/SpecVerify.v
theories/ApiTranscript.v
theories/PropProver.v
theories/PropRecover.v
theories/PropVerify.v
theories/ExApi.v
theories/ExVerify.v
theories/SpecMSM.v
theories/BoothProofs.v
theories/BatchAddition.v
theories/BatchAdditionProofs.v
theories/MSMProofs.v
theories/FrMsm.v
theories/SpecTables.v
theories/ApiTables.v
theories/PropMSM.v
theories/Cusp.v
theories/ExMSM.v
theories/Rayon.v
theories/RayonProofs.v
theories/RayonApi.v
theories/RayonApiProofs.v
theories/PropPar.v
theories/ExPar.v
theories/TrustedSetup.v
theories/SpecSetup.v
theories/TrustedSetupProofs.v
theories/PropSetup.v
theories/ExSetup.v
theories/CMem.v
theories/CApi.v
theories/SpecC.v
theories/CProofs.v
theories/CCallProofs.v
theories/PropC.v
theories/ExC.v
theories/Managed.v
theories/ManagedProofs.v
theories/PropManaged.v
theories/ExManaged.v
theories/JavaLife.v
theories/SpecJava.v
theories/JavaProofs.v
theories/PropJava.v
theories/ExJava.v
theories/CsApi.v
theories/SpecCs.v
theories/CsProofs.v
theories/CsMoved.v
theories/PropCs.v
theories/ExCs.v
theories/CsLife.v
theories/SpecCsLife.v
theories/CsLifeProofs.v
theories/PropCsLife.v
theories/ExCsLife.v
theories/GoApi.v
theories/PropGo.v
theories/ExGo.v
theories/Naive.v
theories/NaiveProofs.v
theories/PropNaive.v
theories/ExNaive.v
theories/PropCReal.v
theories/ExCReal.v
theories/Ctor.v
theories/PropCtor.v
theories/ExCtor.v
theories/NimApi.v
theories/NimProofs.v
theories/PropNim.v
theories/ExNim.v
theories/SpecConsensus.v
theories/ConsensusProofs.v
theories/ConsensusApi.v
theories/PropConsensus.v
theories/ExConsensus.v
theories/PropCodec.v
theories/ExCodec.v
theories/Jni.v
theories/SpecJni.v
theories/JniProofs.v
theories/CapProofs.v
theories/PropJni.v
theories/ExJni.v
theories/Node.v
theories/SpecNode.v
theories/NodeProofs.v
theories/PropNode.v
theories/ExNode.v
theories/SoundnessAlg.v
theories/PropSound.v
theories/ExSound.v
theories/Reduce.v
theories/PropChallenge.v
theories/ExChallenge.v
theories/Debug.v
theories/SpecDebug.v
theories/DebugProofs.v
theories/PropDebug.v
theories/ExDebug.v
theories/PropDebugMsg.v
theories/ExDebugMsg.v
theories/JavaLoad.v
theories/SpecLoad.v
theories/JavaLoadProofs.v
theories/PropLoad.v
theories/ExLoad.v
theories/BlstMSM.v
theories/PropBlstMSM.v
theories/ExBlstMSM.v
theories/SpecAgree.v
theories/AgreeProofs.v
theories/PropAgree.v
theories/PropAgreeReal.v
theories/ExAgree.v
theories/CThreads.v
theories/SpecThreads.v
theories/ThreadsProofs.v
theories/ThreadsRun.v
theories/ThreadsCode.v
theories/ThreadsCanon.v
theories/PropThreads.v
theories/VerdictProofs.v
theories/PropVerdict.v
theories/PropThreadsReal.v
theories/ExThreads.v
theories/Abi.v
theories/PropAbi.v
theories/ExAbi.v
theories/PropConsensusTables.v
theories/ExConsensusTables.v
theories/Platform.v
theories/SpecPlatform.v
theories/PropPlatform.v
theories/ExPlatform.v
theories/Shared.v
theories/SharedApi.v
theories/SpecShared.v
theories/SharedProofs.v
theories/PropShared.v
theories/ExShared.v
theories/PropSizes.v
theories/ExSizes.v
