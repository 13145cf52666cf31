-Q theories Verif
theories/Lib/Base.v
theories/Lib/Rat.v
theories/Lib/Str.v
theories/Model/A3c.v
theories/Model/ActorCritic.v
theories/Model/Apex.v
theories/Model/Ars.v
theories/Model/ArsActors.v
theories/Model/ArsSync.v
theories/Model/Assigner.v
theories/Model/AutoConfig.v
theories/Model/Buffer.v
theories/Model/BufferInit.v
theories/Model/CheckHooks.v
theories/Model/Checker.v
theories/Model/Collective.v
theories/Model/ConfLoad.v
theories/Model/Config.v
theories/Model/Construct.v
theories/Model/DdpInit.v
theories/Model/DistBuffer.v
theories/Model/DistConc.v
theories/Model/Dqn.v
theories/Model/EpisodeSample.v
theories/Model/Event.v
theories/Model/Finalize.v
theories/Model/FrameOptim.v
theories/Model/GradServer.v
theories/Model/GymData.v
theories/Model/Helper.v
theories/Model/JitCall.v
theories/Model/Launch.v
theories/Model/LearningRate.v
theories/Model/LoadSave.v
theories/Model/Losses.v
theories/Model/Maddpg.v
theories/Model/MaddpgLoss.v
theories/Model/MediaConv.v
theories/Model/MediaLog.v
theories/Model/MediaProc.v
theories/Model/NetModule.v
theories/Model/Noise.v
theories/Model/OnPolicy.v
theories/Model/P2PQueue.v
theories/Model/ParallelEnv.v
theories/Model/ParamNoise.v
theories/Model/Pickle.v
theories/Model/Pool.v
theories/Model/PoolProxy.v
theories/Model/PrioConc.v
theories/Model/PrioritizedBuffer.v
theories/Model/ProbCheck.v
theories/Model/ResNet.v
theories/Model/Resolve.v
theories/Model/Returns.v
theories/Model/RnnBuffer.v
theories/Model/SafeCall.v
theories/Model/SampleAlias.v
theories/Model/SaveEnv.v
theories/Model/ServerHelp.v
theories/Model/Servers.v
theories/Model/SharedMem.v
theories/Model/SimpleQueue.v
theories/Model/SizeEstimate.v
theories/Model/Spawn.v
theories/Model/StateDict.v
theories/Model/StepSync.v
theories/Model/StoreCopy.v
theories/Model/Target.v
theories/Model/ThreadPool.v
theories/Model/Transition.v
theories/Model/TrialName.v
theories/Model/Trpo.v
theories/Model/TrpoDirect.v
theories/Model/TrpoFvp.v
theories/Model/UpdateEmpty.v
theories/Model/UpdateTrace.v
theories/Model/Watch.v
theories/Model/WeightTree.v
theories/Model/World.v
theories/Spec/ArsSpec.v
theories/Spec/BufferSpec.v
theories/Spec/DistSpec.v
theories/Spec/EventSpec.v
theories/Spec/LoadSaveSpec.v
theories/Spec/LossesSpec.v
theories/Spec/MaddpgSpec.v
theories/Spec/ParallelEnvSpec.v
theories/Spec/ParamNoiseSpec.v
theories/Spec/PoolSpec.v
theories/Spec/PrioritizedSpec.v
theories/Spec/ReturnsSpec.v
theories/Spec/RnnSpec.v
theories/Spec/SafeCallSpec.v
theories/Spec/ServerSpec.v
theories/Spec/TargetSpec.v
theories/Spec/TransitionSpec.v
theories/Spec/WeightTreeSpec.v
theories/Spec/WorldSpec.v
theories/Proofs/ArsSelectProofs.v
theories/Proofs/ArsStatProofs.v
theories/Proofs/BarrierProofs.v
theories/Proofs/BufferDict.v
theories/Proofs/BufferProofs.v
theories/Proofs/CreateProofs.v
theories/Proofs/CtxPoolProofs.v
theories/Proofs/DistGroupProofs.v
theories/Proofs/DistProofs.v
theories/Proofs/EventProofs.v
theories/Proofs/GradServerProofs.v
theories/Proofs/LoadSaveProofs.v
theories/Proofs/LossTargetProofs.v
theories/Proofs/MaddpgProofs.v
theories/Proofs/ParallelEnvProofs.v
theories/Proofs/ParamNoiseProofs.v
theories/Proofs/PoolFacts.v
theories/Proofs/PoolProofs.v
theories/Proofs/PoolSysProofs.v
theories/Proofs/PrioritizedProofs.v
theories/Proofs/ProjectProofs.v
theories/Proofs/ReturnsProofs.v
theories/Proofs/RnnPrioProofs.v
theories/Proofs/RnnProofs.v
theories/Proofs/ServerProofs.v
theories/Proofs/TransitionProofs.v
theories/Proofs/TrpoProofs.v
theories/Proofs/VtraceProofs.v
theories/Proofs/WeightTreeProofs.v
theories/Proofs/WorldHold.v
theories/Proofs/WorldProofs.v
theories/Props/PropsA3c.v
theories/Props/PropsActorCritic.v
theories/Props/PropsApex.v
theories/Props/PropsArs.v
theories/Props/PropsArsActors.v
theories/Props/PropsArsSync.v
theories/Props/PropsAssigner.v
theories/Props/PropsAutoConfig.v
theories/Props/PropsBuffer.v
theories/Props/PropsBufferInit.v
theories/Props/PropsCheckHooks.v
theories/Props/PropsChecker.v
theories/Props/PropsCollective.v
theories/Props/PropsConfLoad.v
theories/Props/PropsConfig.v
theories/Props/PropsConstruct.v
theories/Props/PropsDdpInit.v
theories/Props/PropsDist.v
theories/Props/PropsDistConc.v
theories/Props/PropsDqn.v
theories/Props/PropsEpisodeSample.v
theories/Props/PropsErrors.v
theories/Props/PropsEvent.v
theories/Props/PropsFinalize.v
theories/Props/PropsFrameOptim.v
theories/Props/PropsGradServer.v
theories/Props/PropsGym.v
theories/Props/PropsHelper.v
theories/Props/PropsInitPrio.v
theories/Props/PropsJitCall.v
theories/Props/PropsLaunch.v
theories/Props/PropsLearningRate.v
theories/Props/PropsLoadSave.v
theories/Props/PropsLosses.v
theories/Props/PropsMaddpg.v
theories/Props/PropsMaddpgLoss.v
theories/Props/PropsMediaConv.v
theories/Props/PropsMediaLog.v
theories/Props/PropsMediaProc.v
theories/Props/PropsNetModule.v
theories/Props/PropsNoise.v
theories/Props/PropsOnPolicy.v
theories/Props/PropsP2PQueue.v
theories/Props/PropsParallelEnv.v
theories/Props/PropsParamNoise.v
theories/Props/PropsPickle.v
theories/Props/PropsPool.v
theories/Props/PropsPoolProxy.v
theories/Props/PropsPoolTerm.v
theories/Props/PropsPrioConc.v
theories/Props/PropsPrioritized.v
theories/Props/PropsProbCheck.v
theories/Props/PropsResNet.v
theories/Props/PropsResolve.v
theories/Props/PropsReturns.v
theories/Props/PropsRnn.v
theories/Props/PropsSafeCall.v
theories/Props/PropsSampleAlias.v
theories/Props/PropsSaveEnv.v
theories/Props/PropsServerHelp.v
theories/Props/PropsServers.v
theories/Props/PropsSharedMem.v
theories/Props/PropsSimpleQueue.v
theories/Props/PropsSizeEstimate.v
theories/Props/PropsSpawn.v
theories/Props/PropsStateDict.v
theories/Props/PropsStepSync.v
theories/Props/PropsStoreCopy.v
theories/Props/PropsThreadPool.v
theories/Props/PropsTransition.v
theories/Props/PropsTrialName.v
theories/Props/PropsTrpo.v
theories/Props/PropsTrpoDirect.v
theories/Props/PropsTrpoFvp.v
theories/Props/PropsUpdateEmpty.v
theories/Props/PropsUpdateTrace.v
theories/Props/PropsWatch.v
theories/Props/PropsWeightTree.v
theories/Props/PropsWorld.v
theories/Props/PropsWorldCopy.v
