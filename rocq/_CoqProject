-Q theories Verif
theories/Base/Arr.v
theories/Base/Exn.v
theories/Base/Lift.v
theories/Base/Num.v
theories/Base/RSum.v
theories/Model/AlphaStable.v
theories/Model/Api.v
theories/Model/Bivariate.v
theories/Model/Cache.v
theories/Model/Changepoint.v
theories/Model/CustomOM.v
theories/Model/Getters.v
theories/Model/Helper.v
theories/Model/Hyper.v
theories/Model/HyperParams.v
theories/Model/JeffreysAR1.v
theories/Model/ObsModels.v
theories/Model/Online.v
theories/Model/OnlineGetters.v
theories/Model/Optimize.v
theories/Model/OptimizeStart.v
theories/Model/Parser.v
theories/Model/Simulate.v
theories/Model/Study.v
theories/Model/Tm.v
theories/Proof/AlphaProof.v
theories/Proof/ArProof.v
theories/Proof/BivProof.v
theories/Proof/BwdGeneral.v
theories/Proof/CacheProof.v
theories/Proof/ChangeProof.v
theories/Proof/ClashProof.v
theories/Proof/DataProof.v
theories/Proof/DataUnitsProof.v
theories/Proof/Duration.v
theories/Proof/EquivProof.v
theories/Proof/FactorProof.v
theories/Proof/FisherProof.v
theories/Proof/FitCore.v
theories/Proof/FitInv.v
theories/Proof/FitLinear.v
theories/Proof/FitResults.v
theories/Proof/FitThms.v
theories/Proof/Gauss.v
theories/Proof/GaussInt.v
theories/Proof/Good.v
theories/Proof/GridProof.v
theories/Proof/HmmProof.v
theories/Proof/HyperFactor.v
theories/Proof/HyperFit.v
theories/Proof/HyperMarg.v
theories/Proof/HyperProof.v
theories/Proof/IndepProof.v
theories/Proof/InferProof.v
theories/Proof/KernelProof.v
theories/Proof/LikOnlyProof.v
theories/Proof/LogProof.v
theories/Proof/MarginalProof.v
theories/Proof/MirrorProof.v
theories/Proof/NamesProof.v
theories/Proof/OnlineFixed.v
theories/Proof/OnlineHistory.v
theories/Proof/OnlineProof.v
theories/Proof/OnlineReal.v
theories/Proof/OptProof.v
theories/Proof/OriginHyper.v
theories/Proof/OriginProof.v
theories/Proof/ParserDist.v
theories/Proof/ParserLoad.v
theories/Proof/ParserPairs.v
theories/Proof/ParserProof.v
theories/Proof/ParserReject.v
theories/Proof/PriorProof.v
theories/Proof/SetupProof.v
theories/Proof/SmoothProof.v
theories/Proof/SplitProof.v
theories/Proof/StableKernel.v
theories/Proof/StaticProof.v
theories/Proof/TransProof.v
theories/Proof/UnitsProof.v
theories/Proof/WalkProof.v
theories/Props/AlphaStable.v
theories/Props/ArrayPrior.v
theories/Props/Assumptions.v
theories/Props/Batch.v
theories/Props/Cache.v
theories/Props/Change.v
theories/Props/Changepoint.v
theories/Props/Constructors.v
theories/Props/Custom.v
theories/Props/DataUnits.v
theories/Props/Defaults.v
theories/Props/Equivalent.v
theories/Props/Evidence.v
theories/Props/Ex.v
theories/Props/ExR.v
theories/Props/Factors.v
theories/Props/Few.v
theories/Props/HyperFactors.v
theories/Props/HyperMarginal.v
theories/Props/HyperParameters.v
theories/Props/HyperStudy.v
theories/Props/Inference.v
theories/Props/Jeffreys.v
theories/Props/JeffreysAR1.v
theories/Props/Leftover.v
theories/Props/Mirror.v
theories/Props/Observation.v
theories/Props/Online.v
theories/Props/OnlineGetters.v
theories/Props/OnlineSetup.v
theories/Props/OnlineStream.v
theories/Props/Optimize.v
theories/Props/Origin.v
theories/Props/Parameters.v
theories/Props/Parser.v
theories/Props/ParserErrors.v
theories/Props/ParserHyper.v
theories/Props/ParserStudy.v
theories/Props/Prior.v
theories/Props/Refusals.v
theories/Props/Repeat.v
theories/Props/Setting.v
theories/Props/Setup.v
theories/Props/Shifted.v
theories/Props/Simulate.v
theories/Props/Transition.v
theories/Props/Units.v
theories/Spec/AlphaSpec.v
theories/Spec/ArSpec.v
theories/Spec/BivSpec.v
theories/Spec/CacheSpec.v
theories/Spec/ChangeSpec.v
theories/Spec/Config.v
theories/Spec/CustomSpec.v
theories/Spec/Data.v
theories/Spec/DataUnits.v
theories/Spec/DefaultSpec.v
theories/Spec/Dist.v
theories/Spec/Equiv.v
theories/Spec/Factors.v
theories/Spec/Fisher.v
theories/Spec/Hmm.v
theories/Spec/HyperSpec.v
theories/Spec/Kernel.v
theories/Spec/LikOnly.v
theories/Spec/Marginal.v
theories/Spec/Mirror.v
theories/Spec/Names.v
theories/Spec/ObsSpec.v
theories/Spec/OnlineSpec.v
theories/Spec/OptSpec.v
theories/Spec/Origin.v
theories/Spec/ParserSpec.v
theories/Spec/Shifted.v
theories/Spec/Trans.v
theories/Spec/Units.v
theories/Spec/WalkSpec.v
