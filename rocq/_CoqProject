-Q theories Verif
theories/Base.v
theories/Preprocessing.v
theories/BaseFacts.v
theories/SpecBase.v
theories/PreprocessingFacts.v
theories/WindowFacts.v
theories/Binary64.v
theories/Binary64Facts.v
theories/ExampleTools.v
theories/PropertiesPreprocessing.v
theories/Converters.v
theories/ConvertersFacts.v
theories/PropertiesConverters.v
theories/BigSum.v
theories/SpecMat.v
theories/MatFacts.v
theories/Filters.v
theories/Cepstral.v
theories/MelBanks.v
theories/CepstralFacts.v
theories/SpecFilters.v
theories/FiltersFacts.v
theories/PropertiesCepstral.v
theories/SpecBanks.v
theories/MelBanksFacts.v
theories/MelBanksMore.v
theories/PropertiesMelBanks.v
theories/BarkBank.v
theories/Cplx.v
theories/CplxFacts.v
theories/Gammatone.v
theories/GammatoneFacts.v
theories/BarkFacts.v
theories/BarkMore.v
theories/PropertiesBark.v
theories/PropertiesGammatone.v
theories/Fourier.v
theories/Features.v
theories/SpecFeatures.v
theories/DctFacts.v
theories/Extractors.v
theories/FeaturesFacts.v
theories/FeaturesMore.v
theories/FeaturesLaws.v
theories/FeaturesPhase.v
theories/ExampleFeatures.v
theories/PropertiesDct.v
theories/PropertiesFeatures.v
theories/LinAlg.v
theories/Lpc.v
theories/SpecLpc.v
theories/LpcFacts.v
theories/LpcTheory.v
theories/LpcMore.v
theories/LpcLaws.v
theories/ExampleLpc.v
theories/PropertiesLpc.v
theories/Yin.v
theories/SpecYin.v
theories/YinFacts.v
theories/PropertiesYin.v
theories/Dominant.v
theories/SpFeats.v
theories/SpecSpectral.v
theories/DominantFacts.v
theories/PropertiesDominant.v
theories/Butter.v
theories/ButterFacts.v
theories/ButterResponse.v
theories/ButterGain.v
theories/SpecButter.v
theories/ButterLaws.v
theories/PropertiesButter.v
theories/RoundedCeps.v
theories/SpecRoundedCeps.v
theories/RoundedCepsLaws.v
theories/RoundedCepsEnd.v
theories/PropertiesRoundedCeps.v
theories/RoundedDominant.v
theories/SpecRoundedDominant.v
theories/RoundedDominantLaws.v
theories/RoundedDominantCases.v
theories/PropertiesRoundedDominant.v
theories/Ieee.v
theories/SpecIeee.v
theories/IeeeFacts.v
theories/IeeeLaws.v
theories/IeeeCases.v
theories/PropertiesIeee.v
theories/SpecIeeeEnd.v
theories/IeeeEnd.v
theories/IeeeEndRun.v
theories/IeeeEndCases.v
theories/PropertiesIeeeEnd.v
theories/SpFeatsFacts.v
theories/PropertiesSpFeats.v
theories/Cqt.v
theories/SpecCqt.v
theories/CqtFacts.v
theories/PropertiesCqt.v
theories/Pncc.v
theories/SpecPncc.v
theories/PnccNames.v
theories/PnccFacts.v
theories/PnccMore.v
theories/ExamplePncc.v
theories/PropertiesPncc.v
theories/Rplp.v
theories/SpecRplp.v
theories/RplpNames.v
theories/RplpFacts.v
theories/RplpLaws.v
theories/RplpSilence.v
theories/ExampleRplp.v
theories/PropertiesRplp.v
theories/Vis.v
theories/SpecVis.v
theories/VisFacts.v
theories/PropertiesVis.v
theories/LpcPcm.v
theories/SpecPcm.v
theories/PcmFacts.v
theories/PropertiesPcm.v
theories/Rounded.v
theories/SpecRounded.v
theories/RoundedFacts.v
theories/RoundedLaws.v
theories/RoundedWindows.v
theories/PropertiesRounded.v
theories/InvarianceFacts.v
theories/SpecInvariance.v
theories/InvarianceMore.v
theories/InvarianceLaws.v
theories/PropertiesInvariance.v
theories/SpecMemory.v
theories/Memory.v
theories/MemoryFacts.v
theories/MemoryLaws.v
theories/MemoryMore.v
theories/MemoryClient.v
theories/MemoryRuns.v
theories/MemoryLoops.v
theories/MemoryMoreFacts.v
theories/MemoryHistory.v
theories/MemoryThreads.v
theories/MemoryAlias.v
theories/PropertiesMemory.v
theories/Channels.v
theories/SpecChannels.v
theories/ChannelsFacts.v
theories/PropertiesChannels.v
theories/RoundedPncc.v
theories/RoundedPnccFacts.v
theories/PnccJump.v
theories/PropertiesRoundedPncc.v
theories/RoundedBanks.v
theories/RoundedBanksFacts.v
theories/RoundedBanksError.v
theories/RoundedMel.v
theories/PropertiesRoundedBanks.v
theories/RoundedYin.v
theories/SpecRoundedYin.v
theories/RoundedYinFacts.v
theories/RoundedYinMore.v
theories/RoundedYinLaws.v
theories/RoundedYinCases.v
theories/RoundedYinEnd.v
theories/RoundedYinStable.v
theories/PropertiesRoundedYin.v
theories/SpecFft.v
theories/FftFacts.v
theories/FftEnd.v
theories/PropertiesFft.v
theories/SpecDefaults.v
theories/DefaultFacts.v
theories/PropertiesDefaults.v
theories/RoundedRasta.v
theories/SpecRoundedRasta.v
theories/RoundedRastaFacts.v
theories/PropertiesRoundedRasta.v
theories/SpecOptions.v
theories/OptionFacts.v
theories/StabilityFacts.v
theories/RoundedNormal.v
theories/SpecRoundedNormal.v
theories/RoundedNormalFacts.v
theories/PropertiesStability.v
theories/PropertiesRoundedNormal.v
theories/RoundedBark.v
theories/SpecRoundedBark.v
theories/RoundedBarkFacts.v
theories/PropertiesRoundedBark.v
theories/RoundedLift.v
theories/SpecRoundedLift.v
theories/RoundedLiftFacts.v
theories/PropertiesRoundedLift.v
theories/SpecNoise.v
theories/NoiseFacts.v
theories/PropertiesNoise.v
theories/SpecUnits.v
theories/UnitsFacts.v
theories/PropertiesUnits.v
theories/SpecTone.v
theories/ToneFacts.v
theories/PropertiesTone.v
theories/YinToneFacts.v
theories/PropertiesYinTone.v
theories/ToneNoiseFacts.v
theories/PropertiesToneNoise.v
theories/SpecHum.v
theories/HumFacts.v
theories/PropertiesHum.v
theories/SpecBudget.v
theories/BudgetFacts.v
theories/PropertiesBudget.v
theories/SpecColour.v
theories/ColourFacts.v
theories/PropertiesColour.v
theories/SpecLevinson.v
theories/LevinsonFacts.v
theories/PredictorFacts.v
theories/PropertiesLevinson.v
theories/PropertiesPredictor.v
theories/SpecBroken.v
theories/YinBroken.v
theories/PropertiesBroken.v
theories/ChannelsMore.v
theories/SpecChannelsMore.v
theories/ChannelsMoreFacts.v
theories/PropertiesChannelsMore.v
theories/SpecShift.v
theories/ShiftFacts.v
theories/PropertiesShift.v
theories/SpecContract.v
theories/ContractFacts.v
theories/PropertiesContract.v
theories/SpecFeatsNoise.v
theories/FeatsNoiseFacts.v
theories/PropertiesFeatsNoise.v
theories/SpecPeriodic.v
theories/PeriodicFacts.v
theories/PropertiesPeriodic.v
theories/SpecCqtSeen.v
theories/CqtSeenFacts.v
theories/PropertiesCqtSeen.v
theories/SpecLoud.v
theories/LoudFacts.v
theories/PropertiesLoud.v
theories/SameBankFacts.v
theories/PropertiesSameBank.v
theories/PhaseNearFacts.v
theories/PhaseJumpFacts.v
theories/PropertiesPhaseNear.v
theories/PlpNearFacts.v
theories/PlpLevelFacts.v
theories/PropertiesPlpNear.v
theories/SpecRoundedScales.v
theories/RoundedScales.v
theories/RoundedScalesFacts.v
theories/PropertiesRoundedScales.v
theories/ZwickerFacts.v
theories/PropertiesZwicker.v
theories/SpecCqccNear.v
theories/CqccNearFacts.v
theories/PropertiesCqccNear.v
theories/SpecCqtTone.v
theories/CqtToneFacts.v
theories/PropertiesCqtTone.v
theories/SpecPreMoved.v
theories/PreMovedFacts.v
theories/PropertiesPreMoved.v
theories/SpecOutcome.v
theories/OutcomeFacts.v
theories/ExceptionFacts.v
theories/OutcomeMore.v
theories/PropertiesOutcome.v
theories/SpecWide.v
theories/WideFacts.v
theories/PropertiesWide.v
