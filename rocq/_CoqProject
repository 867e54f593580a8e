-Q theories Verif

theories/Star.v
theories/CReal.v
theories/Arr.v
theories/MultiIndexModel.v
theories/MultiIndexSpec.v
theories/MultiIndexProofs.v
theories/MultiIndexProperties.v
theories/SliceModel.v
theories/SliceSpec.v
theories/SliceProofs.v
theories/SliceProperties.v
theories/TriModel.v
theories/TriSpec.v
theories/TriProofs.v
theories/TriPropagate.v
theories/TriLemmas.v
theories/TriProperties.v
theories/OdeModel.v
theories/OdeProofs.v
theories/OdeLemmas.v
theories/OdeFloat.v
theories/OdeProperties.v
theories/RunModel.v
theories/RunSpec.v
theories/RunProofs.v
theories/RunLemmas.v
theories/RunResume.v
theories/RunCases.v
theories/RunProperties.v
theories/StateFileModel.v
theories/StateFileProofs.v
theories/StateFileCases.v
theories/StateFileProperties.v
theories/AutostopModel.v
theories/AutostopSpec.v
theories/AutostopProofs.v
theories/AutostopCases.v
theories/AutostopProperties.v
theories/CommentModel.v
theories/CommentSpec.v
theories/CommentProofs.v
theories/CommentProperties.v
theories/CwrModel.v
theories/CwrProofs.v
theories/CwrProperties.v
theories/ParsModel.v
theories/ParsSpec.v
theories/ParsProofs.v
theories/ParsCases.v
theories/ParsProperties.v
theories/HermModel.v
theories/HermSpec.v
theories/HermProofs.v
theories/HermProperties.v
theories/DensityModel.v
theories/DensitySpec.v
theories/DensityProofs.v
theories/PTraceProofs.v
theories/PureModel.v
theories/PureProofs.v
theories/DensityCases.v
theories/DensityProperties.v
theories/McwfModel.v
theories/McwfSpec.v
theories/McwfProofs.v
theories/McwfLemmas.v
theories/McwfCases.v
theories/McwfFacts.v
theories/McwfProperties.v
theories/MasterModel.v
theories/MasterSpec.v
theories/MasterProofs.v
theories/MasterLemmas.v
theories/MasterCases.v
theories/MasterFacts.v
theories/MasterProperties.v
theories/FreeExactModel.v
theories/FreeExactSpec.v
theories/FreeExactProofs.v
theories/FreeExactProperties.v
theories/EnsembleModel.v
theories/EnsembleSpec.v
theories/EnsembleProofs.v
theories/EnsembleProperties.v
theories/ElementModel.v
theories/ElementSpec.v
theories/ElementProofs.v
theories/ElementLemmas.v
theories/ElementFacts.v
theories/ElementProperties.v
theories/ModeModel.v
theories/ModeSpec.v
theories/ModeProofs.v
theories/ModeFacts.v
theories/ModeCases.v
theories/DampSpec.v
theories/DampProofs.v
theories/SpinProofs.v
theories/HomodyneProofs.v
theories/ModeProperties.v
theories/CompositeModel.v
theories/CompositeSpec.v
theories/EmbedProofs.v
theories/CompositeProofs.v
theories/CompositeLemmas.v
theories/CompositeFacts.v
theories/BinaryProofs.v
theories/FillProofs.v
theories/CompositeCases.v
theories/CompositeProperties.v
theories/ParticleModel.v
theories/ParticleSpec.v
theories/ParticleWaves.v
theories/ParticleProofs.v
theories/ParticleFacts.v
theories/ParticleComposition.v
theories/ParticlePictures.v
theories/ParticleCases.v
theories/ParticleProperties.v
theories/RotProofs.v
theories/InteractionModel.v
theories/InteractionSpec.v
theories/RotOps.v
theories/InteractionProofs.v
theories/InteractionWaves.v
theories/RotSums.v
theories/InteractionFacts.v
theories/InteractionParticles.v
theories/InteractionLaws.v
theories/InteractionCases.v
theories/InteractionProperties.v
theories/MatHamModel.v
theories/MatHamSpec.v
theories/MatHamProofs.v
theories/MatHamProperties.v
theories/AverageModel.v
theories/AverageSpec.v
theories/AverageProofs.v
theories/AverageFacts.v
theories/AverageElements.v
theories/AverageCorrelations.v
theories/AverageCases.v
theories/AverageProperties.v
theories/CollectModel.v
theories/CollectSpec.v
theories/CollectProofs.v
theories/CollectProperties.v
theories/DdhoModel.v
theories/DdhoSpec.v
theories/DdhoProofs.v
theories/DdhoProperties.v
theories/InitialModel.v
theories/InitialSpec.v
theories/InitialProofs.v
theories/InitialProperties.v
theories/FourierModel.v
theories/FourierSpec.v
theories/FourierProofs.v
theories/FourierFacts.v
theories/PacketProofs.v
theories/PacketCases.v
theories/FourierProperties.v
theories/DriverModel.v
theories/DriverSpec.v
theories/DriverProofs.v
theories/DriverFacts.v
theories/DriverCases.v
theories/DriverProperties.v
theories/PhaseModel.v
theories/PhaseSpec.v
theories/PhaseProofs.v
theories/PhaseFacts.v
theories/PhaseScan.v
theories/PhaseProperties.v
theories/SigmaModel.v
theories/SigmaSpec.v
theories/SigmaProofs.v
theories/SigmaProperties.v
theories/BichromaticModel.v
theories/BichromaticSpec.v
theories/BichromaticProofs.v
theories/BichromaticProperties.v
theories/EntangleModel.v
theories/EntangleSpec.v
theories/SpectralProofs.v
theories/BipartiteProofs.v
theories/EntangleProofs.v
theories/EntangleFacts.v
theories/EntangleCases.v
theories/EntangleProperties.v
theories/FreqModel.v
theories/FreqSpec.v
theories/FreqProofs.v
theories/FreqFacts.v
theories/FreqCases.v
theories/FreqProperties.v
theories/PictureModel.v
theories/PictureSpec.v
theories/PictureProofs.v
theories/PictureProperties.v
theories/OutputModel.v
theories/OutputSpec.v
theories/OutputProofs.v
theories/OutputProperties.v
theories/AliasModel.v
theories/AliasSpec.v
theories/AliasProofs.v
theories/AliasProperties.v
theories/PyModel.v
theories/PySpec.v
theories/PyLists.v
theories/PyExpect.v
theories/PySums.v
theories/PyAct.v
theories/PyFourier.v
theories/PyInit.v
theories/PyCases.v
theories/PyProperties.v
theories/ScriptModel.v
theories/ScriptSpec.v
theories/ScriptProofs.v
theories/ScriptFacts.v
theories/ScriptCases.v
theories/ScriptBloch.v
theories/ScriptProperties.v
theories/PyTrajModel.v
theories/PyTrajSpec.v
theories/PyDensity.v
theories/PyLoadModel.v
theories/PyLoadSpec.v
theories/PyLoad.v
theories/PyJumps.v
theories/PyTrajProperties.v
theories/PyStateModel.v
theories/PyStateSpec.v
theories/PyState.v
theories/PyStateProperties.v
theories/SummaryModel.v
theories/SummarySpec.v
theories/SummaryProofs.v
theories/SummaryProperties.v
theories/ContainerModel.v
theories/ContainerSpec.v
theories/ContainerProofs.v
theories/ContainerProperties.v
theories/GuideModel.v
theories/GuideSpec.v
theories/GuideProofs.v
theories/GuideProperties.v
theories/TestConfModel.v
theories/TestConfSpec.v
theories/TestConfProofs.v
theories/TestConfCases.v
theories/TestConfProperties.v
theories/VerdictModel.v
theories/VerdictSpec.v
theories/VerdictProofs.v
theories/VerdictCases.v
theories/VerdictProperties.v
theories/CompareModel.v
theories/CompareSpec.v
theories/CompareProofs.v
theories/CompareCases.v
theories/CompareProperties.v
theories/CavScriptModel.v
theories/CavScriptSpec.v
theories/CavScriptProofs.v
theories/CavScriptFacts.v
theories/CavScriptCases.v
theories/CavRing.v
theories/CavRingCases.v
theories/CavScriptProperties.v
theories/TimeAvModel.v
theories/TimeAvSpec.v
theories/TimeAvProofs.v
theories/TimeAvCases.v
theories/TimeAvProperties.v
theories/ProjModel.v
theories/ProjSpec.v
theories/ProjProofs.v
theories/ProjCases.v
theories/ProjProperties.v
theories/FuzzyModel.v
theories/FuzzySpec.v
theories/FuzzyProofs.v
theories/FuzzyCases.v
theories/FuzzyProperties.v
theories/TwoPartModel.v
theories/TwoPartSpec.v
theories/TwoPartProofs.v
theories/TwoPartCases.v
theories/TwoPartProperties.v
theories/RunChoiceSpec.v
theories/RunChoiceProofs.v
theories/RunChoiceProperties.v
theories/GenApplyModel.v
theories/GenApplyProofs.v
theories/GenApplyCases.v
theories/GenApplyProperties.v
theories/MetricModel.v
theories/MetricSpec.v
theories/MetricProofs.v
theories/MetricNorm.v
theories/MetricCases.v
theories/MetricProperties.v
theories/LvalueModel.v
theories/LvalueSpec.v
theories/LvalueProofs.v
theories/LvalueProperties.v
theories/OptoModel.v
theories/OptoSpec.v
theories/OptoProofs.v
theories/OptoProperties.v
theories/Ca40Model.v
theories/Ca40Spec.v
theories/Ca40Proofs.v
theories/Ca40Properties.v
theories/ImagModel.v
theories/ImagSpec.v
theories/ImagProofs.v
theories/ImagProperties.v
theories/VecParModel.v
theories/VecParSpec.v
theories/VecParProofs.v
theories/VecParProperties.v
theories/ExpvModel.v
theories/ExpvSpec.v
theories/ExpvProofs.v
theories/ExpvProperties.v
theories/RamanModel.v
theories/RamanSpec.v
theories/RamanProofs.v
theories/RamanProperties.v
theories/EngineModel.v
theories/EngineSpec.v
theories/EngineProofs.v
theories/EngineProperties.v
theories/TriHeapModel.v
theories/TriHeapSpec.v
theories/TriHeapProofs.v
theories/TriHeapProperties.v
theories/GslViewModel.v
theories/GslViewSpec.v
theories/GslViewProofs.v
theories/GslViewProperties.v
theories/ExchSpec.v
theories/ExchProofs.v
theories/ExchCases.v
theories/ExchProperties.v
theories/HalfCutModel.v
theories/HalfCutSpec.v
theories/HalfCutProofs.v
theories/HalfCutProperties.v
