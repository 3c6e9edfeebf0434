-Q theories Verif
theories/ListAux.v
theories/IndexModel.v
theories/IndexSpec.v
theories/ProductProofs.v
theories/IndexProofs.v
theories/IndexProps.v
theories/Complex.v
theories/SpectralModel.v
theories/StrModel.v
theories/ParseModel.v
theories/ParseSpec.v
theories/ParseProofs.v
theories/OperatorProofs.v
theories/ParseProps.v
theories/StepModel.v
theories/StepSpec.v
theories/StepProofs.v
theories/ConserveProofs.v
theories/StepProps.v
theories/SolverModel.v
theories/SolverSpec.v
theories/SolverProofs.v
theories/SolverProps.v
theories/TermModel.v
theories/DerivedModel.v
theories/DerivedSpec.v
theories/DerivedProofs.v
theories/DerivedProps.v
theories/EquationModel.v
theories/EquationSpec.v
theories/TextProofs.v
theories/EquationProofs.v
theories/EquationProofs2.v
theories/EquationProofs3.v
theories/EquationProofs4.v
theories/EquationProofs5.v
theories/EquationProofs6.v
theories/EquationProofs7.v
theories/EquationProofs8.v
theories/EquationProps.v
theories/DbModel.v
theories/DbSpec.v
theories/DbProofs.v
theories/DbProofs2.v
theories/DbProofs3.v
theories/DbProofs4.v
theories/DbProofs5.v
theories/DbProps.v
theories/PixelModel.v
theories/PixelSpec.v
theories/PixelProofs.v
theories/FileModel.v
theories/FileSpec.v
theories/FileProofs.v
theories/FileProps.v
theories/MillerModel.v
theories/MillerSpec.v
theories/MillerProofs.v
theories/MillerProps.v
theories/Vec.v
theories/LatticeModel.v
theories/LatticeSpec.v
theories/LatticeProofs.v
theories/LatticeProps.v
theories/CVec.v
theories/ElasticModel.v
theories/ElasticSpec.v
theories/ElasticProofs.v
theories/ElasticProps.v
theories/DftModel.v
theories/DftSpec.v
theories/DftProofs.v
theories/DftProps.v
theories/SddModel.v
theories/SddSpec.v
theories/SddProofs.v
theories/SddProps.v
theories/GridModel.v
theories/GridSpec.v
theories/GridProofs.v
theories/GridProofs2.v
theories/GridProofs3.v
theories/GridProofs4.v
theories/GridProps.v
theories/EnergyModel.v
theories/EnergySpec.v
theories/EnergyProofs.v
theories/EnergyProofs2.v
theories/EnergyProofs3.v
theories/EnergyProofs4.v
theories/EnergyProofs5.v
theories/EnergyProps.v
theories/RealSpec.v
theories/RealProofs.v
theories/RealProofs2.v
theories/GradModel.v
theories/GradSpec.v
theories/GradProofs.v
theories/GradProofs2.v
theories/GradProofs3.v
theories/GradProofs4.v
theories/GradProofs5.v
theories/GradProofs6.v
theories/RealProofs3.v
theories/RealProps.v
theories/GradProps.v
theories/ModeModel.v
theories/ModeSpec.v
theories/ModeProofs.v
theories/ModeProofs2.v
theories/ModeProofs3.v
theories/ModeProps.v
theories/CliModel.v
theories/CliSpec.v
theories/CliProofs.v
theories/CliProofs2.v
theories/CliProofs3.v
theories/CliProofs4.v
theories/CliProofs5.v
theories/CliProps.v
theories/CrystalModel.v
theories/CrystalSpec.v
theories/CrystalProofs.v
theories/CrystalProofs2.v
theories/CrystalProofs3.v
theories/CrystalProps.v
theories/TwoPhaseModel.v
theories/TwoPhaseSpec.v
theories/TwoPhaseProofs.v
theories/TwoPhaseProps.v
theories/StrainModel.v
theories/StrainSpec.v
theories/StrainProofs.v
theories/StrainProofs2.v
theories/StrainProofs3.v
theories/StrainProofs4.v
theories/StrainProofs5.v
theories/StrainProofs6.v
theories/StrainProofs7.v
theories/StrainProofs8.v
theories/StrainProps.v
theories/SetupModel.v
theories/SetupSpec.v
theories/SetupProofs.v
theories/SetupProofs2.v
theories/SetupProofs3.v
theories/SetupProofs4.v
theories/SetupProps.v
theories/RegistryModel.v
theories/RegistrySpec.v
theories/RegistryProofs.v
theories/RegistryProofs2.v
theories/RegistryProofs3.v
theories/RegistryProps.v
theories/SymmetrySpec.v
theories/SymmetryProofs.v
theories/SymmetryProofs2.v
theories/SymmetryProofs3.v
theories/SymmetryProofs4.v
theories/SymmetryProofs5.v
theories/SymmetryProofs6.v
theories/SymmetryProps.v
theories/SimModel.v
theories/SimSpec.v
theories/SimProofs.v
theories/SimProofs2.v
theories/SimProofs3.v
theories/SimProofs4.v
theories/SimProofs5.v
theories/SimProofs6.v
theories/SimProps.v
theories/LinearSpec.v
theories/LinearProofs.v
theories/LinearProofs2.v
theories/LinearProofs3.v
theories/LinearProps.v
theories/ConvergeSpec.v
theories/ConvergeProofs.v
theories/ConvergeProps.v
theories/SplitSpec.v
theories/SplitProofs.v
theories/SplitProofs2.v
theories/SplitProofs3.v
theories/SplitProofs4.v
theories/SplitProps.v
theories/MatchSpec.v
theories/MatchProofs.v
theories/MatchProofs2.v
theories/MatchProofs3.v
theories/MatchProps.v
theories/LawSpec.v
theories/LawProofs.v
theories/LawProps.v
theories/KeepSpec.v
theories/KeepProofs.v
theories/KeepProofs2.v
theories/KeepProps.v
theories/LimitSpec.v
theories/LimitProofs.v
theories/LimitProofs2.v
theories/LimitProofs3.v
theories/LimitProofs4.v
theories/LimitProps.v
theories/ResumeSpec.v
theories/ResumeProofs.v
theories/ResumeProofs2.v
theories/ResumeProps.v
theories/WatchModel.v
theories/WatchProofs.v
theories/WatchProps.v
theories/CheckpointModel.v
theories/CheckpointProofs.v
theories/CheckpointProps.v
theories/FlowSpec.v
theories/FlowProofs.v
theories/FlowProofs2.v
theories/FlowProofs3.v
theories/FlowProps.v
theories/SaddleSpec.v
theories/SaddleProofs.v
theories/SaddleProofs2.v
theories/SaddleProofs3.v
theories/SaddleProofs4.v
theories/SaddleProofs5.v
theories/SaddleProps.v
theories/TrackModel.v
theories/TrackSpec.v
theories/TrackProofs.v
theories/TrackProofs2.v
theories/TrackProofs3.v
theories/TrackProps.v
theories/ImplicitModel.v
theories/ImplicitSpec.v
theories/ImplicitProofs.v
theories/ImplicitProofs2.v
theories/ImplicitProofs3.v
theories/ImplicitProofs4.v
theories/ImplicitProps.v
theories/ApproachSpec.v
theories/ApproachProofs.v
theories/ApproachProofs2.v
theories/ApproachProofs3.v
theories/ApproachProofs4.v
theories/ApproachProps.v
theories/OrderSpec.v
theories/OrderProofs.v
theories/OrderProofs2.v
theories/OrderProofs3.v
theories/OrderProofs4.v
theories/OrderProps.v
theories/DisturbSpec.v
theories/DisturbProofs.v
theories/DisturbProofs2.v
theories/DisturbProps.v
theories/CsvRunModel.v
theories/CsvRunProofs.v
theories/CsvRunProps.v
theories/SmallModel.v
theories/SmallProps.v
theories/UniqueProps.v
theories/DbRunModel.v
theories/DbRunProofs.v
theories/DbRunProps.v
theories/SecondProofs.v
theories/SecondProofs2.v
theories/SecondProps.v
theories/WatchSpec.v
theories/WatchProofs2.v
theories/VolumeModel.v
theories/VolumeSpec.v
theories/VolumeProofs.v
theories/VolumeProofs2.v
theories/VolumeProps.v
theories/CliTableProps.v
theories/LocalProofs.v
theories/LocalProofs2.v
theories/LocalProps.v
theories/FilterSpec.v
theories/FilterProofs.v
theories/FilterProps.v
theories/FilterProofs2.v
theories/FilterLinearProps.v
theories/ViewModel.v
theories/ViewSpec.v
theories/ViewProofs.v
theories/ViewProps.v
theories/ClockModel.v
theories/ClockProps.v
theories/RegionProps.v
theories/VariablesModel.v
theories/ExtensionProps.v
theories/BlowupProps.v
theories/JsonModel.v
theories/JsonSpec.v
theories/JsonProofs.v
theories/JsonProps.v
theories/JsonRunModel.v
theories/JsonRunProps.v
theories/XmlModel.v
theories/XmlSpec.v
theories/XmlProofs.v
theories/XmlProps.v
theories/FrameModel.v
theories/FrameProps.v
theories/MultiplierProps.v
theories/SddStartProps.v
theories/KeepImplicitProps.v
theories/CsvModel.v
theories/CsvSpec.v
theories/CsvProps.v
theories/ConserveRunProps.v
theories/DerivedStepProps.v
theories/LooseProps.v
