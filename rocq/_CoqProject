-Q theories Verif
theories/PyExn.v
theories/PyBase.v
theories/TargetModel.v
theories/AutotunerModel.v
theories/AutotunerSpec.v
theories/AutotunerProofs.v
theories/AutotunerProps.v
theories/TunerModel.v
theories/TunerSpec.v
theories/SeriesLemmas.v
theories/TunerProofs.v
theories/SolverModel.v
theories/SolverSpec.v
theories/SensingDotProofs.v
theories/TunerProps.v
theories/NewtonModel.v
theories/EstimatorModel.v
theories/NewtonSpec.v
theories/NewtonProofs.v
theories/EstimatorProofs.v
theories/NewtonProps.v
theories/LinAlgModel.v
theories/LinAlgSpec.v
theories/LinAlgProofs.v
theories/FDProofs.v
theories/LoopProofs.v
theories/LinAlgProps.v
theories/KalmanModel.v
theories/KalmanSpec.v
theories/KalmanProofs.v
theories/KalmanHistory.v
theories/KalmanRequests.v
theories/KalmanProps.v
theories/NelderMeadModel.v
theories/NelderMeadSpec.v
theories/NelderMeadProofs.v
theories/NelderMeadRuns.v
theories/NelderMeadPoints.v
theories/NelderMeadLoop.v
theories/NelderMeadProps.v
theories/StorageModel.v
theories/StorageSpec.v
theories/StorageProofs.v
theories/StorageSave.v
theories/StorageLoad.v
theories/StorageTrip.v
theories/StorageProps.v
theories/SnapshotModel.v
theories/SnapshotSpec.v
theories/SnapshotProofs.v
theories/SnapshotTrip.v
theories/SnapshotProps.v
theories/WriterModel.v
theories/WriterSpec.v
theories/WriterProofs.v
theories/WriterProps.v
theories/Mat2pyModel.v
theories/Mat2pySpec.v
theories/Mat2pyProps.v
theories/MatlabModel.v
theories/MatlabSpec.v
theories/MatlabProofs.v
theories/MatlabProps.v
theories/UtilModel.v
theories/UtilSpec.v
theories/UtilProofs.v
theories/UtilProps.v
theories/EvaluatorModel.v
theories/EvaluatorSpec.v
theories/EvaluatorProofs.v
theories/EvaluatorProps.v
theories/HistoryModel.v
theories/HistorySpec.v
theories/HistoryProofs.v
theories/HistoryProps.v
theories/ReloadModel.v
theories/ReloadSpec.v
theories/ReloadProofs.v
theories/ReloadProps.v
theories/KalmanReloadModel.v
theories/KalmanReloadProps.v
theories/TargetProps.v
theories/PlotModel.v
theories/PlotProofs.v
theories/PlotProps.v
theories/AliasModel.v
theories/AliasProps.v
theories/EngineModel.v
theories/EngineSpec.v
theories/EngineProofs.v
theories/EngineProps.v
theories/TuneModel.v
theories/TuneProps.v
theories/PassThruModel.v
theories/PassThruSpec.v
theories/PassThruProofs.v
theories/PassThruProps.v
theories/GuiModel.v
theories/GuiSpec.v
theories/GuiProofs.v
theories/GuiProps.v
theories/GradientProps.v
theories/KernelR.v
theories/ComposeModel.v
theories/ComposeSpec.v
theories/ComposeProofs.v
theories/ComposeNumerics.v
theories/ComposeHierarchy.v
theories/ComposeProps.v
theories/ComposeLimitedProps.v
theories/NumericsModel.v
theories/NumericsSpec.v
theories/NumericsProofs.v
theories/NumericsProps.v
theories/RaceModel.v
theories/RaceSpec.v
theories/RaceProofs.v
theories/RaceProps.v
theories/FitModel.v
theories/FitSpec.v
theories/FitProofs.v
theories/FitProps.v
theories/FitStartModel.v
theories/FitStartProofs.v
theories/FitStartProps.v
theories/LibraryModel.v
theories/LibrarySpec.v
theories/LibraryProofs.v
theories/LibraryProps.v
theories/ColumnsModel.v
theories/ColumnsSpec.v
theories/ColumnsProofs.v
theories/ColumnsProps.v
theories/SerialModel.v
theories/SerialSpec.v
theories/SerialProofs.v
theories/SerialProps.v
theories/OrganizerModel.v
theories/OrganizerSpec.v
theories/OrganizerProofs.v
theories/OrganizerProps.v
theories/LogModel.v
theories/LogSpec.v
theories/LogProps.v
theories/WindowsModel.v
theories/WindowsSpec.v
theories/WindowsProofs.v
theories/WindowsProps.v
theories/SimModel.v
theories/SimSpec.v
theories/SimProofs.v
theories/SimProps.v
theories/KalmanLoopModel.v
theories/KalmanLoopSpec.v
theories/KalmanLoopProofs.v
theories/KalmanLoopProps.v
theories/MinGradModel.v
theories/MinGradSpec.v
theories/MinGradProofs.v
theories/MinGradProps.v
theories/ReadyModel.v
theories/ReadySpec.v
theories/ReadyProofs.v
theories/ReadyProps.v
theories/RegistryModel.v
theories/RegistrySpec.v
theories/RegistryProofs.v
theories/RegistryProps.v
theories/FieldTac.v
theories/ChordModel.v
theories/ChordSpec.v
theories/ChordProofs.v
theories/ChordProps.v
theories/FigureModel.v
theories/FigureSpec.v
theories/FigureProofs.v
theories/FigureProps.v
theories/LimitedModel.v
theories/LimitedSpec.v
theories/LimitedProofs.v
theories/LimitedProps.v
theories/DampedProofs.v
theories/DampedProps.v
theories/KalmanFitSpec.v
theories/KalmanFitProofs.v
theories/KalmanFitProps.v
theories/RawWindowModel.v
theories/RawWindowSpec.v
theories/RawWindowProps.v
theories/ReevalModel.v
theories/ReevalSpec.v
theories/ReevalProps.v
theories/KalmanGlobalSpec.v
theories/KalmanGlobalProofs.v
theories/KalmanGlobalProps.v
theories/ViewModel.v
theories/ViewSpec.v
theories/ViewProofs.v
theories/ViewProps.v
theories/KalmanLimitedModel.v
theories/KalmanLimitedSpec.v
theories/KalmanLimitedProofs.v
theories/KalmanLimitedProps.v
theories/KalmanAskProofs.v
theories/KalmanAskProps.v
theories/KalmanFadeSpec.v
theories/KalmanFadeProofs.v
theories/KalmanFadeProps.v
theories/KalmanTunedSpec.v
theories/KalmanTunedProofs.v
theories/KalmanTunedProps.v
theories/KalmanEachSpec.v
theories/KalmanEachProofs.v
theories/KalmanEachProps.v
theories/ComposeCoupledSpec.v
theories/ComposeCoupledProofs.v
theories/ComposeCoupledProps.v
theories/ComposeCurvedSpec.v
theories/ComposeCurvedProofs.v
theories/ComposeCurvedProps.v
theories/ComposeNoisySpec.v
theories/ComposeNoisyProofs.v
theories/ComposeNoisyProps.v
theories/ComposeTowerSpec.v
theories/ComposeTowerProofs.v
theories/ComposeTowerProps.v
theories/ComposePaceSpec.v
theories/ComposePaceProofs.v
theories/ComposePaceProps.v
theories/ComposeStudySpec.v
theories/ComposeStudyProofs.v
theories/ComposeStudyProps.v
theories/SensorModel.v
theories/SensorSpec.v
theories/SensorProofs.v
theories/SensorProps.v
theories/ConstructModel.v
theories/ConstructProofs.v
theories/ConstructProps.v
