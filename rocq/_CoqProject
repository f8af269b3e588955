-Q theories Verif
theories/Util.v
theories/StorageModel.v
theories/StorageSpec.v
theories/StorageProofs.v
theories/StorageReplayProofs.v
theories/StorageProps.v
theories/MsfemModel.v
theories/MsfemSpec.v
theories/MsfemProofs.v
theories/MsfemRunProofs.v
theories/MsfemReconProofs.v
theories/MsfemProps.v
theories/RegistryModel.v
theories/RegistrySpec.v
theories/RegistryProofs.v
theories/RegistryProps.v
theories/NamesModel.v
theories/NamesSpec.v
theories/NamesProofs.v
theories/NamesProps.v
theories/LocalGridModel.v
theories/LocalGridSpec.v
theories/LocalGridProofs.v
theories/LocalGridProps.v
theories/SearchModel.v
theories/SearchSpec.v
theories/SearchProofs.v
theories/SearchProps.v
theories/ProjectionModel.v
theories/ProjectionSpec.v
theories/ProjectionProofs.v
theories/ProjectionProps.v
theories/GridModel.v
theories/GridSpec.v
theories/GridProofs.v
theories/GridProps.v
theories/ErrorModel.v
theories/ErrorSpec.v
theories/ErrorProofs.v
theories/ErrorProps.v
theories/RSum.v
theories/CoarseModel.v
theories/CoarseSpec.v
theories/CoarseProofs.v
theories/CoarseProps.v
theories/LinModel.v
theories/LinSpec.v
theories/LinProofs.v
theories/LinProps.v
theories/Calc.v
theories/ExactModel.v
theories/ExactSpec.v
theories/ExactProofs.v
theories/ExactProps.v
theories/SpeModel.v
theories/SpeSpec.v
theories/SpeProofs.v
theories/SpeProps.v
theories/TarModel.v
theories/TarSpec.v
theories/TarProofs.v
theories/TarProps.v
theories/RandModel.v
theories/RandSpec.v
theories/RandProofs.v
theories/RandProps.v
theories/AppModel.v
theories/AppSpec.v
theories/AppProofs.v
theories/AppProps.v
theories/StorageMoreProofs.v
theories/StorageMoreProps.v
theories/SearchMoreProps.v
theories/BoundaryModel.v
theories/BoundarySpec.v
theories/BoundaryProofs.v
theories/SolutionModel.v
theories/SolutionSpec.v
theories/SolutionProofs.v
theories/BoundaryProps.v
theories/SolutionProps.v
theories/EnergySpec.v
theories/EnergyProofs.v
theories/EnergyProps.v
theories/ConfModel.v
theories/ConfSpec.v
theories/ConfProofs.v
theories/ConfProps.v
theories/VisModel.v
theories/VisSpec.v
theories/VisProofs.v
theories/VisProps.v
theories/FilesModel.v
theories/FilesSpec.v
theories/FilesProofs.v
theories/FilesProps.v
theories/CompareModel.v
theories/CompareSpec.v
theories/CompareProofs.v
theories/CompareProps.v
theories/SystemModel.v
theories/SystemSpec.v
theories/SystemProofs.v
theories/SystemProps.v
theories/FemModel.v
theories/FemSpec.v
theories/FemProofs.v
theories/FemProps.v
theories/ResidualSpec.v
theories/ResidualProofs.v
theories/ResidualProps.v
theories/FluxModel.v
theories/FluxSpec.v
theories/FluxProofs.v
theories/FluxProps.v
theories/ReportModel.v
theories/ReportSpec.v
theories/ReportProofs.v
theories/ReportProps.v
theories/DiskModel.v
theories/DiskSpec.v
theories/DiskProofs.v
theories/DiskProps.v
theories/SampleModel.v
theories/SampleSpec.v
theories/SampleProofs.v
theories/SampleProps.v
theories/SolverModel.v
theories/SolverSpec.v
theories/SolverProofs.v
theories/SolverProps.v
theories/PrintModel.v
theories/PrintSpec.v
theories/PrintProofs.v
theories/PrintProps.v
theories/MeshModel.v
theories/MeshSpec.v
theories/MeshProofs.v
theories/MeshProps.v
theories/TimeModel.v
theories/TimeSpec.v
theories/TimeProofs.v
theories/TimeProps.v
theories/GtestModel.v
theories/GtestSpec.v
theories/GtestProofs.v
theories/GtestProps.v
theories/QuadModel.v
theories/QuadSpec.v
theories/QuadProofs.v
theories/QuadProps.v
theories/PatchSpec.v
theories/PatchProofs.v
theories/PatchProps.v
theories/ParModel.v
theories/ParSpec.v
theories/ParProofs.v
theories/ParProps.v
theories/SolveSpec.v
theories/SolveProofs.v
theories/SolveProps.v
theories/LayerSpec.v
theories/LayerProofs.v
theories/LayerProps.v
theories/WholeSpec.v
theories/WholeProofs.v
theories/WholeProps.v
theories/UnitsSpec.v
theories/UnitsProofs.v
theories/UnitsProps.v
theories/IntModel.v
theories/IntSpec.v
theories/IntProofs.v
theories/IntProps.v
theories/OrderSpec.v
theories/OrderProofs.v
theories/OrderProps.v
theories/MaxSpec.v
theories/MaxProofs.v
theories/MaxProps.v
theories/ThirteenModel.v
theories/ThirteenSpec.v
theories/ThirteenProps.v
theories/BoundsSpec.v
theories/BoundsProofs.v
theories/BoundsProps.v
theories/InexactSpec.v
theories/InexactProofs.v
theories/InexactProps.v
theories/PerturbSpec.v
theories/PerturbProofs.v
theories/PerturbProps.v
theories/CountModel.v
theories/CountSpec.v
theories/CountProofs.v
theories/CountProps.v
theories/SuiteModel.v
theories/SuiteSpec.v
theories/SuiteProofs.v
theories/SuiteProps.v
theories/SmpModel.v
theories/SmpSpec.v
theories/SmpProofs.v
theories/SmpProps.v
theories/RoundModel.v
theories/RoundSpec.v
theories/RoundProofs.v
theories/RoundProps.v
theories/LineSpec.v
theories/LineProofs.v
theories/LineProps.v
theories/OverSpec.v
theories/OverProofs.v
theories/OverProps.v
theories/FoldSpec.v
theories/FoldProofs.v
theories/FoldProps.v
theories/FindModel.v
theories/FindSpec.v
theories/FindProofs.v
theories/FindProps.v
theories/ConvSpec.v
theories/ConvProofs.v
theories/ConvProps.v
theories/StrataSpec.v
theories/StrataProofs.v
theories/StrataProps.v
theories/MonoSpec.v
theories/MonoProofs.v
theories/MonoProps.v
theories/FlSmpModel.v
theories/FlSmpSpec.v
theories/FlSmpProofs.v
theories/FlSmpProps.v
theories/CrossSpec.v
theories/CrossProofs.v
theories/CrossProps.v
theories/ContrastSpec.v
theories/ContrastProofs.v
theories/ContrastProps.v
theories/DriftSpec.v
theories/DriftProofs.v
theories/DriftProps.v
theories/RaiseSpec.v
theories/RaiseProofs.v
theories/RaiseProps.v
theories/LeaveSpec.v
theories/LeaveProofs.v
theories/LeaveProps.v
