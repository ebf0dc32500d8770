-Q theories Verif
theories/ZMap.v
theories/OrderedGroupsModel.v
theories/OrderedGroupsSpec.v
theories/OrderedGroupsProofs.v
theories/OrderedGroupsProps.v
theories/PartitionModel.v
theories/PartitionSpec.v
theories/PartitionProofs.v
theories/PartitionProps.v
theories/Dbl.v
theories/ProblemModel.v
theories/ProblemSpec.v
theories/ProblemProofs1.v
theories/ProblemProofs2.v
theories/ProblemProofs3.v
theories/ProblemProofs4.v
theories/ProblemProofs5.v
theories/ProblemProofs6.v
theories/ProblemProofs7.v
theories/ProblemProofs8.v
theories/ProblemProofs9.v
theories/ProblemProofs10.v
theories/ProblemProps.v
theories/ParallelModel.v
theories/ParallelProofs.v
theories/ParallelProofs2.v
theories/ParallelProps.v
theories/QueueModel.v
theories/QueueProofs.v
theories/QueueProofs2.v
theories/QueueProps.v
theories/GraphModel.v
theories/GraphProofs.v
theories/GraphSpec.v
theories/GraphProofs2.v
theories/GraphProofs3.v
theories/GraphProps.v
theories/ReorderModel.v
theories/ReorderProofs.v
theories/ReorderProofs2.v
theories/ReorderProps.v
theories/ForestModel.v
theories/ForestSpec.v
theories/ForestProofs.v
theories/ForestProofs2.v
theories/ForestProps.v
theories/DblArith.v
theories/DblArithProofs.v
theories/TrustRegionModel.v
theories/TrustRegionProofs.v
theories/TrustRegionSpec.v
theories/TrustRegionProofs2.v
theories/TrustRegionProofs3.v
theories/TrustRegionProps.v
theories/DblArithProofs2.v
theories/StrategyModel.v
theories/StrategySpec.v
theories/StrategyProofs.v
theories/StrategyProofs2.v
theories/StrategyProofs3.v
theories/DoglegModel.v
theories/DoglegProofs.v
theories/DoglegSpec.v
theories/DoglegProofs2.v
theories/StrategyProps.v
theories/DoglegProps.v
theories/LossModel.v
theories/LossSpec.v
theories/LossProofs.v
theories/LossProofs2.v
theories/LossProps.v
theories/PolynomialModel.v
theories/PolynomialSpec.v
theories/PolynomialProofs.v
theories/PolynomialProofs2.v
theories/PolynomialProofs3.v
theories/PolynomialProps.v
theories/LineSearchModel.v
theories/LineSearchSpec.v
theories/LineSearchProofs.v
theories/LineSearchProofs2.v
theories/LineSearchProps.v
theories/LsMinimizerModel.v
theories/LsMinimizerSpec.v
theories/LsMinimizerProofs.v
theories/LsMinimizerProps.v
theories/QuasiNewtonModel.v
theories/QuasiNewtonSpec.v
theories/QuasiNewtonProofs.v
theories/QuasiNewtonProps.v
theories/ResidualBlockModel.v
theories/ResidualBlockSpec.v
theories/ResidualBlockProofs.v
theories/ResidualBlockProps.v
theories/ProgramStateModel.v
theories/ProgramStateSpec.v
theories/ProgramStateProofs.v
theories/ProgramStateProofs2.v
theories/ProgramStateProps.v
theories/ReducedModel.v
theories/ReducedSpec.v
theories/ReducedProofs.v
theories/ReducedProps.v
theories/EvaluatorModel.v
theories/EvaluatorSpec.v
theories/EvaluatorProofs.v
theories/EvaluatorProps.v
theories/SparseModel.v
theories/SparseSpec.v
theories/SparseProofs.v
theories/SparseProofs2.v
theories/SparseProofs3.v
theories/SparseProofs4.v
theories/SparseProofs5.v
theories/SparseProps.v
theories/EnumModel.v
theories/EnumSpec.v
theories/EnumProofs.v
theories/EnumProps.v
theories/OptionsModel.v
theories/OptionsSpec.v
theories/OptionsProofs.v
theories/OptionsProps.v
theories/SolveOrderingModel.v
theories/SolveOrderingSpec.v
theories/SolveOrderingProofs.v
theories/SolveOrderingProps.v
theories/JetModel.v
theories/JetSpec.v
theories/JetProofs.v
theories/JetProofs2.v
theories/JetProofs3.v
theories/JetProofs4.v
theories/JetProps.v
theories/AutoDiffModel.v
theories/AutoDiffSpec.v
theories/AutoDiffProofs.v
theories/AutoDiffProofs2.v
theories/AutoDiffProofs3.v
theories/AutoDiffProofs4.v
theories/AutoDiffProps.v
theories/InnerModel.v
theories/InnerSpec.v
theories/InnerProofs.v
theories/InnerProofs2.v
theories/InnerProps.v
theories/RotationModel.v
theories/RotationSpec.v
theories/RotationProofs.v
theories/RotationProofs2.v
theories/RotationProofs3.v
theories/RotationProofs4.v
theories/RotationProofs5.v
theories/RotationProps.v
theories/ManifoldModel.v
theories/ManifoldSpec.v
theories/ManifoldProofs.v
theories/ManifoldProofs2.v
theories/ManifoldProofs3.v
theories/ManifoldProofs4.v
theories/ManifoldProofs5.v
theories/ManifoldProofs6.v
theories/ManifoldProofs7.v
theories/ManifoldProps.v
theories/CubicModel.v
theories/CubicSpec.v
theories/CubicProofs.v
theories/CubicProofs2.v
theories/CubicProps.v
theories/SchurModel.v
theories/SchurSpec.v
theories/SchurProofs.v
theories/SchurProofs2.v
theories/SchurProofs3.v
theories/SchurProofs4.v
theories/SchurProofs5.v
theories/SchurProofs6.v
theories/SchurProofs7.v
theories/SchurProofs8.v
theories/SchurProofs9.v
theories/SchurProofs10.v
theories/SchurProofs11.v
theories/SchurProofs12.v
theories/SchurProofs13.v
theories/SchurProofs14.v
theories/SchurProps.v
theories/NumDiffModel.v
theories/NumDiffSpec.v
theories/NumDiffProofs.v
theories/NumDiffProofs2.v
theories/NumDiffProofs3.v
theories/NumDiffProps.v
theories/CGModel.v
theories/CGSpec.v
theories/CGProofs.v
theories/CGProofs2.v
theories/CGProps.v
theories/BlockSparseModel.v
theories/BlockSparseSpec.v
theories/BlockSparseProofs.v
theories/BlockSparseProofs2.v
theories/BlockSparseProofs3.v
theories/BlockSparseProofs4.v
theories/BlockSparseProofs5.v
theories/BlockSparseProofs6.v
theories/BlockSparseProofs7.v
theories/BlockSparseProofs8.v
theories/BlockSparseProps.v
theories/ImplicitSchurModel.v
theories/ImplicitSchurSpec.v
theories/ImplicitSchurProofs.v
theories/ImplicitSchurProofs2.v
theories/ImplicitSchurProofs3.v
theories/ImplicitSchurProofs4.v
theories/ImplicitSchurProofs5.v
theories/ImplicitSchurProofs6.v
theories/ImplicitSchurProps.v
theories/CovarianceModel.v
theories/CovarianceSpec.v
theories/CovarianceProofs.v
theories/CovarianceProofs2.v
theories/CovarianceProofs3.v
theories/CovarianceProofs4.v
theories/CovarianceProofs5.v
theories/CovarianceProofs6.v
theories/CovarianceProofs7.v
theories/CovarianceProofs8.v
theories/CovarianceProps.v
theories/JacobianModel.v
theories/JacobianSpec.v
theories/JacobianProofs.v
theories/JacobianProofs2.v
theories/JacobianProofs3.v
theories/JacobianProofs4.v
theories/JacobianProofs5.v
theories/JacobianProofs6.v
theories/JacobianProofs7.v
theories/JacobianProps.v
theories/TinyModel.v
theories/TinySpec.v
theories/TinyProofs.v
theories/TinyProofs2.v
theories/TinyProps.v
theories/SmallBlasModel.v
theories/SmallBlasSpec.v
theories/SmallBlasProofs.v
theories/SmallBlasProps.v
theories/GramModel.v
theories/GramSpec.v
theories/GramProofs.v
theories/GramProofs2.v
theories/GramProofs3.v
theories/GramProps.v
theories/WrapModel.v
theories/WrapSpec.v
theories/WrapProofs.v
theories/WrapProofs2.v
theories/WrapProps.v
theories/VisModel.v
theories/VisSpec.v
theories/VisProofs.v
theories/VisProofs2.v
theories/VisProofs3.v
theories/VisProofs4.v
theories/VisProps.v
theories/VbpModel.v
theories/VbpSpec.v
theories/VbpProofs.v
theories/VbpProofs2.v
theories/VbpProofs3.v
theories/VbpProofs4.v
theories/VbpProps.v
theories/LsqModel.v
theories/LsqSpec.v
theories/LsqProofs.v
theories/LsqProofs2.v
theories/LsqProofs3.v
theories/LsqProofs4.v
theories/LsqProps.v
theories/TplModel.v
theories/TplSpec.v
theories/TplProofs.v
theories/TplProps.v
theories/GckModel.v
theories/GckSpec.v
theories/GckProofs.v
theories/GckProofs2.v
theories/GckProofs3.v
theories/GckProps.v
theories/GpsModel.v
theories/GpsSpec.v
theories/GpsProofs.v
theories/GpsProofs2.v
theories/GpsProps.v
theories/GpgModel.v
theories/GpgSpec.v
theories/GpgProps.v
theories/PevModel.v
theories/PevSpec.v
theories/PevProofs.v
theories/PevProofs2.v
theories/PevProofs3.v
theories/PevProofs4.v
theories/PevProps.v
theories/UstModel.v
theories/UstSpec.v
theories/UstProofs.v
theories/UstProofs2.v
theories/UstProps.v
theories/AdfModel.v
theories/AdfSpec.v
theories/AdfProofs.v
theories/AdfProps.v
theories/BraModel.v
theories/BraSpec.v
theories/BraProofs.v
theories/BraProofs2.v
theories/BraProofs3.v
theories/BraProofs4.v
theories/BraProofs5.v
theories/BraProps.v
theories/PrepModel.v
theories/PrepSpec.v
theories/PrepProofs.v
theories/PrepProofs2.v
theories/PrepProofs3.v
theories/PrepProofs4.v
theories/PrepProofs5.v
theories/PrepProps.v
theories/GpuModel.v
theories/GpuSpec.v
theories/GpuProofs.v
theories/GpuProofs2.v
theories/GpuProofs3.v
theories/GpuProofs4.v
theories/GpuProofs5.v
theories/GpuProofs6.v
theories/GpuProofs7.v
theories/GpuProps.v
theories/StbModel.v
theories/StbSpec.v
theories/StbProofs.v
theories/StbProofs2.v
theories/StbProofs3.v
theories/StbProps.v
theories/SpcModel.v
theories/SpcSpec.v
theories/SpcProofs.v
theories/SpcProofs2.v
theories/SpcProps.v
theories/SubModel.v
theories/SubSpec.v
theories/SubProofs.v
theories/SubProofs2.v
theories/SubProps.v
theories/DsnModel.v
theories/DsnSpec.v
theories/DsnProofs.v
theories/DsnProps.v
theories/ExsModel.v
theories/ExsSpec.v
theories/ExsProofs.v
theories/ExsProps.v
theories/PvoModel.v
theories/PvoSpec.v
theories/PvoProps.v
theories/RedModel.v
theories/RedSpec.v
theories/RedProps.v
