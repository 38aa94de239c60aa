-Q theories Verif
theories/Model/Py.v
theories/Model/Graph.v
theories/Model/DiGraph.v
theories/Model/Metrics.v
theories/Model/PDAG.v
theories/Model/Pdag2Dag.v
theories/Model/Independence.v
theories/Model/PC.v
theories/Spec/Digraphs.v
theories/Spec/API.v
theories/Spec/PDAGs.v
theories/Proofs/PyFacts.v
theories/Proofs/GraphFacts.v
theories/Proofs/DSepTheory.v
theories/Proofs/FinGraph.v
theories/Proofs/RelExt.v
theories/Proofs/DiGraphFacts.v
theories/Proofs/TopoFacts.v
theories/Proofs/HistoryFacts.v
theories/Proofs/EdgeFacts.v
theories/Proofs/FrameFacts.v
theories/Proofs/NumpyFacts.v
theories/Proofs/DagFacts.v
theories/Proofs/MetricsFacts.v
theories/Proofs/PDAGFacts.v
theories/Proofs/Chordal.v
theories/Proofs/MeekComplete.v
theories/Proofs/MeekFacts.v
theories/Proofs/CpdagFacts.v
theories/Proofs/Pdag2DagFacts.v
theories/Props/Examples.v
theories/Props/GraphProps.v
theories/Props/DagProps.v
theories/Props/MetricProps.v
theories/Props/MeekProps.v
theories/Props/CpdagProps.v
theories/Props/Pdag2DagProps.v
theories/Proofs/SearchFacts.v
theories/Proofs/PCFacts.v
theories/Proofs/CacheFacts.v
theories/Props/PCProps.v
theories/Model/GES.v
theories/Spec/GESSpec.v
theories/Proofs/GESSubsets.v
theories/Proofs/GESPaths.v
theories/Proofs/GESScan.v
theories/Proofs/GESFit.v
theories/Props/GESProps.v
theories/Model/Networkx.v
theories/Proofs/NxFacts.v
theories/Model/SHP.v
theories/Proofs/SHPFacts.v
theories/Proofs/SHPTerm.v
theories/Props/SHPProps.v
theories/Model/Simulators.v
theories/Spec/Sums.v
theories/Proofs/SimFacts.v
theories/Proofs/SimSeries.v
theories/Proofs/SimGraphs.v
theories/Proofs/SimPnl.v
theories/Props/SimulatorProps.v
theories/Model/LHS.v
theories/Spec/Clusters.v
theories/Proofs/MergeFacts.v
theories/Proofs/LHSFacts.v
theories/Proofs/FindFacts.v
theories/Props/LHSProps.v
theories/Model/Matrix.v
theories/Model/Lingam.v
theories/Proofs/MatrixFacts.v
theories/Proofs/LingamFacts.v
theories/Props/LingamProps.v
theories/Model/Notears.v
theories/Proofs/NotearsFacts.v
theories/Proofs/NotearsGrad.v
theories/Props/NotearsProps.v
theories/Model/Kernel.v
theories/Proofs/KernelFacts.v
theories/Props/KernelProps.v
theories/Model/Accuracy.v
theories/Proofs/AccuracyFacts.v
theories/Props/AccuracyProps.v
theories/Model/Plot.v
theories/Props/PlotProps.v
theories/Proofs/GESDiverge.v
theories/Props/DivergeProps.v
theories/Model/Performance.v
theories/Proofs/PerformanceFacts.v
theories/Props/PerformanceProps.v
theories/Model/LocalScore.v
theories/Model/IndepBase.v
theories/Spec/Covered.v
theories/Spec/Scores.v
theories/Proofs/CoveredFacts.v
theories/Proofs/ScoreFacts.v
theories/Proofs/BicFacts.v
theories/Proofs/BdeuFacts.v
theories/Proofs/TextFacts.v
theories/Props/ScoreProps.v
theories/Spec/Totals.v
theories/Spec/SearchSpec.v
theories/Proofs/CliqueRoot.v
theories/Proofs/TotalFacts.v
theories/Proofs/GESScore.v
theories/Proofs/GESSearch.v
theories/Props/GESScoreProps.v
theories/Model/FisherZ.v
theories/Spec/Partial.v
theories/Proofs/FisherZFacts.v
theories/Props/FisherZProps.v
theories/Model/KCI.v
theories/Spec/KCISpec.v
theories/Proofs/KCIFacts.v
theories/Props/KCIProps.v
theories/Spec/OLCSpec.v
theories/Model/OLC.v
theories/Proofs/FisherCombFacts.v
theories/Proofs/OLCPairs.v
theories/Proofs/OLCReal.v
theories/Proofs/OLCLatent.v
theories/Props/OLCProps.v
theories/Model/LHM.v
theories/Spec/Hierarchy.v
theories/Spec/LHMRun.v
theories/Proofs/LHMMerge.v
theories/Proofs/LHMRound.v
theories/Proofs/LHMStep.v
theories/Proofs/LHMLoop.v
theories/Props/LHMProps.v
theories/Model/Tetrad.v
theories/Spec/TetradSpec.v
theories/Proofs/TetradFacts.v
theories/Props/TetradProps.v
theories/Model/NotearsNet.v
theories/Spec/Packing.v
theories/Proofs/NotearsBound.v
theories/Proofs/PackFacts.v
theories/Proofs/NetFacts.v
theories/Props/NotearsNetProps.v
theories/Model/LinearEnt.v
theories/Proofs/LinearEntFacts.v
theories/Props/LinearEntProps.v
theories/Model/EntropyLoss.v
theories/Proofs/EntropyLossFacts.v
theories/Props/EntropyLossProps.v
theories/Model/EntSim.v
theories/Spec/LinearSem.v
theories/Proofs/PopulationFacts.v
theories/Proofs/EqualScales.v
theories/Props/PopulationProps.v
theories/Proofs/EntSimFacts.v
theories/Props/EntSimProps.v
theories/Model/HSIC.v
theories/Spec/KernelSpec.v
theories/Proofs/GaussianFacts.v
theories/Proofs/HSICFacts.v
theories/Proofs/MedianFacts.v
theories/Proofs/ANMFacts.v
theories/Props/HSICProps.v
theories/Props/ANMProps.v
theories/Props/PermutationProps.v
theories/Spec/ExpmSpec.v
theories/Model/Expm.v
theories/Proofs/ExpmFacts.v
theories/Proofs/TaylorFacts.v
theories/Proofs/MajorFacts.v
theories/Proofs/ExpFacts.v
theories/Proofs/ExpAccuracyFacts.v
theories/Proofs/BatchFacts.v
theories/Proofs/FrechetFacts.v
theories/Props/ExpmProps.v
theories/Spec/PadeSpec.v
theories/Model/Pade.v
theories/Proofs/SeriesFacts.v
theories/Proofs/PadeFacts.v
theories/Proofs/PadeNumbers.v
theories/Proofs/PadeChoiceFacts.v
theories/Props/PadeProps.v
theories/Model/CVScore.v
theories/Spec/CVSpec.v
theories/Proofs/CholeskyFacts.v
theories/Proofs/WoodburyFacts.v
theories/Proofs/CVFacts.v
theories/Props/CVProps.v
theories/Model/Minimize.v
theories/Spec/MinimizeSpec.v
theories/Proofs/MinimizeFacts.v
theories/Props/MinimizeProps.v
theories/Model/Marginal.v
theories/Spec/MarginalSpec.v
theories/Proofs/MarginalFacts.v
theories/Props/MarginalProps.v
theories/Model/CKCI.v
theories/Spec/CKCISpec.v
theories/Proofs/CKCIFacts.v
theories/Proofs/CKCICore.v
theories/Proofs/CKCIEdge.v
theories/Proofs/Spectral.v
theories/Props/CKCIProps.v
theories/Model/KCINull.v
theories/Spec/KCINullSpec.v
theories/Proofs/KCINullFacts.v
theories/Proofs/KCINullCore.v
theories/Props/KCINullProps.v
theories/Model/FisherData.v
theories/Spec/SampleSpec.v
theories/Proofs/FisherDataFacts.v
theories/Props/FisherDataProps.v
theories/Proofs/ReplayFacts.v
theories/Model/PCFisher.v
theories/Spec/SamplePC.v
theories/Proofs/PCFisherFacts.v
theories/Props/PCFisherProps.v
theories/Model/SHPTable.v
theories/Spec/EventSpec.v
theories/Proofs/SHPTableFacts.v
theories/Props/SHPTableProps.v
theories/Model/SHPEM.v
theories/Spec/HawkesSpec.v
theories/Proofs/SHPEMFacts.v
theories/Props/SHPEMProps.v
theories/Model/HawkesSim.v
theories/Proofs/HawkesSimFacts.v
theories/Props/HawkesSimProps.v
theories/Model/MakeGraph.v
theories/Spec/DrawnSpec.v
theories/Proofs/MakeGraphFacts.v
theories/Props/MakeGraphProps.v
theories/Model/SHPGraph.v
theories/Spec/MatrixGraph.v
theories/Proofs/SHPGraphFacts.v
theories/Props/SHPGraphProps.v
theories/Model/LagTransitions.v
theories/Spec/LagSpec.v
theories/Proofs/LagFacts.v
theories/Props/LagProps.v
theories/Model/Mutual.v
theories/Spec/InfoSpec.v
theories/Proofs/MutualFacts.v
theories/Props/MutualProps.v
theories/Model/EntropyMore.v
theories/Proofs/EntropyMoreFacts.v
theories/Props/EntropyMoreProps.v
theories/Model/EntropyKnn.v
theories/Spec/NearestSpec.v
theories/Proofs/EntropyKnnFacts.v
theories/Props/EntropyKnnProps.v
