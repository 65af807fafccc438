-Q theories Verif

theories/Py.v
theories/PyFacts.v
theories/Complex.v
theories/ComplexSpec.v
theories/ComplexFacts.v
theories/ComplexFacts2.v
theories/ExampleData.v
theories/Props_Complex.v
theories/LinAlg.v
theories/Signal.v
theories/SignalSpec.v
theories/Bridge.v
theories/SignalFacts.v
theories/Compute.v
theories/Props_Signal.v
theories/Props_Hodge.v
theories/Props_Reorder.v
theories/Builder.v
theories/BuilderFacts.v
theories/BuilderSpec.v
theories/Props_Builder.v
theories/RingTac.v
theories/Spectral.v
theories/Eigen.v
theories/EigenSpec.v
theories/IntEigen.v
theories/EigenFacts.v
theories/Props_Eigen.v
theories/Filter.v
theories/FilterSpec.v
theories/FilterFacts.v
theories/Props_Masks.v
theories/FilterFacts2.v
theories/PolyFacts.v
theories/Props_LowPass.v
theories/Props_Poly.v
theories/Props_Exact.v
theories/Props_Power.v
theories/Props_Cheb.v
theories/Props_Grid.v
theories/FilterState.v
theories/PowerFacts.v
theories/Props_State.v
theories/Props_HistPlot.v
theories/Props_StateEx.v
theories/Props_Logistic.v
theories/Props_LogisticR.v
theories/Trend.v
theories/Props_Trend.v
theories/TrendFacts.v
theories/Props_Trend2.v
theories/Props_Trend3.v
theories/Props_TrendEx.v
theories/Reader.v
theories/ReaderSpec.v
theories/ReaderFacts.v
theories/Props_Reader.v
theories/Props_Incidence.v
theories/Props_ReaderHodge.v
theories/Loader.v
theories/LoaderSpec.v
theories/Props_Loader.v
theories/Props_Dataset.v
theories/Props_Dataset2.v
theories/Generator.v
theories/Props_Generator.v
theories/Sharing.v
theories/Props_Sharing.v
theories/Gp.v
theories/GpSpec.v
theories/GpFacts.v
theories/Props_Gp.v
theories/Props_GpData.v
theories/Props_GpTrainer.v
theories/Props_GpMatern.v
theories/GpPredict.v
theories/GpPredictFacts.v
theories/Props_GpPredict.v
theories/Plot.v
theories/PlotFacts.v
theories/Props_Plot.v
theories/Props_PlotAxes.v
theories/Props_PlotFlow.v
theories/TopologySpec.v
theories/TopologyFacts.v
theories/GapFacts.v
theories/Props_Topology.v
theories/ChebSeries.v
theories/Props_Series.v
theories/Props_Linear.v
theories/Props_FilterOrder.v
theories/Props_Solver.v
theories/Props_GpObs.v
theories/Props_GpOrder.v
theories/Props_Local.v
theories/Props_Units.v
theories/Props_TrendMu.v
theories/Props_TrendMuEx.v
theories/Props_LocalTrend.v
theories/Props_TrendOrder.v
theories/Props_TrendOrder2.v
theories/Props_TrendOrder3.v
theories/Props_Hops.v
theories/Props_Hops2.v
