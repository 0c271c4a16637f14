-Q theories Verif
theories/Prelude.v
theories/NamesModel.v
theories/NamesSpec.v
theories/NamesProofs.v
theories/PropNames.v
theories/FockModel.v
theories/FockSpec.v
theories/BosonProofs.v
theories/FockProofs.v
theories/GateProofs.v
theories/PropFock.v
theories/OpticalModel.v
theories/OpticalProofs.v
theories/PropOptical.v
theories/StateModel.v
theories/StateSpec.v
theories/StateProofs.v
theories/ApplyProofs.v
theories/CollectionModel.v
theories/CollectionSpec.v
theories/EvalModel.v
theories/EvalSpec.v
theories/EvalProofs.v
theories/MeasureSpec.v
theories/MeasureProofs.v
theories/WfProofs.v
theories/PropState.v
theories/PropMeasure.v
theories/PropEval.v
theories/PropCollection.v
theories/PropProducts.v
theories/ReshapeSpec.v
theories/ReshapeProofs.v
theories/PropReshape.v
theories/CleanupSpec.v
theories/PropCleanup.v
theories/PropCleanupOrder.v
theories/CompoundModel.v
theories/BridgeSpec.v
theories/PropBridge.v
theories/CustomModel.v
theories/CustomSpec.v
theories/PropCustom.v
theories/PropCustomNodes.v
theories/OperatorModel.v
theories/OperatorSpec.v
theories/PropOperator.v
theories/ExponentialSpec.v
theories/ExponentialProofs.v
theories/PRModel.v
theories/PRSpec.v
theories/PropPR.v
theories/PropPRMeasure.v
theories/PropPROptics.v
theories/BoxesModel.v
theories/BoxesSpec.v
theories/PropBoxes.v
theories/ColumnModel.v
theories/ColumnSpec.v
theories/ColumnProofs.v
theories/PropColumn.v
theories/SettersModel.v
theories/SettersSpec.v
theories/PropSetters.v
theories/GroupProofs.v
theories/TemporalSpec.v
theories/TemporalProofs.v
theories/ResolvedProofs.v
theories/PropTemporal.v
theories/PropDelays.v
theories/WidthSpec.v
theories/PropWidth.v
theories/InterferenceSpec.v
theories/ArrangementProofs.v
theories/InterferenceProofs.v
theories/MeasuredProofs.v
theories/PropInterference.v
theories/ExperimentSpec.v
theories/ExperimentProofs.v
theories/PermanentProofs.v
theories/PropPermanent.v
theories/PropExponential.v
theories/SentProofs.v
theories/ConservationProofs.v
theories/SpreadProofs.v
theories/PropExperiment.v
theories/PropCoherent.v
theories/PropStrings.v
theories/RouteSpec.v
theories/RouteProofs.v
theories/GaussProofs.v
theories/RouteTotals.v
theories/RouteSteps.v
theories/PropRoute.v
theories/PropRouteTotal.v
theories/QuickSpec.v
theories/QuickProofs.v
theories/QuickGroups.v
theories/PropQuick.v
theories/PlotModel.v
theories/PlotSpec.v
theories/PlotProofs.v
theories/PropPlot.v
theories/PropCorrelation.v
theories/PropBoxesPlot.v
theories/PlotResolvedProofs.v
theories/PropPlotResolved.v
theories/HeapModel.v
theories/HeapSpec.v
theories/HeapProofs.v
theories/PropHeap.v
theories/DrawModel.v
theories/DrawSpec.v
theories/DrawProofs.v
theories/LayoutProofs.v
theories/PropDraw.v
theories/DrawableProofs.v
theories/VisibleProofs.v
theories/PropDrawn.v
theories/StationModel.v
theories/StationSpec.v
theories/PropStation.v
theories/PropStations.v
theories/CircuitSpec.v
theories/CircuitProofs.v
theories/EnsembleProofs.v
theories/PropCircuit.v
theories/ProgramModel.v
theories/ProgramSpec.v
theories/ProtocolSpec.v
theories/ProtocolProofs.v
theories/PropProtocol.v
theories/PropDeferred.v
theories/PropProgram.v
theories/PropPrograms.v
theories/PropSignal.v
theories/ApplicationSpec.v
theories/SparseProofs.v
theories/PropBell.v
theories/PropTeleport.v
theories/PropGHZ.v
theories/CompoundSpec.v
theories/CompoundProofs.v
theories/PropCompound.v
theories/TsirelsonSpec.v
theories/TsirelsonProofs.v
theories/SeparableProofs.v
theories/PropTsirelson.v
theories/BuildSpec.v
theories/PropBuild.v
theories/UndoSpec.v
theories/PropUndo.v
theories/PhotonSpec.v
theories/PropPhotons.v
theories/DistinguishSpec.v
theories/PropDistinguish.v
theories/CloneSpec.v
theories/PropClone.v
theories/MatrixModel.v
theories/MatrixSpec.v
theories/PropMatrix.v
theories/NegativeModel.v
theories/NegativeSpec.v
theories/PropNegative.v
theories/ProjectionModel.v
theories/ProjectionSpec.v
theories/PropProjection.v
theories/SizedModel.v
theories/SizedSpec.v
theories/PropSized.v
theories/EntangleSpec.v
theories/PropEntangle.v
theories/CapacitySpec.v
theories/PropCapacity.v
theories/PartiesSpec.v
theories/PropParties.v
theories/PropDigits.v
theories/PropAccepted.v
theories/PropConverge.v
theories/PropUnique.v
