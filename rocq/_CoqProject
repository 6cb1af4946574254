-Q theories Verif
theories/Base.v
theories/BaseFacts.v
theories/CoordSys.v
theories/SpecGeom.v
theories/CoordSysFacts.v
theories/AverageFacts.v
theories/GeomCombined.v
theories/CoordSysR.v
theories/PropGeom.v
theories/Values.v
theories/CellList.v
theories/Container.v
theories/CellListFacts.v
theories/CellGeomFacts.v
theories/SpecContainer.v
theories/ContainerFacts.v
theories/ContainerQueries.v
theories/ContainerHist.v
theories/PropContainer.v
theories/Queue.v
theories/SpecQueue.v
theories/QueueFacts.v
theories/PropQueue.v
theories/NelderMead.v
theories/SpecMin.v
theories/NelderMeadFacts.v
theories/NelderMeadProps.v
theories/NelderMeadAffine.v
theories/NelderMeadExtra.v
theories/SpecStep.v
theories/StepFacts.v
theories/PropStep.v
theories/PropMin.v
theories/Hdf5.v
theories/SpecHdf5.v
theories/Hdf5Facts.v
theories/PropHdf5.v
theories/Mesh.v
theories/SpecMesh.v
theories/MeshFacts.v
theories/Stencil.v
theories/SpecStencil.v
theories/StencilFacts.v
theories/Controller.v
theories/SpecSearch.v
theories/Packing.v
theories/ControllerFacts.v
theories/ControllerSteps.v
theories/SearchFacts.v
theories/SearchProps.v
theories/SearchRestart.v
theories/SearchStart.v
theories/SpecRun.v
theories/SearchEnd.v
theories/SearchGenuine.v
theories/SearchExample.v
theories/PropSearch.v
theories/SaveFile.v
theories/SpecSave.v
theories/SaveFacts.v
theories/PropSave.v
theories/RunWrap.v
theories/PropRun.v
theories/PropMesh.v
theories/PropStencil.v
theories/Graph.v
theories/SpecGraph.v
theories/GraphFacts.v
theories/GraphComponents.v
theories/Cluster.v
theories/SpecCluster.v
theories/ClusterFacts.v
theories/PropCluster.v
theories/Dimension.v
theories/SpecDim.v
theories/DimensionFacts.v
theories/DrawFacts.v
theories/VolumeFacts.v
theories/LocalDim.v
theories/PropDim.v
theories/SpecVolume.v
theories/VolumeMean.v
theories/VolumeSpanned.v
theories/PropVolume.v
theories/Ballistic.v
theories/BallisticFacts.v
theories/PropBallistic.v
theories/Paths.v
theories/SpecPath.v
theories/PathFacts.v
theories/ShortestPath.v
theories/ShortestPathFacts.v
theories/PropShortest.v
theories/DomSet.v
theories/SpecDomSet.v
theories/DomSetFacts.v
theories/DomSetHoles.v
theories/DomSetDup.v
theories/PropDomSet.v
theories/Config.v
theories/SpecConfig.v
theories/ConfigFacts.v
theories/PropConfig.v
theories/Shape.v
theories/SpecShape.v
theories/ShapeFacts.v
theories/LineFacts.v
theories/PropShape.v
theories/Identify.v
theories/SpecIdentify.v
theories/IdentifyFacts.v
theories/PropIdentify.v
theories/PropPipeline.v
theories/SpecIsolated.v
theories/IsolatedFacts.v
theories/PropIsolated.v
theories/Plot.v
theories/SpecPlot.v
theories/PlotFacts.v
theories/PropPlot.v
theories/Hdf5Ident.v
theories/SpecHdf5Ident.v
theories/Hdf5IdentFacts.v
theories/PropHdf5Ident.v
theories/Float.v
theories/FloatFacts.v
theories/PropFloat.v
theories/FloatVector.v
theories/FloatVectorFacts.v
theories/PropFloatVector.v
theories/FloatMin.v
theories/FloatOrder.v
theories/SpecFloatMin.v
theories/FloatMinFacts.v
theories/FloatMinProps.v
theories/FloatMinExtra.v
theories/FloatMinExt.v
theories/PropFloatMin.v
theories/SpecStencilApprox.v
theories/StencilApprox.v
theories/PropStencilDefault.v
theories/FloatCell.v
theories/SpecFloatCell.v
theories/FloatCellNum.v
theories/FloatCellFacts.v
theories/PropFloatCell.v
theories/FloatCheck.v
theories/PropFloatCheck.v
theories/FloatController.v
theories/SpecFloatSearch.v
theories/FloatSearchFacts.v
theories/FloatSearchSteps.v
theories/FloatSearchLog.v
theories/FloatSearchProps.v
theories/FloatSearchEnd.v
theories/FloatPacking.v
theories/FloatStencil.v
theories/FloatSearchStart.v
theories/FloatSearchExample.v
theories/PropFloatSearch.v
theories/FloatMesh.v
theories/SpecFloatMesh.v
theories/FloatMeshNum.v
theories/FloatMeshFacts.v
theories/PropFloatMesh.v
theories/SpecFloatStencil.v
theories/SpecFloatRun.v
theories/FloatStencilFacts.v
theories/FloatStencilDefault.v
theories/PropFloatStencil.v
theories/FloatGenuine.v
theories/FloatRunExample.v
theories/PropFloatRun.v
theories/FloatDistNum.v
theories/SpecFloatCluster.v
theories/FloatCluster.v
theories/FloatClusterFacts.v
theories/PropFloatCluster.v
theories/SpecFloatStep.v
theories/FloatStepNum.v
theories/FloatStepFacts.v
theories/FloatEdge.v
theories/PropFloatStep.v
theories/FloatIdentify.v
theories/SpecFloatIdentify.v
theories/FloatSumFacts.v
theories/FloatAverage.v
theories/FloatIdentifyFacts.v
theories/FloatIdentifyExample.v
theories/PropFloatIdentify.v
theories/FloatLine.v
theories/SpecFloatLine.v
theories/FloatLineNum.v
theories/FloatLineFacts.v
theories/FloatIdentifyTotal.v
theories/PropFloatLine.v
theories/SpecFloatDim.v
theories/VolumeReal.v
theories/FloatDimNum.v
theories/FloatErrNum.v
theories/FloatDimFacts.v
theories/PropFloatDim.v
theories/PropInstances.v
theories/FloatRestart.v
theories/SpecFloatRestart.v
theories/PropFloatRestart.v
theories/StencilPlot.v
theories/PropStencilPlot.v
theories/FloatStrand.v
theories/SpecFloatGroups.v
theories/PropFloatGroups.v
theories/FloatCoord.v
theories/SpecFloatCoord.v
theories/FloatCoordFacts.v
theories/PropFloatCoord.v
theories/FloatPlot.v
theories/SpecFloatPlot.v
theories/FloatPlotFacts.v
theories/PropFloatPlot.v
