-Q theories Verif
theories/Base.v
theories/CoordMask.v
theories/CoordMaskSpec.v
theories/CoordMaskProofs.v
theories/Num.v
theories/Vertex.v
theories/VertexSpec.v
theories/VertexProofs.v
theories/ThresholdProofs.v
theories/PropsMask.v
theories/PropsVertex.v
theories/Grid.v
theories/SubGrid.v
theories/SubGridProofs.v
theories/VertexTypes.v
theories/VertexTypesProofs.v
theories/GridEdges.v
theories/GridEdgesSpec.v
theories/GridEdgesProofs.v
theories/SmallestEdge.v
theories/SmallestEdgeSpec.v
theories/SmallestEdgeProofs.v
theories/Crossings.v
theories/CrossingsSpec.v
theories/CrossingsProofs.v
theories/PropsConstruct.v
theories/DisjointSet.v
theories/DisjointSetSpec.v
theories/DisjointSetProofs.v
theories/FinPerm.v
theories/FaceCollapser.v
theories/FaceCollapserSpec.v
theories/FaceCollapserProofs.v
theories/FaceCollapserIds.v
theories/FaceCollapserLoops.v
theories/AngleSort.v
theories/AngleSortSpec.v
theories/AngleSortProofs.v
theories/FaceCollapserGeom.v
theories/PropsCollapse.v
theories/CellCollapser.v
theories/CellCollapserSpec.v
theories/CellCollapserProofs.v
theories/CellCollapserMerge.v
theories/CellCollapserClean.v
theories/PropsCells.v
theories/AdaptiveGrid.v
theories/AdaptiveFactory.v
theories/AdaptiveSpec.v
theories/AdaptiveProofs.v
theories/AdaptiveFaces.v
theories/AdaptiveFactoryProofs.v
theories/AdaptiveMore.v
theories/PropsAdaptive.v
theories/PropsAdaptive2.v
theories/PropsAdaptive3.v
theories/ExteriorGrid.v
theories/ExteriorProofs.v
theories/PropsExterior.v
theories/Mesh.v
theories/Proto.v
theories/ProtoProofs.v
theories/PropsProto.v
theories/Volume.v
theories/VolumeProofs.v
theories/PropsVolume.v
theories/Sparse.v
theories/Diffgeo.v
theories/PropsDiffgeo.v
theories/Mesh2.v
theories/PropsMesh2.v
theories/Interp.v
theories/PropsInterp.v
theories/Boundary3.v
theories/PropsBoundary3.v
theories/Regions.v
theories/PropsRegions.v
theories/Exploder.v
theories/PropsExploder.v
theories/PlCurve.v
theories/PropsPlCurve.v
theories/Deform.v
theories/PropsDeform.v
theories/ActiveMask.v
theories/PropsActiveMask.v
theories/ExternalBoundary.v
theories/PropsExternal.v
theories/EdgeBake.v
theories/EdgeBakeProofs.v
theories/PropsEdgeBake.v
theories/CutEdges.v
theories/PropsCutEdges.v
theories/TriBake.v
theories/PropsTri.v
theories/Queries3.v
theories/PropsQueries3.v
theories/PropsQueries4.v
theories/Surface2.v
theories/PropsSurface2.v
theories/Line.v
theories/PropsLine.v
theories/PropsIngest.v
theories/Slicer.v
theories/PropsSlicer.v
theories/CutLife.v
theories/PropsLife.v
theories/Hem.v
theories/PropsHem.v
theories/Gen3.v
theories/PropsGen3.v
theories/Gen2.v
theories/PropsGen2.v
theories/Regions2.v
theories/PropsRegions2.v
theories/Hodge3.v
theories/PropsHodge3.v
theories/Triangulate.v
theories/PropsTriang.v
theories/BaryMap.v
theories/PropsBary.v
theories/Generator.v
theories/PropsGenerator.v
theories/PropsGenerator2.v
theories/Validation.v
theories/PropsValidation.v
theories/PropsValidation2.v
theories/PropsValidation3.v
theories/PropsValidation4.v
theories/GenChecks.v
theories/PropsGenChecks.v
theories/BakeCells.v
theories/PropsBake.v
theories/Wedge.v
theories/WedgeSpec.v
theories/WedgeProofs.v
theories/PropsWedge.v
theories/Slices.v
theories/PropsSlices.v
theories/Centroid2.v
theories/PropsCentroid2.v
theories/Gen2Whole.v
theories/PropsGen2Whole.v
theories/Gen3Whole.v
theories/PropsGen3Whole.v
theories/Incidence3.v
theories/PropsIncidence3.v
theories/PropsIncidence3b.v
theories/FaceStage.v
theories/PropsFaceStage.v
theories/ExportObj.v
theories/PropsExport.v
theories/Laplace.v
theories/PropsPcg.v
theories/PropsLaplace.v
theories/Ldlt.v
theories/PropsLdlt.v
theories/CutFile.v
theories/PropsCutFile.v
theories/DrawCurve.v
theories/PropsDrawCurve.v
theories/FrontEnd.v
theories/PropsFrontEnd.v
theories/MergeFaces.v
theories/PropsMerge.v
theories/GuiSession.v
theories/PropsGui.v
theories/SliceCap.v
theories/PropsSliceCap.v
theories/EdgeCurves.v
theories/PropsEdgeCurves.v
theories/Viewer2D.v
theories/PropsViewer2D.v
theories/ExplodedViewer.v
theories/PropsExplodedViewer.v
theories/PropsAdaptive4.v
theories/AdaptiveEdges.v
theories/PropsAdaptiveEdges.v
theories/MeshViewers.v
theories/PropsMeshViewers.v
theories/CleanSpurs.v
theories/PropsSpurs.v
theories/PropsGridBoundary2.v
theories/PropsFaceMask.v
theories/PropsRegionCentroids.v
theories/PropsWrappers.v
theories/PropsLoopNormals.v
theories/PropsWholeExport.v
