-Q theories Verif
theories/Base.v
theories/Spec.v
theories/CellIdModel.v
theories/CellIdArith.v
theories/CellIdProofs.v
theories/PropsCellId.v
theories/CellUnionModel.v
theories/CellOrder.v
theories/CellUnionProofs.v
theories/CellUnionNormalize.v
theories/CellUnionOps.v
theories/CellUnionMore.v
theories/PropsCellUnion.v
theories/TokenModel.v
theories/TokenSpec.v
theories/TokenProofs.v
theories/PropsToken.v
theories/HilbertModel.v
theories/HilbertProofs.v
theories/HilbertSpec.v
theories/HilbertGeom.v
theories/PropsHilbert.v
theories/CovererModel.v
theories/CovererSpec.v
theories/CovererNormalize.v
theories/CovererProofs.v
theories/PropsCoverer.v
theories/F64.v
theories/F64Facts.v
theories/IntervalSpec.v
theories/F64Arith.v
theories/R1Model.v
theories/S1Model.v
theories/R1Proofs.v
theories/R2Proofs.v
theories/OrdTac.v
theories/S1Proofs.v
theories/S1Ops.v
theories/PropsInterval.v
theories/VectorModel.v
theories/StuvModel.v
theories/NeighborModel.v
theories/F64Error.v
theories/NeighborSpec.v
theories/NeighborWrap.v
theories/NeighborGeom.v
theories/NeighborTouch.v
theories/NeighborCorner.v
theories/NeighborProofs.v
theories/NeighborEdges.v
theories/NeighborLists.v
theories/NeighborAll.v
theories/NeighborExpand.v
theories/PropsNeighbor.v
theories/MetricModel.v
theories/MetricProofs.v
theories/PropsMetric.v
theories/ShapeModel.v
theories/PropsOrder.v
theories/PredicatesModel.v
theories/F64Neg.v
theories/PredicatesProofs.v
theories/PredicatesCrossing.v
theories/PropsPredicates.v
theories/PredicatesError.v
theories/PredicatesFloat.v
theories/PredicatesSound.v
theories/PredicatesStable.v
theories/PredicatesRobust.v
theories/PropsSign.v
theories/CellModel.v
theories/StuvError.v
theories/CellSpec.v
theories/CellLattice.v
theories/CellProofs.v
theories/CellPoint.v
theories/CellVertex.v
theories/PropsCell.v
theories/CapSpec.v
theories/CapModel.v
theories/ChordProofs.v
theories/CapProofs.v
theories/CapError.v
theories/PropsCap.v
theories/NormProofs.v
theories/CapCell.v
theories/CapEdge.v
theories/CapEdgeFloat.v
theories/CapEdgeMain.v
theories/PropsCapCell.v
theories/PropsNorm.v
theories/AngleModel.v
theories/AngleProofs.v
theories/PropsAngle.v
theories/CircleSpec.v
theories/ExpandProofs.v
theories/CircleProofs.v
theories/PropsCircle.v
theories/RectSpec.v
theories/RectModel.v
theories/RectProofs.v
theories/PropsRect.v
theories/PropsRect2.v
theories/CoverGeom.v
theories/CoverCell.v
theories/RegionModel.v
theories/RegionSpec.v
theories/CoverProofs.v
theories/PropsRegion.v
theories/CellBound.v
theories/UnionBound.v
theories/PropsRegion2.v
theories/TrigModel.v
theories/TrigSpec.v
theories/TrigProofs.v
theories/TrigCell.v
theories/TrigWitness.v
theories/PropsTrig.v
theories/RimGeom.v
theories/PropsRim.v
theories/PropsCell2.v
theories/PropsMetric2.v
theories/PropsFrame.v
theories/PropsCorner.v
theories/PropsCap2.v
theories/PropsDist.v
theories/BoundModel.v
theories/BoundSpec.v
theories/BoundProofs.v
theories/BoundCell.v
theories/BoundFace.v
theories/PropsBound.v
theories/PropsBound2.v
theories/PropsBound3.v
theories/Near.v
theories/PointModel.v
theories/PropsArea.v
theories/CrossProofs.v
theories/PointSpec.v
theories/PropsPoint.v
theories/PropsCap3.v
theories/FrameSpec.v
theories/PropsFrame2.v
theories/SegModel.v
theories/SegProofs.v
theories/SegFloat.v
theories/PropsSeg.v
theories/BudgetProofs.v
theories/BounderModel.v
theories/BounderSpec.v
theories/BounderFloat.v
theories/BounderLng.v
theories/PropsBounder.v
theories/RectDistModel.v
theories/RectDistProofs.v
theories/PropsRectDist.v
theories/MiscModel.v
theories/PropsMisc.v
theories/HausModel.v
theories/HausProofs.v
theories/PropsHaus.v
theories/ClipModel.v
theories/ClipProofs.v
theories/LinProofs.v
theories/PropsClip.v
theories/ClipReal.v
theories/ClipBridge.v
theories/PropsClipEdge.v
theories/PropsEdgeRect.v
theories/FaceSegModel.v
theories/PropsFaceSeg.v
theories/FaceTurn.v
theories/PropsFaceEnd.v
