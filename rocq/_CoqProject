-Q theories Verif
theories/Along.v
theories/AlongFacts.v
theories/AlongProps.v
theories/Arb.v
theories/ArbFacts.v
theories/ArbProps.v
theories/Base.v
theories/ByLength.v
theories/ByLengthProps.v
theories/Chain.v
theories/ChainFacts.v
theories/ChainIter.v
theories/ChainProps.v
theories/ChainRun.v
theories/ChainSpec.v
theories/Collapse.v
theories/CollapseAngle.v
theories/CollapseCount.v
theories/CollapseFacts.v
theories/CollapseFlips.v
theories/CollapseMotionSpec.v
theories/CollapseProps.v
theories/CollapseRun.v
theories/CollapseShift.v
theories/CollapseSpec.v
theories/CollapseVertices.v
theories/Combinatorial.v
theories/CombinatorialFacts.v
theories/CombinatorialFlip.v
theories/CombinatorialHistory.v
theories/CombinatorialInsert.v
theories/CombinatorialOps.v
theories/CombinatorialOpsProps.v
theories/CombinatorialProps.v
theories/CombinatorialSlit.v
theories/CombinatorialSpec.v
theories/Connect.v
theories/ConnectFacts.v
theories/ConnectProps.v
theories/ConnectSpec.v
theories/Crossings.v
theories/CrossingsFacts.v
theories/CrossingsProps.v
theories/CrossingsSpec.v
theories/Deform.v
theories/DeformActs.v
theories/DeformCompose.v
theories/DeformFacts.v
theories/DeformGood.v
theories/DeformPath.v
theories/DeformPathProps.v
theories/DeformProps.v
theories/DeformSpec.v
theories/Eliminate.v
theories/EliminateConnected.v
theories/EliminateFacts.v
theories/EliminateMotion.v
theories/EliminateProps.v
theories/EliminateSpec.v
theories/Equivalence.v
theories/EquivalenceCode.v
theories/EquivalenceCount.v
theories/EquivalenceFacts.v
theories/EquivalenceFrame.v
theories/EquivalenceLinear.v
theories/EquivalenceLinearCode.v
theories/EquivalenceLinearIso.v
theories/EquivalenceLinearProps.v
theories/EquivalenceMaps.v
theories/EquivalenceNormal.v
theories/EquivalenceProps.v
theories/EquivalenceSame.v
theories/EquivalenceSpec.v
theories/EquivalenceWalk.v
theories/EquivalenceWord.v
theories/ExactReal.v
theories/Faces.v
theories/FacesFacts.v
theories/FacesProps.v
theories/FacesSpec.v
theories/FlatAngle.v
theories/FlatAngleProps.v
theories/FlatDelaunay.v
theories/FlatFacts.v
theories/FlatLinear.v
theories/FlatOps.v
theories/FlatProps.v
theories/FlatSector.v
theories/FlatSpec.v
theories/FlatSum.v
theories/FlatTri.v
theories/FlowSummary.v
theories/FlowSummaryProps.v
theories/HalfEdge.v
theories/HalfEdgeFacts.v
theories/HalfEdgeProps.v
theories/HalfPlane.v
theories/HalfPlaneProps.v
theories/IndexedSet.v
theories/IndexedSetFacts.v
theories/IndexedSetProps.v
theories/IndexedSetSpec.v
theories/Insert.v
theories/InsertFacts.v
theories/InsertImage.v
theories/InsertImageProps.v
theories/InsertKept.v
theories/InsertLoop.v
theories/InsertProps.v
theories/InsertSpec.v
theories/Intersection.v
theories/IntersectionProps.v
theories/IntervalExchange.v
theories/IntervalExchangeFacts.v
theories/IntervalExchangeFlow.v
theories/IntervalExchangeLarge.v
theories/IntervalExchangeMade.v
theories/IntervalExchangeProps.v
theories/IntervalExchangeSpec.v
theories/Isomorphism.v
theories/IsomorphismCells.v
theories/IsomorphismCellsProps.v
theories/IsomorphismCount.v
theories/IsomorphismFaces.v
theories/IsomorphismFacts.v
theories/IsomorphismProps.v
theories/IsomorphismSpec.v
theories/Lengths.v
theories/LengthsFacts.v
theories/LengthsProps.v
theories/LengthsSpec.v
theories/LengthsSubtract.v
theories/Linear.v
theories/LinearProps.v
theories/LongLong.v
theories/LongLongProps.v
theories/Normalize.v
theories/NormalizeProps.v
theories/Path.v
theories/PathProps.v
theories/Perm.v
theories/PermCycles.v
theories/PermFacts.v
theories/PermLemmas.v
theories/PermProps.v
theories/PermSpec.v
theories/Plane.v
theories/PlaneSpec.v
theories/Point.v
theories/PointEq.v
theories/PointFacts.v
theories/PointFlip.v
theories/PointFlipFacts.v
theories/PointHash.v
theories/PointOps.v
theories/PointPlane.v
theories/PointProps.v
theories/PointSpec.v
theories/Quadratic.v
theories/QuadraticFacts.v
theories/QuadraticProps.v
theories/QuadraticSpec.v
theories/Retriangulate.v
theories/RetriangulateFacts.v
theories/RetriangulateProps.v
theories/Saddle.v
theories/SaddleFacts.v
theories/SaddleProps.v
theories/SaddleSpec.v
theories/SaddleTurn.v
theories/Sample.v
theories/SampleFacts.v
theories/SampleProps.v
theories/SampleRun.v
theories/SampleSpec.v
theories/Search.v
theories/SearchAll.v
theories/SearchBlock.v
theories/SearchDepth.v
theories/SearchMoves.v
theories/SearchPlane.v
theories/SearchProps.v
theories/SearchRun.v
theories/SearchSpec.v
theories/SectorFacts.v
theories/SectorProps.v
theories/SectorSpec.v
theories/SectorTurn.v
theories/SectorTurnProps.v
theories/Serialize.v
theories/SerializeFacts.v
theories/SerializeProps.v
theories/Shift.v
theories/ShiftAngle.v
theories/ShiftFacts.v
theories/ShiftInvariants.v
theories/ShiftPath.v
theories/ShiftPathFacts.v
theories/ShiftPathProps.v
theories/ShiftPathSpec.v
theories/ShiftProps.v
theories/ShiftRun.v
theories/ShiftSpec.v
theories/ShortestProps.v
theories/Sqrt2.v
theories/Tracked.v
theories/TrackedProps.v
theories/Translate.v
theories/TranslateFacts.v
theories/TranslateMove.v
theories/TranslateProps.v
theories/TranslateRun.v
theories/TranslateSpec.v
theories/TranslateStay.v
theories/TranslateTotal.v
theories/UnionFind.v
theories/UnionFindProps.v
theories/UniqueLarge.v
theories/UniqueLargeAll.v
theories/UniqueLargeConverse.v
theories/UniqueLargeFacts.v
theories/UniqueLargeFlip.v
theories/UniqueLargeFlow.v
theories/UniqueLargeForever.v
theories/UniqueLargeProps.v
theories/UniqueLargeSpec.v
theories/Vector.v
theories/VectorFacts.v
theories/VectorProps.v
theories/Vertical.v
theories/VerticalComponents.v
theories/VerticalFacts.v
theories/VerticalProps.v
theories/VerticalSpec.v
