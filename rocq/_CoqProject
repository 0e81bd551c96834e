-Q theories Verif
theories/Bytes.v
theories/Real8.v
theories/Real8Facts.v
theories/Records.v
theories/Writer.v
theories/Reader.v
theories/Stream.v
theories/WriteTotal.v
theories/SpecFormat.v
theories/Tools.v
theories/RoundTrip.v
theories/ReadBack.v
theories/Grammar.v
theories/ToolsProofs.v
theories/FormatFacts.v
theories/PropFormat.v
theories/Graph.v
theories/SpecGraph.v
theories/GraphProofs.v
theories/GraphHistory.v
theories/PropGraph.v
theories/Plane.v
theories/SpecPlane.v
theories/PlaneProofs.v
theories/PropPlane.v
theories/Hier.v
theories/SpecHier.v
theories/HierProofs.v
theories/HierQuery.v
theories/HierBox.v
theories/HierFlat.v
theories/Cache.v
theories/CacheProofs.v
theories/PropHier.v
theories/PropQuery.v
theories/PropBox.v
theories/PropFlat.v
theories/Copy.v
theories/PropCopy.v
theories/Curve.v
theories/SpecCurve.v
theories/CurveProofs.v
theories/PropCurve.v
theories/PropCommands.v
theories/PropArc.v
theories/SpecEngine.v
theories/Engine.v
theories/PropEngine.v
theories/PropCut.v
theories/Flex.v
theories/SpecFlex.v
theories/PropFlexRows.v
theories/PropFlexEnds.v
theories/SpecRound.v
theories/PropFlexRound.v
theories/Hobby.v
theories/FlexProofs.v
theories/FlexMove.v
theories/PropFlexMove.v
theories/PropFlexPlace.v
theories/PropFlexCache.v
theories/PropFlexShape.v
theories/PropFlexInit.v
theories/Robust.v
theories/SpecRobust.v
theories/PropRobust.v
theories/PropRobustJoin.v
theories/RobustExample.v
theories/PropRobustEnds.v
theories/RobustMove.v
theories/PropRobustMove.v
theories/PropRobustPlace.v
theories/PropRobustShape.v
theories/PropRobustCache.v
theories/Path.v
theories/SpecPath.v
theories/PropPath.v
theories/PropPathJoin.v
theories/PropPathCurve.v
theories/PropPathSize.v
theories/PropPathMore.v
theories/L1.v
theories/SpecL1.v
theories/PropL1.v
theories/Grid.v
theories/SpecGrid.v
theories/PropGrid.v
theories/PropArray.v
theories/Fillet.v
theories/SpecFillet.v
theories/PropFillet.v
theories/Font.v
theories/Text.v
theories/SpecText.v
theories/PropText.v
theories/SpecSpine.v
theories/PropRobustSpine.v
theories/PropRobustCaps.v
theories/PropRobustSearch.v
theories/Smooth.v
theories/SpecSmooth.v
theories/PropSmooth.v
theories/PropSmoothAhead.v
theories/PropSmoothDefined.v
theories/Gauss.v
theories/PropSmoothMove.v
theories/PropSmoothMore.v
theories/PropRobustSmooth.v
theories/PropSmoothCurve.v
theories/SpecPathMove.v
theories/PropPathMove.v
theories/PropPathMirror.v
theories/SpecPathSmooth.v
theories/PropPathSmooth.v
theories/PropFlexSmooth.v
theories/SpecPathArc.v
theories/PropPathArc.v
theories/Circles.v
theories/SpecCircles.v
theories/PropCircles.v
theories/Poly.v
theories/SpecPoly.v
theories/PropPoly.v
theories/Svg.v
theories/SpecSvg.v
theories/PropSvg.v
theories/LinkHoles.v
theories/SpecLink.v
theories/PropLink.v
theories/Offset.v
theories/SpecOffset.v
theories/Winding.v
theories/OffsetFacts.v
theories/OffsetLoop.v
theories/OffsetTidy.v
theories/PropOffset.v
theories/PropOffsetCorner.v
theories/SpecTaper.v
theories/PropTaper.v
theories/SvgText.v
theories/SpecXml.v
theories/XmlFacts.v
theories/PropSvgText.v
theories/Machine.v
theories/SpecMachine.v
theories/PropMachine.v
theories/Sweep.v
theories/SpecSweep.v
theories/SweepCounts.v
theories/SweepActs.v
theories/SweepRings.v
theories/SweepSim.v
theories/PropSweep.v
theories/Beam.v
theories/SpecBeam.v
theories/PropBeam.v
theories/Ring.v
theories/SpecRing.v
theories/PropRing.v
theories/Hole.v
theories/SpecHole.v
theories/HoleFacts.v
theories/HoleSteps.v
theories/PropHole.v
theories/Tree.v
theories/SpecTree.v
theories/TreeFacts.v
theories/PropTree.v
theories/Scan.v
theories/SpecScan.v
theories/ScanFacts.v
theories/PropScan.v
