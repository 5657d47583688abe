-Q theories Verif
theories/Base.v
theories/Num.v
theories/MUtils.v
theories/MGeometry.v
theories/MCreation.v
theories/MAlgorithms.v
theories/MQuery.v
theories/MCelltree.v
theories/PStack.v
theories/PPartition.v
theories/SpecTree.v
theories/PBuild.v
theories/PBuild2.v
theories/PFail.v
theories/PWalk.v
theories/PCollect.v
theories/SpecQuery.v
theories/PQuery.v
theories/PMesh.v
theories/PInit.v
theories/NumR.v
theories/NumB64.v
theories/NumSub.v
theories/SpecApi.v
theories/PPoints.v
theories/PTreeFacts.v
theories/PApi.v
theories/NumRoom.v
theories/PNan.v
theories/Examples.v
theories/TestSuite.v
theories/TestAlgorithms.v
theories/TestCelltree.v
theories/TestMesh.v
theories/PropTree.v
theories/PEdges.v
theories/SpecGeom.v
theories/RBase.v
theories/GBox.v
theories/GEdges.v
theories/GLines.v
theories/GCyrus.v
theories/GTreeEdges.v
theories/GBuild.v
theories/PEdgesAny.v
theories/CsHang.v
theories/PropEdges.v
theories/SpecPoly.v
theories/GTriangle.v
theories/PSmall.v
theories/PropSmall.v
theories/PBounds.v
theories/PropBounds.v
theories/PropRefuted.v
theories/GConvex.v
theories/GHull.v
theories/GRay.v
theories/GCcw.v
theories/GFaces.v
theories/SpecMesh.v
theories/PropPoints.v
theories/GHelly.v
theories/GSat.v
theories/PFaces.v
theories/PropFaces.v
theories/GArea.v
theories/GClip.v
theories/SpecArea.v
theories/GClipArea.v
theories/GTiling.v
theories/PropArea.v
theories/PClip.v
theories/PropClip.v
theories/GWach.v
theories/PropWach.v
theories/GClipLine.v
theories/PropClipLine.v
theories/MPar.v
theories/SpecPar.v
theories/PPar.v
theories/PGarbage.v
theories/PParLoops.v
theories/PropPar.v
theories/MHeap.v
theories/SpecHeap.v
theories/PHeap.v
theories/PropHeap.v
theories/FBase.v
theories/FBuild.v
theories/FMesh.v
theories/PropFloat.v
theories/FPoint.v
theories/FLocate.v
theories/PropFloatPoints.v
theories/GMeasure.v
theories/GClose.v
theories/FCut.v
theories/PClipRun.v
theories/FClip.v
theories/FArea.v
theories/FOrient.v
theories/FOverlap.v
theories/PropFloatArea.v
theories/MDemo.v
theories/PDemo.v
theories/MDisk.v
theories/GDisk.v
theories/PropDemo.v
theories/FTurn.v
theories/PropFloatOrient.v
theories/FSat.v
theories/PropFloatFaces.v
theories/FWeights.v
theories/PropFloatWeights.v
theories/FBoxClip.v
theories/PropFloatClip.v
theories/PTreeBox.v
theories/FLines.v
theories/FEdgeTree.v
theories/FNetEdges.v
theories/PropFloatEdges.v
theories/FCyrus.v
theories/FMeshEdges.v
theories/PropFloatMeshEdges.v
theories/PPad.v
theories/PropPad.v
theories/SpecClear.v
theories/GStage.v
theories/PClipFwd.v
theories/FSlant.v
theories/FCouple.v
theories/FSlantArea.v
theories/FSlantClip.v
theories/GClearCheck.v
theories/FSlantFaces.v
theories/FSlantBoxes.v
theories/PropFloatSlant.v
theories/PropTriangle.v
theories/SpecWach.v
theories/GWachSpec.v
theories/FWach.v
theories/FWachSide.v
theories/FWachLoop.v
theories/FWachPoly.v
theories/FWachLocate.v
theories/PropFloatWach.v
theories/PropQueries.v
theories/FLiang.v
theories/PropFloatLiang.v
theories/MCast.v
theories/SpecCast.v
theories/PCast.v
theories/PropCast.v
theories/TestCast.v
theories/GPieces.v
theories/PropPieces.v
theories/PropInterp.v
theories/SpecOcc.v
theories/POcc.v
theories/PropOcc.v
theories/GPacking.v
theories/PropRegrid.v
theories/SpecHang.v
theories/GHang.v
theories/GHangMesh.v
theories/PropHang.v
theories/SpecConcave.v
theories/GConcave.v
theories/PropConcave.v
theories/PropConcaveRefuted.v
theories/FConcave.v
theories/PropFloatConcave.v
theories/SpecNumber.v
theories/PNumber.v
theories/PropNumber.v
theories/PBatch.v
theories/PropBatch.v
theories/FTriIn.v
theories/PropFloatTriangle.v
theories/PropSelect.v
theories/PropAlloc.v
theories/GAffine.v
theories/PropAffine.v
theories/SpecSplit.v
theories/PSplit.v
theories/GSplit.v
theories/PropSplit.v
theories/SpecDepth.v
theories/PDepth.v
theories/PropDepth.v
theories/PropSym.v
theories/PropOrder.v
theories/PropCorners.v
theories/PropFloatCorner.v
theories/PropWeights.v
theories/PropFloatMidpoint.v
theories/PropAxis.v
theories/PropSide.v
theories/SpecVisit.v
theories/PropSearch.v
theories/PropRowOrder.v
