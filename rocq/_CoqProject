-Q theories Verif
theories/Base.v
theories/Spec.v
theories/QLib.v
theories/ModelSegm.v
theories/SegmProofs.v
theories/MergeProofs.v
theories/PlanarGeo.v
theories/PlanarSum.v
theories/ModelFill.v
theories/ModelFilter.v
theories/FillProofs.v
theories/FillCorrect.v
theories/ModelCross.v
theories/CrossProofs.v
theories/CrossPoint.v
theories/MarksProofs.v
theories/CoreResults.v
theories/Properties01.v
theories/ModelSplit.v
theories/SplitProofs.v
theories/SplitPlanar.v
theories/SplitPass.v
theories/BinsProofs.v
theories/SplitApply.v
theories/SplitLoop.v
theories/SplitFlags.v
theories/ModelFrag.v
theories/ModelOverlay.v
theories/OverlayProofs.v
theories/FragProofs.v
theories/GridCover.v
theories/Properties02.v
theories/ModelGraph.v
theories/GraphProofs.v
theories/ModelExtract.v
theories/ExtractProofs.v
theories/ContourResults.v
theories/Rotation.v
theories/NextLink.v
theories/Properties03.v
theories/MoveLemma.v
theories/SectorLemma.v
theories/Sides.v
theories/WalkSides.v
theories/Orient.v
theories/Properties04.v
theories/ModelBind.v
theories/BindProofs.v
theories/BindSweep.v
theories/Drawn.v
theories/Thin.v
theories/Nest.v
theories/Properties05.v
theories/ModelLoops.v
theories/LoopProofs.v
theories/ModelDivide.v
theories/DivideProofs.v
theories/Properties06.v
theories/ModelString.v
theories/StringProofs.v
theories/StringResults.v
theories/StringMain.v
theories/Properties07.v
theories/ModelVector.v
theories/VectorProofs.v
theories/Properties08.v
theories/ModelMesh.v
theories/MeshProofs.v
theories/Properties09.v
theories/Natural.v
theories/MeshStrip.v
theories/ModelRect.v
theories/ModelOffset.v
theories/OffsetProofs.v
theories/Properties10.v
theories/RealMesh.v
theories/RealJoin.v
theories/RealReach.v
theories/Properties11.v
theories/RealMiter.v
theories/Properties12.v
theories/ModelOutline.v
theories/Properties13.v
theories/AreaWind.v
theories/ModelSlice.v
theories/SliceNext.v
theories/SliceWalk.v
theories/SliceLoops.v
theories/SliceMain.v
theories/SliceString.v
theories/SliceNest.v
theories/SliceShapes.v
theories/SliceFinal.v
theories/Properties14.v
theories/SplitNear.v
theories/InputCover.v
theories/Properties15.v
theories/FloatSpace.v
theories/ModelFloat.v
theories/FloatProofs.v
theories/OverlayNear.v
theories/FloatMain.v
theories/Properties16.v
theories/Rounds.v
theories/StringNear.v
theories/Properties17.v
theories/FloatString.v
theories/Properties18.v
theories/RealWind.v
theories/RealMove.v
theories/RealCorner.v
theories/RealStroke.v
theories/RealPieces.v
theories/RealCount.v
theories/RealCover.v
theories/RealPath.v
theories/RealRound.v
theories/OffsetNear.v
theories/Properties19.v
theories/Properties20.v
theories/RealOuter.v
theories/RealShift.v
theories/RealContour.v
theories/RealOffset.v
theories/RealAround.v
theories/Properties21.v
theories/OffsetEdges.v
theories/Properties22.v
theories/RealBack.v
theories/Properties23.v
theories/Stable.v
theories/Properties24.v
theories/Shift.v
theories/ShiftShapes.v
theories/Order.v
theories/Fewer.v
theories/Apart.v
theories/Properties25.v
theories/Relabel.v
theories/Properties26.v
theories/Reuse.v
theories/Properties27.v
theories/GridFind.v
theories/GridLoop.v
theories/Properties28.v
theories/Properties29.v
theories/AreaMono.v
theories/Properties30.v
theories/Masked.v
theories/Kept.v
theories/KeptShapes.v
theories/Properties31.v
theories/Properties32.v
theories/Properties33.v
theories/StringShift.v
theories/Properties34.v
theories/Properties35.v
theories/Properties36.v
