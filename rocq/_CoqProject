-Q theories Verif
theories/Vec.v
theories/BvhModel.v
theories/BvhFloat.v
theories/BvhArith.v
theories/VecLemmas.v
theories/BvhSpec.v
theories/BvhProofs.v
theories/BvhTraverse.v
theories/BvhBoxes.v
theories/BvhMorton.v
theories/BvhLimits.v
theories/BvhProps.v
theories/QueueModel.v
theories/QueueSpec.v
theories/QueueProofs.v
theories/QueueTrace.v
theories/QueueProps.v
theories/ParModel.v
theories/ParSpec.v
theories/ParProofs.v
theories/ParSumModel.v
theories/ParSumSpec.v
theories/ParSumProofs.v
theories/ParProps.v
theories/ParFindModel.v
theories/ParFindProps.v
theories/HmeshModel.v
theories/HmeshSpec.v
theories/HmeshCore.v
theories/HmeshCyc.v
theories/HmeshFaces.v
theories/HmeshAdd.v
theories/HmeshRemove.v
theories/HmeshParModel.v
theories/HmeshIter.v
theories/HmeshProps.v
theories/InputModel.v
theories/InputSpec.v
theories/InputProofs.v
theories/InputPar.v
theories/InputProps.v
theories/CompModel.v
theories/CompSpec.v
theories/CompProofs.v
theories/CompProps.v
theories/ExtractModel.v
theories/ExtractSpec.v
theories/ExtractProofs.v
theories/ExtractProps.v
theories/DispatchModel.v
theories/DispatchSpec.v
theories/DispatchFilter.v
theories/DispatchProofs.v
theories/DispatchCand.v
theories/DispatchEnd.v
theories/DispatchProps.v
theories/ITypeModel.v
theories/ITypeProps.v
theories/ApiModel.v
theories/ApiSpec.v
theories/ApiProofs.v
theories/ApiInv.v
theories/ApiDouble.v
theories/ApiProps.v
theories/ApiProps2.v
theories/ApiProps3.v
theories/EventModel.v
theories/EventSpec.v
theories/EventInv.v
theories/EventFate.v
theories/EventMono.v
theories/EventUser.v
theories/EventWait.v
theories/EventCb.v
theories/EventCb2.v
theories/EventAll.v
theories/EventEmit.v
theories/EventProps.v
theories/EventProps2.v
theories/EventLive.v
theories/EventFrame.v
theories/EventRel.v
theories/EventRel2.v
theories/DataModel.v
theories/DataSpec.v
theories/DataProofs.v
theories/DataFull.v
theories/DataRows.v
theories/DataEdges.v
theories/DataOver.v
theories/DataFace.v
theories/DataRace.v
theories/DataFan.v
theories/DataProps.v
theories/SeqModel.v
theories/SeqSpec.v
theories/SeqProofs.v
theories/SeqProps.v
theories/TriModel.v
theories/TriSpec.v
theories/TriProofs.v
theories/TriProps.v
theories/PartModel.v
theories/PartSpec.v
theories/PartOps.v
theories/PartRing.v
theories/PartMesh.v
theories/PartFace.v
theories/PartCut.v
theories/PartProofs.v
theories/PartRun.v
theories/PartProps.v
theories/GeoModel.v
theories/GeoSpec.v
theories/GeoSeg.v
theories/GeoPlane.v
theories/GeoProj.v
theories/GeoProps.v
theories/GeoPip.v
theories/GeoStrip.v
theories/GeoSweep.v
theories/GeoEvenOdd.v
theories/GeoTri.v
theories/GeoPipProps.v
theories/GeoPip3.v
theories/GeoPip3Props.v
theories/ShewModel.v
theories/ShewSpec.v
theories/ShewGrid.v
theories/ShewSum.v
theories/ShewExp.v
theories/ShewScale.v
theories/ShewEst.v
theories/Shew2d.v
theories/Shew3dBounds.v
theories/Shew3d.v
theories/Shew3dMain.v
theories/ShewProps.v
theories/ShewRange.v
theories/ShewRange2.v
theories/ShewDouble.v
theories/PlanarModel.v
theories/PlanarSpec.v
theories/PlanarProps.v
theories/CutModel.v
theories/CutSpec.v
theories/CutProofs.v
theories/CutProps.v
theories/CutInfo.v
theories/CutFloat.v
theories/CutProps2.v
theories/ClipModel.v
theories/ClipSpec.v
theories/ClipInv.v
theories/ClipProofs.v
theories/ClipFace.v
theories/ClipStart.v
theories/ClipProps.v
theories/ClipCases.v
theories/ClipThreads.v
theories/SplitModel.v
theories/SplitSpec.v
theories/SplitProofs.v
theories/SplitGeo.v
theories/SplitProps.v
theories/SplitClip.v
theories/SplitTies.v
theories/SplitCases.v
theories/PatchModel.v
theories/PatchSpec.v
theories/PatchProofs.v
theories/PatchColour.v
theories/PatchSeeds.v
theories/PatchProps.v
theories/PatchCases.v
theories/PointsModel.v
theories/PointsSpec.v
theories/PointsProofs.v
theories/PointsRun.v
theories/PointsProps.v
theories/PointsGeo.v
theories/PointsCases.v
theories/JoinModel.v
theories/JoinSpec.v
theories/JoinProofs.v
theories/JoinProps.v
theories/JoinCases.v
theories/JoinLine.v
theories/JoinGeo.v
theories/JoinGeoCases.v
theories/AreaModel.v
theories/AreaSpec.v
theories/AreaProps.v
theories/ShareModel.v
theories/ShareSpec.v
theories/ShareLocal.v
theories/ShareInv.v
theories/ShareProgress.v
theories/ShareEnd.v
theories/ShareStuck.v
theories/ShareProps.v
theories/SectionModel.v
theories/SectionSpec.v
theories/SectionProofs.v
theories/SectionTri.v
theories/SectionProps.v
theories/SectionCases.v
theories/JoinTwo.v
theories/LlistModel.v
theories/LlistSpec.v
theories/LlistBelt.v
theories/LlistInv.v
theories/LlistStep.v
theories/LlistEnd.v
theories/LlistProps.v
theories/SoupModel.v
theories/SoupSpec.v
theories/SoupProofs.v
theories/SoupProps.v
theories/WindModel.v
theories/WindAngle.v
theories/WindCocycle.v
theories/WindSpec.v
theories/WindRay.v
theories/WindProofs.v
theories/WindGeneric.v
theories/WindProps.v
theories/WindRefute.v
theories/SideModel.v
theories/SideSpec.v
theories/SideProofs.v
theories/SideProps.v
theories/SideCases.v
theories/SeverModel.v
theories/SeverSpec.v
theories/SeverProofs.v
theories/SeverWalk.v
theories/SeverEnd.v
theories/SeverProps.v
theories/SeverReach.v
theories/SeverTotal.v
theories/SeverFinish.v
