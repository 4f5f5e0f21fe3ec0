-Q theories Verif
theories/Cli.v
theories/SpecCli.v
theories/CliProofs.v
theories/MainProg.v
theories/SpecMain.v
theories/MainProofs.v
theories/Props_cli.v
theories/IdNum.v
theories/SpecId.v
theories/IdNumProofs.v
theories/Names.v
theories/Num.v
theories/Value.v
theories/Dom.v
theories/DomFacts.v
theories/DomOps.v
theories/Outcome.v
theories/Links.v
theories/TasksSimple.v
theories/SpecDom.v
theories/TasksSimpleProofs.v
theories/Props_simple.v
theories/Paths.v
theories/SpecPath.v
theories/PathProofs.v
theories/SpecCurve.v
theories/PathReals.v
theories/PathTests.v
theories/Props_paths.v
theories/Round.v
theories/SpecRound.v
theories/RoundProofs.v
theories/Props_round.v
theories/DomRemove.v
theories/Stops.v
theories/SpecStops.v
theories/AttrFacts.v
theories/StopsProofs.v
theories/Props_stops.v
theories/Shapes.v
theories/SpecShapes.v
theories/NPass.v
theories/Props_shapes.v
theories/APass.v
theories/SpecStyle.v
theories/Transforms.v
theories/SpecTransforms.v
theories/TransformsProofs.v
theories/Props_transforms.v
theories/Inherit.v
theories/SpecInherit.v
theories/VLoop.v
theories/Props_inherit.v
theories/Gradients.v
theories/SpecGradients.v
theories/GradProofs.v
theories/Props_gradients.v
theories/SpecWritten.v
theories/GradTransProofs.v
theories/Props_gradtrans.v
theories/RmDefault.v
theories/SpecDefaults.v
theories/Props_default.v
theories/UnusedCoords.v
theories/SpecCoords.v
theories/HideFacts.v
theories/Props_coords.v
theories/RmText.v
theories/SpecText.v
theories/TextProofs.v
theories/Props_text.v
theories/Needless.v
theories/SpecNeedless.v
theories/Visit.v
theories/NeedlessProofs.v
theories/Props_needless.v
theories/GradUnits.v
theories/SpecGradUnits.v
theories/GradUnitsProofs.v
theories/Props_gradunits.v
theories/SpecJoin.v
theories/JoinStyle.v
theories/Props_join.v
theories/Move.v
theories/RmUnusedDefs.v
theories/Props_defs.v
theories/MoveFacts.v
theories/GroupDefs.v
theories/GroupDefsProofs.v
theories/GroupDefsEnd.v
theories/SpecGroupDefs.v
theories/GroupDefsLinks.v
theories/Props_groupdefs.v
theories/SpecDupl.v
theories/Dupl.v
theories/DuplFacts.v
theories/DuplProofs.v
theories/BlurProofs.v
theories/Props_dupl.v
theories/MergeGradients.v
theories/Graft.v
theories/SpecMerge.v
theories/MergeProofs.v
theories/MergeEnd.v
theories/Props_merge.v
theories/Regroup.v
theories/SpecRegroup.v
theories/RegroupProofs.v
theories/RegroupEnd.v
theories/Props_regroup.v
theories/SpecPaint.v
theories/PaintFacts.v
theories/PaintRun.v
theories/Img.v
theories/ResolveUse.v
theories/SpecUse.v
theories/UseProofs.v
theories/UseStep.v
theories/UseEnd.v
theories/Props_use.v
theories/Ungroup.v
theories/Push.v
theories/Melt.v
theories/SpecUngroup.v
theories/UngroupProofs.v
theories/SpecShading.v
theories/Shading.v
theories/UngroupKeep.v
theories/UngroupEnd.v
theories/Props_ungroup.v
theories/Hoist.v
theories/Wrap.v
theories/GroupStyle.v
theories/StyleTable.v
theories/SpecGroupStyle.v
theories/StyleMove.v
theories/StyleHoist.v
theories/StyleEnd.v
theories/Props_groupstyle.v
theories/RmInvisible.v
theories/Clean.v
theories/SpecClean.v
theories/Props_clean.v
theories/WfAll.v
theories/WfPasses.v
theories/WfPasses2.v
theories/WfStruct.v
theories/WfUse.v
theories/WfGrad.v
theories/SpecWf.v
theories/Props_wf.v
theories/SpecPanic.v
theories/PlainTree.v
theories/PlainPasses.v
theories/PlainSkip.v
theories/PlainMove.v
theories/PlainDefs.v
theories/PlainInvisible.v
theories/PlainUngroup.v
theories/PlainEnd.v
theories/SpecEnds.v
theories/Ends.v
theories/Props_ends.v
theories/PlainAll.v
theories/Mild.v
theories/MildPasses.v
theories/MildMove.v
theories/MildUngroup.v
theories/MildInvisible.v
theories/MildDupl.v
theories/MildMerge.v
theories/MildDefs.v
theories/MildRegroup.v
theories/MildUse.v
theories/SpecTidy.v
theories/MildAll.v
theories/Props_tidy.v
theories/Still.v
theories/SpecAccept.v
theories/StillAll.v
theories/Props_accept.v
theories/Props_panic.v
theories/SpecVisible.v
theories/VisStep.v
theories/VisKeep.v
theories/VisInv.v
theories/VisPass.v
theories/VisPass2.v
theories/VisPass3.v
theories/VisDefs.v
theories/VisCheck.v
theories/Props_visible.v
theories/SpecPicture.v
theories/PictureSim.v
theories/PictureTwin.v
theories/PictureTail.v
theories/PictureRemarks.v
theories/SteppedReady.v
theories/SpecPrepared.v
theories/PictureServers.v
theories/PicturePrep.v
theories/PictureGrad.v
theories/SpecRamps.v
theories/PictureShades.v
theories/PictureEnd.v
theories/RampsRun.v
theories/RampsWork.v
theories/Props_picture.v
theories/RampsPrep.v
theories/Props_ramps.v
theories/SpecGeometry.v
theories/Geometry.v
theories/GeoPasses.v
theories/GeoRun.v
theories/GeoResolve.v
theories/GeoVectors.v
theories/PictureRun.v
theories/Props_picturerun.v
theories/Props_geometry.v
theories/Props_textgone.v
theories/Props_needlessgone.v
theories/Props_invisiblegone.v
theories/SpecValues.v
theories/StillValues.v
theories/StillValuesAll.v
theories/Props_values.v
theories/SpecDigits.v
theories/Props_digits.v
theories/Props_final.v
theories/SpecIds.v
theories/StillIds.v
theories/Props_ids.v
theories/Props_pathopts.v
