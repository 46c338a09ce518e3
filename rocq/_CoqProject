-Q theories Verif

theories/Base.v
theories/BaseFacts.v
theories/Geom.v
theories/Arith.v
theories/Types.v
theories/Utils.v
theories/Infinite.v
theories/Triangulation.v
theories/Constrained.v
theories/F64.v
theories/ModelTests.v
theories/AnyDT.v
theories/SpecCdt.v
theories/AnyCDT.v
theories/Small.v
theories/Mesh.v
theories/MeshOps.v
theories/Exact.v
theories/Walk.v
theories/MeshVerts.v
theories/Insert.v
theories/DTExact.v
theories/Rep.v
theories/ExactC.v
theories/CSwap.v
theories/CCross.v
theories/CReg.v
theories/CPres.v
theories/CTerm.v
theories/CSearch.v
theories/GridExact.v
theories/Cross.v
theories/Near.v
theories/Spec.v
theories/DTOut.v
theories/Lifted.v
theories/MeshEdge.v
theories/Lawson.v
theories/Empty.v
theories/CApply.v
theories/CTotal.v
theories/CdtApi.v
theories/CdtTotal.v
theories/CLocal.v
theories/Norm.v
theories/SepExact.v
theories/SepNorm.v
theories/QEnv.v
theories/QExact.v
theories/SFRep.v
theories/Grid64.v
theories/GridSpec.v
theories/InputSpec.v
theories/GridNum.v
theories/GridApi.v
theories/GridCdt.v
theories/ApiProps.v
theories/LawsonApi.v
theories/Pred.v
theories/PredApi.v
theories/ApiGrid.v
theories/Holes.v
theories/WalkEnd.v
theories/LawsonGrid.v
theories/QNorm.v
theories/Refuted.v
theories/Witness.v
theories/WitnessSep.v
theories/WitnessLawson.v
theories/SpecBox.v
theories/OneBin.v
theories/Box.v
theories/BoxGrid.v
theories/WitnessError.v
theories/WitnessBox.v
theories/SpecDomain.v
theories/LocalGrid.v
theories/WitnessLocal.v
theories/CDel.v
theories/CDelTwo.v
theories/Domain.v
theories/DomainApi.v
theories/CDelApi.v
theories/DomainGrid.v
theories/CDelGrid.v
theories/CUnique.v
theories/COrderApi.v
theories/COrderGrid.v
theories/WitnessDel.v
theories/WitnessOrder.v
theories/SpecUnique.v
theories/Unique.v
theories/UniqueGrid.v
theories/WitnessUnique.v
theories/Charact.v
theories/WitnessMove.v
theories/SpecVisible.v
theories/Visible.v
theories/VisibleGrid.v
theories/WitnessVisible.v
theories/CCharact.v
theories/WitnessCExact.v
theories/SpecAngle.v
theories/AngleR.v
theories/Angle.v
theories/AngleApi.v
theories/WitnessAngle.v
theories/SpecRound3d.v
theories/Round3d.v
theories/Round3dApi.v
theories/WitnessRound3d.v
theories/WitnessHole.v
theories/Debug.v
theories/SpecDebug.v
theories/DebugFacts.v
theories/DebugEnd.v
theories/DebugTrace.v
theories/DebugReplay.v
theories/WitnessDebug.v
theories/Space3d.v
theories/Quality.v
theories/SpecQuality.v
theories/QualityFacts.v
theories/QualityApi.v
theories/SpecMargin.v
theories/RoundCircle.v
theories/RoundCircleApi.v
theories/WitnessQuality.v
theories/WitnessMargin.v
theories/SpecSelect.v
theories/Select.v
theories/SelectGrid.v
theories/WitnessSelect.v
theories/Spec3d.v
theories/Space3dFacts.v
theories/Witness3d.v
theories/Input2d.v
theories/SpecCast.v
theories/Cast.v
theories/CastApi.v
theories/Slope.v
theories/Identical.v
theories/SpecCount.v
theories/Hull.v
theories/Count.v
theories/WitnessCount.v
theories/Cast3d.v
theories/WitnessCast.v
theories/SpecTally.v
theories/Germ.v
theories/GermCount.v
theories/Tally.v
theories/TallyGrid.v
theories/WitnessTally.v
theories/SpecWinding.v
theories/SpecFilling.v
theories/Winding.v
theories/Inside.v
theories/InsideGrid.v
theories/WitnessWinding.v
theories/Tube.v
theories/Polygon.v
theories/Jordan.v
theories/WitnessPolygon.v
theories/Ring.v
theories/Diagonal.v
theories/Filling.v
theories/FillingGrid.v
theories/Rays.v
theories/RaysGrid.v
theories/WitnessRays.v
theories/Outside.v
theories/WitnessOutside.v
theories/Anywhere.v
theories/AnywhereCount.v
theories/WitnessAnywhere.v
theories/SpecArea.v
theories/Facing.v
theories/Area.v
theories/AreaGrid.v
theories/BoxArea.v
theories/BoxAreaGrid.v
theories/WitnessFrame.v
theories/Used.v
theories/SpecTiles.v
theories/Tiles.v
theories/SpecTilesArea.v
theories/TilesArea.v
theories/TilesCount.v
theories/SpecConforming.v
theories/TilesBorder.v
theories/TypesMore.v
theories/TypesFacts.v
theories/SpecAlone.v
theories/TilesAlone.v
theories/WitnessTiles.v
theories/WitnessAlone.v
theories/WitnessFork.v
theories/Properties.v
