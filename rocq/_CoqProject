-Q theories Verif
theories/Types.v
theories/Lang.v
theories/LangProofs.v
theories/BBox.v
theories/Grid.v
theories/SpecGeom.v
theories/BBoxProofs.v
theories/SpecGrid.v
theories/Setup.v
theories/SpecSetup.v
theories/SetupProofs.v
theories/Pml.v
theories/Mur.v
theories/Ghost.v
theories/Step.v
theories/StepShape.v
theories/StepBounds.v
theories/StepRace.v
theories/StepCount.v
theories/StepOnce.v
theories/SpecCone.v
theories/StepCone.v
theories/StepValue.v
theories/PmlValue.v
theories/MurValue.v
theories/MurThin.v
theories/SpecPml.v
theories/SpecPhys.v
theories/Linear.v
theories/P_Geometry.v
theories/P_Setup.v
theories/P_Step.v
theories/P_Phys.v
theories/GhostValue.v
theories/StepClosed.v
theories/SpecWalls.v
theories/Periodic.v
theories/SpecPeriodic.v
theories/PeriodicAll.v
theories/P_Walls.v
theories/P_Periodic.v
theories/SpecYee.v
theories/P_Yee.v
theories/SpecEnergy.v
theories/Energy.v
theories/P_Energy.v
theories/Media.v
theories/SpecMedia.v
theories/MediaProofs.v
theories/MediaCopy.v
theories/Debye.v
theories/Medium.v
theories/SpecMedium.v
theories/MediumProofs.v
theories/DebyeProofs.v
theories/P_Medium.v
theories/P_Media.v
theories/CArr.v
theories/Edges.v
theories/SpecEdges.v
theories/PmlProfile.v
theories/PmlProfileProofs.v
theories/EdgesProofs.v
theories/P_Grid.v
theories/P_Pml.v
theories/MurInit.v
theories/SpecMur.v
theories/P_Mur.v
theories/CStr.v
theories/SpecText.v
theories/TextProofs.v
theories/Mesh.v
theories/SpecMesh.v
theories/MeshProofs.v
theories/P_Mesh.v
theories/Waveform.v
theories/SpecWave.v
theories/SplineProofs.v
theories/P_Waveform.v
theories/Source.v
theories/SpecSource.v
theories/SourceProofs.v
theories/P_Source.v
theories/Sim.v
theories/Observer.v
theories/SpecObs.v
theories/ObserverProofs.v
theories/P_Sim.v
theories/P_Observer.v
theories/Cli.v
theories/SpecCli.v
theories/P_Cli.v
theories/Alloc.v
theories/SpecAlloc.v
theories/P_Alloc.v
theories/Gmsh.v
theories/SpecGmsh.v
theories/GmshProofs.v
theories/P_Gmsh.v
theories/PlaneWave.v
theories/PwProofs.v
theories/SpecPw.v
theories/PwTfsf.v
theories/PwGlobal.v
theories/P_PlaneWave.v
theories/P_PwVectors.v
theories/PwAux.v
theories/P_PwAux.v
theories/SpecPwAxis.v
theories/PwAxis.v
theories/PwPhase.v
theories/P_PwAxis.v
theories/P_PwBounds.v
theories/Filter.v
theories/SpecFilter.v
theories/P_Filter.v
theories/Sibc.v
theories/SpecSibc.v
theories/P_Sibc.v
theories/SpecSibcMesh.v
theories/P_SibcMesh.v
theories/Stable.v
theories/SpecStable.v
theories/StableStep.v
theories/P_Stable.v
theories/PwStable.v
theories/SpecPwWave.v
theories/P_PwWave.v
theories/Whole.v
theories/SpecWhole.v
theories/P_Whole.v
theories/SpecCards.v
theories/P_Cards.v
theories/Scan.v
theories/SpecScan.v
theories/P_Scan.v
theories/Front.v
theories/SpecFront.v
theories/P_Front.v
theories/Program.v
theories/P_FrontRun.v
theories/P_WholePar.v
theories/P_CardText.v
theories/P_CardText2.v
theories/SpecFile.v
theories/P_FrontStable.v
theories/FilterFile.v
theories/SpecFilterFile.v
theories/P_FilterFile.v
theories/P_FilterFront.v
theories/Gnuplot.v
theories/SpecGnuplot.v
theories/P_Gnuplot.v
theories/GnuplotPw.v
theories/SpecGnuplotPw.v
theories/P_GnuplotPw.v
theories/CliG.v
theories/SpecCliG.v
theories/P_CliG.v
theories/Dump.v
theories/P_Dump.v
theories/ExtRace.v
theories/P_ExtRace.v
theories/Process.v
theories/SpecProcess.v
theories/P_Process.v
theories/P_Positive.v
theories/SpecMaxwell.v
theories/P_Maxwell.v
theories/P_MaxwellOut.v
theories/SpecRecip.v
theories/P_Recip.v
theories/P_RecipEx.v
theories/SpecGauss.v
theories/P_Gauss.v
theories/P_GaussEx.v
theories/P_CardText3.v
theories/SpecDelay.v
theories/P_Delay.v
theories/P_CardText4.v
theories/P_Witness.v
theories/P_Witness2.v
theories/Timer.v
theories/P_Timer.v
theories/SpecBox.v
theories/BoxEnergy.v
theories/BoxCurl.v
theories/BoxStable.v
theories/P_Box.v
theories/P_BoxFile.v
theories/SpecTurn.v
theories/P_Turn.v
theories/P_TurnEx.v
theories/SpecMirror.v
theories/P_Mirror.v
theories/P_MirrorEx.v
theories/SpecMaxwellBox.v
theories/P_MaxwellBox.v
theories/P_MaxwellBoxEx.v
theories/SpecImage.v
theories/P_Image.v
theories/P_ImageEx.v
theories/SpecRound.v
theories/P_Round.v
theories/P_RoundEx.v
theories/Assumptions.v
theories/Shutdown.v
theories/SpecShutdown.v
theories/ShutdownProofs.v
theories/P_Shutdown.v
theories/Message.v
theories/SpecMessage.v
theories/P_Message.v
theories/Memory.v
theories/SpecMemory.v
theories/P_Memory.v
