-Q theories Verif
theories/Base.v
theories/BaseLemmas.v
theories/Cluster.v
theories/SpecCluster.v
theories/ClusterInv.v
theories/ClusterRefine.v
theories/ClusterGeom.v
theories/ClusterAbs.v
theories/ClusterRun.v
theories/ClusterMain.v
theories/ClusterAny.v
theories/Kernel.v
theories/KernelProofs.v
theories/ClusterTop.v
theories/ClusterMore.v
theories/Properties_Cluster.v
theories/Labels.v
theories/SpecLabels.v
theories/LabelsProofs.v
theories/LabelsTop.v
theories/Properties_Labels.v
theories/Array3.v
theories/Array3Lemmas.v
theories/Dilate.v
theories/DilateProofs.v
theories/SpecDilate.v
theories/DilateTop.v
theories/DilateMore.v
theories/Properties_Dilate.v
theories/Path.v
theories/SpecPath.v
theories/PathProofs.v
theories/LineProofs.v
theories/LineGeom.v
theories/PathTop.v
theories/Properties_Path.v
theories/Ensemble.v
theories/SpecEnsemble.v
theories/EnsembleSums.v
theories/EnsembleLin.v
theories/EnsembleWindow.v
theories/EnsembleTop.v
theories/EnsembleAdd.v
theories/EnsembleRun.v
theories/EnsembleDist.v
theories/EnsembleMore.v
theories/EnsembleRefute.v
theories/EnsembleL.v
theories/EnsembleW2c.v
theories/Properties_Ensemble.v
theories/Properties_Lineal.v
theories/Center.v
theories/SpecCenter.v
theories/CenterProofs.v
theories/CenterTop.v
theories/CenterLabels.v
theories/CenterRefute.v
theories/Properties_Center.v
theories/Circles.v
theories/SpecCircles.v
theories/CirclesProofs.v
theories/Properties_Circles.v
theories/Structure.v
theories/SpecStructure.v
theories/StructureProofs.v
theories/StructureProofs2.v
theories/StructureTop.v
theories/StructureOrder.v
theories/StructureInt.v
theories/SpecStructureAll.v
theories/StructureAll.v
theories/Properties_Structure.v
theories/StructureVar.v
theories/SpecStructureVar.v
theories/StructureVarTop.v
theories/Properties_StructureVar.v
theories/StructureExn.v
theories/SpecStructureExn.v
theories/StructureExnTop.v
theories/Properties_StructureExn.v
theories/Misc.v
theories/SpecMisc.v
theories/MiscProofs.v
theories/Properties_Misc.v
theories/SpecSymmetry.v
theories/DerivedCluster.v
theories/DerivedDilate.v
theories/SpecMoved.v
theories/DerivedEnsemble.v
theories/SpecAlgebra.v
theories/DerivedAlgebra.v
theories/DerivedRun.v
theories/EnsembleRefute2.v
theories/EnsemblePy.v
theories/SpecPy.v
theories/DerivedPy.v
theories/EnsemblePyTop.v
theories/Properties_Derived.v
theories/Properties_DerivedDilate.v
theories/Properties_DerivedEnsemble.v
theories/Properties_Algebra.v
theories/Properties_Py.v
theories/BindingsPy.v
theories/SpecBindings.v
theories/DerivedBindings.v
theories/Properties_Bindings.v
theories/Double.v
theories/DoubleProofs.v
theories/EnsembleFloat.v
theories/SpecDouble.v
theories/EnsembleFloatProofs.v
theories/EnsembleFloatTop.v
theories/EnsembleFloatMask.v
theories/EnsembleFloatOrder.v
theories/EnsembleFloatMean.v
theories/Properties_Float.v
theories/PathFloat.v
theories/PathFloatProofs.v
theories/PathTolerance.v
theories/PathFloatTop.v
theories/Properties_PathFloat.v
theories/DerivedLineal.v
theories/SpecLineal.v
theories/LinealCover.v
theories/LinealTop.v
theories/Properties_LinealOrder.v
theories/SpecRelations.v
theories/DerivedRelations.v
theories/WienerKhinchin.v
theories/Properties_Relations.v
theories/DoubleError.v
theories/SpecError.v
theories/EnsembleError.v
theories/EnsembleErrorCalls.v
theories/EnsembleErrorTop.v
theories/Properties_Error.v
theories/BindingsGeom.v
theories/SpecGeom.v
theories/DerivedGeom.v
theories/Properties_Geom.v
theories/SpecLabelLaws.v
theories/LabelLaws.v
theories/Properties_LabelLaws.v
theories/SpecCenterMoved.v
theories/CenterMoved.v
theories/Properties_CenterMoved.v
theories/SpecPathSym.v
theories/PathSym.v
theories/PathBack.v
theories/Properties_PathSym.v
theories/SpecCirclesLaws.v
theories/CirclesLaws.v
theories/Properties_CirclesLaws.v
theories/CirclesFloat.v
theories/SpecCirclesFloat.v
theories/CirclesFloatProofs.v
theories/CirclesFloatGrid.v
theories/CirclesFloatTop.v
theories/Properties_CirclesFloat.v
theories/CenterFloat.v
theories/SpecCenterFloat.v
theories/CenterFloatSums.v
theories/CenterFloatTrig.v
theories/CenterFloatTop.v
theories/CenterFloatBox.v
theories/CenterFloatCase.v
theories/Properties_CenterFloat.v
theories/BindingsCall.v
theories/SpecCall.v
theories/DerivedCall.v
theories/EnsembleCall.v
theories/DerivedEnsembleCall.v
theories/EnsembleCallCase.v
theories/Properties_Call.v
theories/SpecDilateRule.v
theories/DilateRule.v
theories/Properties_DilateRule.v
theories/LinealClusters.v
theories/LinealClustersCase.v
theories/Properties_LinealClusters.v
theories/SpecC2Sum.v
theories/C2Sum.v
theories/Properties_C2Sum.v
theories/W2cLaws.v
theories/W2cLawsCase.v
theories/SpecLinealMoved.v
theories/LinealMoved.v
theories/LinealMovedTop.v
theories/LinealMovedCase.v
theories/Properties_LinealMoved.v
theories/Refused.v
theories/SpecRefused.v
theories/RefusedTop.v
theories/Properties_Refused.v
theories/SpecAxis.v
theories/AxisTop.v
theories/SpecRoi.v
theories/RoiTop.v
theories/Properties_Roi.v
theories/SpecThin.v
theories/ThinTop.v
theories/Properties_Thin.v
theories/SpecTile.v
theories/TileTop.v
theories/Properties_Tile.v
theories/SpecPad.v
theories/PadTop.v
theories/Properties_Pad.v
theories/TileMore.v
theories/Properties_TileMore.v
theories/SpecPiece.v
theories/PieceTop.v
theories/Properties_Piece.v
theories/LabelsTyped.v
theories/SpecTyped.v
theories/LabelsTypedTop.v
theories/Properties_Typed.v
theories/SpecCenterMirror.v
theories/CenterMirror.v
theories/Properties_CenterMirror.v
theories/SpecInt.v
theories/IntArith.v
theories/IntProofs.v
theories/IntCircles.v
theories/Properties_Int.v
theories/ClustersInt.v
theories/ClustersIntProofs.v
theories/Properties_ClustersInt.v
theories/SpecSpectrum.v
theories/StructureLaws.v
theories/Properties_StructureLaws.v
theories/SpecDilateLaws.v
theories/DilateLaws.v
theories/Properties_DilateLaws.v
theories/StructureFloat.v
theories/SpecStructureFloat.v
theories/StructureFloatProofs.v
theories/StructureFloatTop.v
theories/StructureFloatLaws.v
theories/StructureFloatEnd.v
theories/Properties_StructureFloat.v
theories/Collapse.v
theories/SpecCollapse.v
theories/CollapseProofs.v
theories/CollapseMean.v
theories/CollapseTop.v
theories/CollapseCase.v
theories/CollapseEdge.v
theories/Properties_Collapse.v
theories/SpecSafe.v
theories/SafeProofs.v
theories/SafeTop.v
theories/SafePy.v
theories/Properties_Safe.v
theories/CollapseFloat.v
theories/SpecCollapseFloat.v
theories/CollapseFloatTop.v
theories/CollapseFloatCase.v
theories/Properties_CollapseFloat.v
theories/Layout.v
theories/SpecLayout.v
theories/LayoutTop.v
theories/Properties_Layout.v
theories/Alias.v
theories/SpecAlias.v
theories/AliasTop.v
theories/Properties_Alias.v
theories/SpecPathEnd.v
theories/PathEnd.v
theories/Properties_PathEnd.v
theories/SpecW2cSlide.v
theories/W2cSlide.v
theories/Properties_W2cSlide.v
theories/SpecDilateHalo.v
theories/DilateHalo.v
theories/DilateHaloOne.v
theories/DilateHaloMore.v
theories/Properties_DilateHalo.v
theories/SpecAxes.v
theories/AxesLaws.v
theories/AxesEnsemble.v
theories/AxesCenter.v
theories/Properties_Axes.v
theories/W2cLawsAny.v
theories/Properties_W2cLaws.v
theories/SpecLabellerMoved.v
theories/LabellerMoved.v
theories/LabellerMovedTop.v
theories/Properties_LabellerMoved.v
theories/SpecLabellerPrune.v
theories/LabellerPrune.v
theories/LabellerPruneTop.v
theories/Properties_LabellerPrune.v
theories/SpecLabellerOne.v
theories/LabellerOne.v
theories/Properties_LabellerOne.v
theories/PathFloatEnd.v
theories/PathMachine.v
theories/PathFull.v
theories/Properties_PathMachine.v
theories/EnsembleMachine.v
theories/SpecMachine.v
theories/EnsembleMachineProofs.v
theories/Properties_Machine.v
theories/LabelsTrack.v
theories/Properties_Track.v
theories/StructureFreq.v
theories/SpecFreq.v
theories/StructureFreqProofs.v
theories/StructureFreqTop.v
theories/Properties_Freq.v
theories/EnsembleDistFloat.v
theories/SpecDistFloat.v
theories/EnsembleDistFloatProofs.v
theories/EnsembleDistFloatTop.v
theories/Properties_DistFloat.v
theories/W2cRolled.v
theories/W2cTiled.v
theories/CollapseAny.v
theories/SpecPositive.v
theories/PositiveDefinite.v
theories/Properties_Positive.v
theories/SpecLinks.v
theories/Links.v
theories/Properties_Links.v
theories/SpecChord.v
theories/ChordTop.v
theories/Properties_Chord.v
theories/SpecRow.v
theories/RowTop.v
theories/RowLineal.v
theories/Properties_Row.v
theories/SpecEuler.v
theories/EulerTop.v
theories/EulerS2.v
theories/Properties_Euler.v
theories/GrowKernel.v
theories/Properties_GrowKernel.v
theories/UnitTop.v
theories/UnitLineal.v
theories/UnitKernel.v
theories/Properties_Unit.v
theories/AxisClusters.v
theories/SpecOneCluster.v
theories/OneCluster.v
theories/Properties_OneCluster.v
theories/SpecRepeat.v
theories/RepeatTop.v
theories/Properties_Repeat.v
theories/SpecRegister.v
theories/RegisterTop.v
theories/Properties_Register.v
theories/SpecSameCluster.v
theories/SameClusterTop.v
theories/Properties_SameCluster.v
theories/RepeatClusters.v
theories/Properties_RepeatClusters.v
