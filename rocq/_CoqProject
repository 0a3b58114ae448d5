-Q theories Verif
theories/Base.v
theories/HashVec.v
theories/HashVecSem.v
theories/HashVecProofs.v
theories/Nomial.v
theories/NomialSem.v
theories/NomialProofs.v
theories/CanonProofs.v
theories/DiffProofs.v
theories/Sub.v
theories/SubSem.v
theories/SubProofs.v
theories/Mono.v
theories/Constraint.v
theories/ConstraintSem.v
theories/XNum.v
theories/SubExtra.v
theories/MonoProofs.v
theories/ConstraintProofs.v
theories/PropsAlgebra.v
theories/PropsSub.v
theories/PropsMono.v
theories/PropsConstraint.v
theories/Units.v
theories/UnitsSem.v
theories/UnitsProofs.v
theories/PropsUnits.v
theories/Array.v
theories/ArrayProofs.v
theories/PropsArray.v
theories/GPGen.v
theories/GPGenProofs.v
theories/PropsGP.v
theories/Bounds.v
theories/BoundsSem.v
theories/BoundsProofs.v
theories/PropsBounds.v
theories/Dual.v
theories/DualProofs.v
theories/PropsDual.v
theories/Sens.v
theories/SensSem.v
theories/SensProofs.v
theories/PerturbProofs.v
theories/PropsSens.v
theories/SGP.v
theories/SGPSem.v
theories/LocalProofs.v
theories/SGPProofs.v
theories/ApproxProofs.v
theories/RebuildProofs.v
theories/PropsSGP.v
theories/KeyDict.v
theories/KeyDictSem.v
theories/KeyDictProofs.v
theories/PropsKeyDict.v
theories/Subs.v
theories/SubsProofs.v
theories/PropsSubs.v
theories/Flat.v
theories/FlatProofs.v
theories/PropsFlat.v
theories/Relax.v
theories/RelaxSem.v
theories/RelaxProofs.v
theories/PropsRelax.v
theories/Checks.v
theories/PropsChecks.v
theories/Globals.v
theories/GlobalsProofs.v
theories/VarKeyProofs.v
theories/PropsGlobals.v
theories/Settings.v
theories/PropsSettings.v
theories/Sweep.v
theories/SweepProofs.v
theories/PropsSweep.v
theories/Solution.v
theories/PropsSolution.v
theories/Autosweep.v
theories/AutosweepProofs.v
theories/PropsAutosweep.v
theories/Solvers.v
theories/SolversSpec.v
theories/SolversProofs.v
theories/PropsSolvers.v
theories/Taylor.v
theories/TaylorProofs.v
theories/PropsTaylor.v
theories/Print.v
theories/PrintSpec.v
theories/PrintProofs.v
theories/PropsPrint.v
theories/SGPIterSpec.v
theories/SGPIterProofs.v
theories/SGPIterSub.v
theories/SGPIterLin.v
theories/SGPIterRun.v
theories/SGPIterCols.v
theories/PropsSGPIter.v
theories/Report.v
theories/ReportSpec.v
theories/ReportProofs.v
theories/PropsReport.v
theories/Layout.v
theories/PropsLayout.v
theories/SetInit.v
theories/PropsSetInit.v
theories/Docstring.v
theories/DocstringSpec.v
theories/DocstringStrings.v
theories/DocstringRows.v
theories/DocstringProofs.v
theories/DocstringLines.v
theories/PropsDocstring.v
theories/Verify.v
theories/PropsVerify.v
theories/Unbounded.v
theories/UnboundedSpec.v
theories/UnboundedProofs.v
theories/PropsUnbounded.v
theories/MosekCli.v
theories/MosekCliSpec.v
theories/MosekCliProofs.v
theories/PropsMosekCli.v
theories/Solve.v
theories/PropsSolve.v
theories/Vector.v
theories/PropsVector.v
theories/Lookup.v
theories/PropsLookup.v
theories/EndToEnd.v
theories/EndToEndSpec.v
theories/EndToEndProofs.v
theories/PropsEndToEnd.v
theories/Compare.v
theories/CompareSpec.v
theories/CompareProofs.v
theories/PropsCompare.v
theories/PenaltyProofs.v
theories/PropsPenalty.v
theories/Evaluated.v
theories/PropsEvaluated.v
theories/ConTable.v
theories/ConTableProofs.v
theories/PropsConTable.v
theories/Naming.v
theories/PropsNaming.v
theories/Saved.v
theories/PropsSaved.v
theories/PropsCsv.v
theories/Multipliers.v
theories/PropsMult.v
theories/PropsAgain.v
theories/EndToEndSens.v
theories/EndToEndSensSpec.v
theories/EndToEndSensProofs.v
theories/PropsEndToEndSens.v
theories/Sankey.v
theories/SankeySpec.v
theories/SankeyProofs.v
theories/PropsSankey.v
theories/SetLayout.v
theories/SetLayoutSpec.v
theories/SetLayoutProofs.v
theories/PropsSetLayout.v
theories/SolDiff.v
theories/SolDiffSpec.v
theories/SolDiffProofs.v
theories/PropsSolDiff.v
theories/SGPResults.v
theories/PropsSGPResults.v
theories/LocalEnd.v
theories/LocalEndSpec.v
theories/LocalEndProofs.v
theories/PropsLocalEnd.v
theories/Warnings.v
theories/PropsWarnings.v
theories/RelaxReport.v
theories/PropsRelaxReport.v
theories/SolRead.v
theories/PropsSolRead.v
theories/NomValue.v
theories/PropsNomValue.v
theories/Latex.v
theories/LatexSem.v
theories/LatexProofs.v
theories/PropsLatex.v
theories/Widgets.v
theories/PropsWidgets.v
theories/PlainStr.v
theories/PropsPlainStr.v
theories/Pickle.v
theories/PropsPickle.v
theories/PlotGrid.v
theories/PropsPlotGrid.v
theories/ModelTable.v
theories/PropsModelTable.v
theories/IndexStr.v
theories/PropsIndexStr.v
theories/Oracle.v
theories/PropsOracle.v
theories/PiStr.v
theories/PropsPiStr.v
theories/KeyText.v
theories/KeyTextSpec.v
theories/KeyTextProofs.v
theories/PropsKeyText.v
theories/Debug.v
theories/PropsDebug.v
theories/Keys.v
theories/PropsKeys.v
theories/NanCheck.v
theories/PropsNanCheck.v
theories/SolWarn.v
theories/PropsSolWarn.v
theories/SolverLog.v
theories/PropsSolverLog.v
theories/DiagramFile.v
theories/PropsDiagramFile.v
