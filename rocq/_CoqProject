-Q theories Verif
theories/Spec.v
theories/Types.v
theories/Constraints.v
theories/ConstrSpec.v
theories/Base.v
theories/TypesProofs.v
theories/ClauseProofs.v
theories/ConstrProofs.v
theories/PropsTypes.v
theories/PropsConstraints.v
theories/Atomics.v
theories/Am1.v
theories/AtomicsProofs.v
theories/Am1Spec.v
theories/Am1Proofs.v
theories/Am1Stats.v
theories/PropsAtomics.v
theories/PropsAm1.v
theories/NodeDb.v
theories/TreeSpec.v
theories/TotDb.v
theories/TotDbInv.v
theories/TotDbUnit.v
theories/TotDbDefine.v
theories/TotDbGeneral.v
theories/TotDbBuild.v
theories/TotDbGrow.v
theories/TotDbMerge.v
theories/TotWeighted.v
theories/BoundSpec.v
theories/StatSpec.v
theories/BoundExec.v
theories/Totalizer.v
theories/TotDbHist.v
theories/TotalizerProofs.v
theories/NodeConProofs.v
theories/PropsTotalizer.v
theories/Maps.v
theories/Gte.v
theories/DbWorld.v
theories/GteProofs.v
theories/EncStats.v
theories/PropsGte.v
theories/Simulators.v
theories/SimProofs.v
theories/SimInst.v
theories/PropsSim.v
theories/EncSpec.v
theories/ConstrEnc.v
theories/ConstrEncProofs.v
theories/PropsEnc.v
theories/Adder.v
theories/AdderSem.v
theories/AdderNodes.v
theories/AdderProofs.v
theories/AdderHist.v
theories/AdderSingle.v
theories/PropsAdder.v
theories/VarSpec.v
theories/VarMan.v
theories/VarManProofs.v
theories/PropsVars.v
theories/Inst.v
theories/InstSpec.v
theories/InstProofs.v
theories/InstReindex.v
theories/PropsInst.v
theories/Opt.v
theories/OptSpec.v
theories/OptProofs.v
theories/OptNorm.v
theories/OptConv.v
theories/OptReindex.v
theories/PropsOpt.v
theories/SolverSpec.v
theories/Solver.v
theories/SolverUse.v
theories/SolverProofs.v
theories/SolverToy.v
theories/MaxSatSpec.v
theories/MaxSat.v
theories/MaxSatProofs.v
theories/PropsSolvers.v
theories/Text.v
theories/TextProofs.v
theories/FioSpec.v
theories/Dimacs.v
theories/DimacsSpec.v
theories/DimacsProofs.v
theories/DimacsGrammar.v
theories/PropsFiles.v
theories/Opb.v
theories/OpbSpec.v
theories/OpbProofs.v
theories/OpbInst.v
theories/ParserFuel.v
theories/PropsOpb.v
theories/Vline.v
theories/VlineSpec.v
theories/VlineProofs.v
theories/PropsVline.v
theories/Dpw.v
theories/DpwSpec.v
theories/DpwRef.v
theories/DpwBuild.v
theories/DpwBuckets.v
theories/DpwStruct.v
theories/DpwIf.v
theories/DpwInv.v
theories/DpwExtend.v
theories/DpwChain.v
theories/DpwLink.v
theories/DpwSem.v
theories/DpwMerge.v
theories/DpwHist.v
theories/DpwProofs.v
theories/DpwRefine.v
theories/PropsDpw.v
theories/Wrappers.v
theories/WrapperSpec.v
theories/WrapperProofs.v
theories/WrapperToy.v
theories/Handles.v
theories/HandleSpec.v
theories/HandleProofs.v
theories/PropsWrappers.v
theories/Tools.v
theories/ToolSpec.v
theories/ToolText.v
theories/ToolConv.v
theories/ToolProofs.v
theories/ToolOpb.v
theories/PropsTools.v
theories/CheckSpec.v
theories/CheckProofs.v
theories/PropsCheck.v
theories/EnumSpec.v
theories/EnumProofs.v
theories/PropsEnum.v
theories/ShuffleSpec.v
theories/ShuffleProofs.v
theories/PropsShuffle.v
theories/Gbmo.v
theories/SplitSpec.v
theories/GbmoProofs.v
theories/GbmoCheck.v
theories/GbmoSplit.v
theories/GbmoLex.v
theories/GbmoTool.v
theories/PropsGbmo.v
theories/DpwSingle.v
theories/Bench.v
theories/BenchSpec.v
theories/BenchProofs.v
theories/BenchAlloc.v
theories/BenchCnf.v
theories/PropsBench.v
theories/ClusterSpec.v
theories/ClusterProofs.v
theories/ClusterSem.v
theories/ClusterRead.v
theories/PropsCluster.v
theories/RefEnc.v
theories/RefSpec.v
theories/RefProofs.v
theories/PropsRef.v
theories/CertSpec.v
theories/CertBase.v
theories/CertSound.v
theories/Cert.v
theories/CertWorld.v
theories/CertDefs.v
theories/CertSem.v
theories/CertStep.v
theories/CertProofs.v
theories/CertTot.v
theories/CertHist.v
theories/CertTally.v
theories/CertConstr.v
theories/PropsCert.v
theories/CertW.v
theories/CertPbSpec.v
theories/CertPb.v
theories/PropsCertPb.v
theories/CertPbWorld.v
theories/CertWTree.v
theories/CertWStep.v
theories/CertWProofs.v
theories/CertWHist.v
theories/PropsCertGte.v
theories/CertWConstr.v
theories/PigeonsSpec.v
theories/Pigeons.v
theories/PigeonsProofs.v
theories/PigeonsLines.v
theories/PigeonsHist.v
theories/PigeonsSteps.v
theories/PropsPigeons.v
theories/CapiSpec.v
theories/Capi.v
theories/CapiProofs.v
theories/CapiInst.v
theories/PropsCapi.v
theories/IlpSpec.v
theories/Mo2ilp.v
theories/Mo2ilpProofs.v
theories/Mo2ilpTool.v
theories/PropsIlp.v
theories/Batsat.v
theories/BatsatSpec.v
theories/BatsatProofs.v
theories/PropsBatsat.v
theories/PySpec.v
theories/Pyapi.v
theories/PyProofs.v
theories/PropsPy.v
theories/CapiAdder.v
theories/PropsCapiAdder.v
theories/PyEnc.v
theories/PyEncProofs.v
theories/PropsPyEnc.v
theories/PyPb.v
theories/PyPbProofs.v
theories/PropsPyPb.v
theories/PyAm1.v
theories/PyAm1Proofs.v
theories/PropsPyAm1.v
theories/PyDpw.v
theories/PyDpwProofs.v
theories/PropsPyDpw.v
theories/CapiDpw.v
theories/CapiDpwProofs.v
theories/PropsCapiDpw.v
theories/PyAdder.v
theories/PyAdderProofs.v
theories/PropsPyAdder.v
