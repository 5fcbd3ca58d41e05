-Q theories Verif
theories/SpecLinear.v
theories/SpecMatrix.v
theories/VecProofs.v
theories/MathModel.v
theories/ConstraintsModel.v
theories/GcdProofs.v
theories/SimplifyProofs.v
theories/SortProofs.v
theories/FMProofs.v
theories/FarkasProofs.v
theories/EditProofs.v
theories/RankProofs.v
theories/MatrixProofs.v
theories/ListProofs.v
theories/Checkers.v
theories/PropLinear.v
theories/PropSets.v
theories/PropMatrix.v
theories/SpecGraph.v
theories/GraphModel.v
theories/GraphProofs.v
theories/GraphProofs2.v
theories/PropGraph.v
theories/SpecProg.v
theories/FrameworkModel.v
theories/SumProofs.v
theories/FrameworkProofs.v
theories/DepProofs.v
theories/ExProg.v
theories/PropFramework.v
theories/LexProofs.v
theories/ProgModel.v
theories/ProgProofs.v
theories/PropProgram.v
theories/SpecDriver.v
theories/DriverModel.v
theories/HypProofs.v
theories/PropDriver.v
theories/KeepProofs.v
theories/DriverProofs.v
theories/PadProofs.v
theories/AutoProofs.v
theories/PropAuto.v
theories/GrowProofs.v
theories/AutoProofs2.v
theories/SpecTile.v
theories/TileModel.v
theories/TileProofs.v
theories/TileProofs2.v
theories/TileProofs3.v
theories/PropTile.v
theories/SpecLoop.v
theories/LoopModel.v
theories/LoopProofs.v
theories/LoopProofs2.v
theories/LoopProofs3.v
theories/LoopProofs4.v
theories/LoopProofs5.v
theories/PropLoop.v
theories/WaveProofs.v
theories/WaveProofs2.v
theories/IntraModel.v
theories/IntraProofs.v
theories/IntraProofs2.v
theories/IntraProofs3.v
theories/IntraProofs4.v
theories/IntraProofs5.v
theories/IntraProofs6.v
theories/IntraProofs7.v
theories/IntraProofs8.v
theories/SpecIntra.v
theories/SpecFlow.v
theories/FlowProofs.v
theories/PropIntra.v
theories/PropWave.v
theories/PropFlow.v
theories/SpecMark.v
theories/MarkModel.v
theories/MarkProofs.v
theories/PropMark.v
theories/SpecDiamond.v
theories/DiamondModel.v
theories/DiamondProofs.v
theories/DiamondProofs2.v
theories/PropDiamond.v
theories/ExportModel.v
theories/ExportProofs.v
theories/ExportProofs2.v
theories/SpecExport.v
theories/RemapProofs.v
theories/RemapProofs2.v
theories/PropExport.v
theories/IssModel.v
theories/SpecIss.v
theories/IssProofs.v
theories/IssProofs2.v
theories/IssProofs3.v
theories/PropIss.v
theories/TileSizeModel.v
theories/SizeProofs.v
theories/PropSize.v
theories/SpecVector.v
theories/VectorModel.v
theories/VectorProofs.v
theories/PropVector.v
theories/SpecOsl.v
theories/OslModel.v
theories/OslProofs.v
theories/OslProofs2.v
theories/PropOsl.v
theories/SpecExec.v
theories/ExecProofs.v
theories/ExecProofs2.v
theories/PropExec.v
theories/SpecDeps.v
theories/DepsModel.v
theories/DepsProofs.v
theories/DepsProofs2.v
theories/DepsProofs3.v
theories/DepsProofs4.v
theories/PropDeps.v
theories/SpecLib.v
theories/LibModel.v
theories/LibProofs.v
theories/PropLib.v
theories/SpecCone.v
theories/ConeModel.v
theories/ConeProofs.v
theories/ConeProofs2.v
theories/ConeProofs3.v
theories/ConeProofs4.v
theories/ConeProofs5.v
theories/ConeProofs6.v
theories/PropCone.v
theories/SpecSolve.v
theories/SolveModel.v
theories/SolveProofs.v
theories/SolveProofs2.v
theories/SolveOracles.v
theories/PropSolve.v
theories/SpecCloog.v
theories/CloogModel.v
theories/CloogProofs.v
theories/PropCloog.v
theories/SpecDfp.v
theories/DfpModel.v
theories/DfpProofs.v
theories/DfpProofs2.v
theories/DfpProofs3.v
theories/DfpProofs4.v
theories/PropDfp.v
theories/SpecFcg.v
theories/FcgModel.v
theories/FcgProofs.v
theories/FcgProofs2.v
theories/FcgProofs3.v
theories/PropFcg.v
theories/SpecGlpk.v
theories/GlpkModel.v
theories/GlpkProofs.v
theories/GlpkProofs2.v
theories/GlpkProofs3.v
theories/NearProofs.v
theories/PropGlpk.v
theories/SpecOwn.v
theories/OwnModel.v
theories/OwnProofs.v
theories/OwnProofs2.v
theories/OwnProofs3.v
theories/PropOwn.v
theories/SpecForce.v
theories/ForceModel.v
theories/ForceProofs.v
theories/ForceProofs2.v
theories/ForceProofs3.v
theories/PropForce.v
theories/SpecCc.v
theories/CcModel.v
theories/CcProofs.v
theories/CcProofs2.v
theories/PropCc.v
theories/SpecGurobi.v
theories/GurobiModel.v
theories/GurobiProofs.v
theories/PropGurobi.v
theories/ClusterModel.v
theories/ClusterProofs.v
theories/ClusterProofs2.v
theories/PropCluster.v
theories/StencilModel.v
theories/SpecStencil.v
theories/StencilProofs.v
theories/StencilProofs2.v
theories/PropStencil.v
theories/SpecMain.v
theories/MainModel.v
theories/MainProofs.v
theories/PropMain.v
theories/SpecTyped.v
theories/TypedModel.v
theories/TypedProofs.v
theories/TypedProofs2.v
theories/TypedProofs3.v
theories/PropTyped.v
theories/ClusterProofs3.v
theories/PropCluster2.v
theories/ColourLpModel.v
theories/ColourLpProofs.v
theories/PropColourLp.v
