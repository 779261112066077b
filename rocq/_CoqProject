-Q theories Verif
theories/AabbBuildProofs.v
theories/AabbModel.v
theories/AabbProofs.v
theories/AabbQuery2Proofs.v
theories/AabbQueryProofs.v
theories/AabbSpec.v
theories/AabbTreeProofs.v
theories/AngleModel.v
theories/AngleProofs.v
theories/ArcsModel.v
theories/ArcsProofs.v
theories/ArcsTreeProofs.v
theories/BadQuadModel.v
theories/Biharm2Proofs.v
theories/BiharmModel.v
theories/BiharmProofs.v
theories/CageModel.v
theories/CollapseModel.v
theories/CollapseProofs.v
theories/ColormapModel.v
theories/CompModel.v
theories/CompProofs.v
theories/CompSpec.v
theories/CorrProofs.v
theories/CppObjModel.v
theories/CppObjProofs.v
theories/CubeProofs.v
theories/CutModel.v
theories/CutProofs.v
theories/CutSpec.v
theories/DecModel.v
theories/DecProofs.v
theories/DecSpec.v
theories/DefectModel.v
theories/DmatModel.v
theories/EdgeEdgeModel.v
theories/EdgeEdgeProofs.v
theories/EigModel.v
theories/ElDynModel.v
theories/ElDynProofs.v
theories/ElastModel.v
theories/ElastProofs.v
theories/FdModel.v
theories/FdProofs.v
theories/Flip2Proofs.v
theories/Flip3Proofs.v
theories/FlipModel.v
theories/FlipProofs.v
theories/Geom2Proofs.v
theories/GeomModel.v
theories/GeomProofs.v
theories/GeomSpec.v
theories/GpModel.v
theories/GpProofs.v
theories/GradIntModel.v
theories/GridMesh2Proofs.v
theories/GridMeshModel.v
theories/GridMeshProofs.v
theories/GridNbModel.v
theories/GridNbProofs.v
theories/HemNmProofs.v
theories/HemProofs.v
theories/IcoBase2Proofs.v
theories/IcoBaseProofs.v
theories/IcoModel.v
theories/IcoProofs.v
theories/KernelModel.v
theories/KernelProofs.v
theories/KernelSpec.v
theories/L1Model.v
theories/L1MskProofs.v
theories/L1Proofs.v
theories/L1ScsProofs.v
theories/L1Spec.v
theories/LoopSubProofs.v
theories/LoopsModel.v
theories/LoopsProofs.v
theories/LoopsSpec.v
theories/MatFunModel.v
theories/MatModel.v
theories/MatProofs.v
theories/MatryModel.v
theories/MatryProofs.v
theories/Ms2Proofs.v
theories/MsModel.v
theories/MsProofs.v
theories/MsSpec.v
theories/NormModel.v
theories/NumpyModel.v
theories/NumpyProofs.v
theories/ObjModel.v
theories/P_Aabb.v
theories/P_Angle.v
theories/P_Arcs.v
theories/P_Arcs2.v
theories/P_Arcs3.v
theories/P_BadQuad.v
theories/P_Biharm.v
theories/P_Cage.v
theories/P_Collapse.v
theories/P_Colormap.v
theories/P_Comp.v
theories/P_CppObj.v
theories/P_CppObj2.v
theories/P_CppObj3.v
theories/P_Cut.v
theories/P_Dec.v
theories/P_Defect.v
theories/P_Dist.v
theories/P_Dmat.v
theories/P_EdgeEdge.v
theories/P_Eig.v
theories/P_ElDyn.v
theories/P_Elast.v
theories/P_Fd.v
theories/P_Flip.v
theories/P_Geom.v
theories/P_Gp.v
theories/P_GradInt.v
theories/P_Grid.v
theories/P_Ico.v
theories/P_Kernel.v
theories/P_L1.v
theories/P_Loops.v
theories/P_MatFun.v
theories/P_Matry.v
theories/P_Matry2.v
theories/P_Ms.v
theories/P_Norm.v
theories/P_Obj.v
theories/P_Ply.v
theories/P_Points.v
theories/P_PolyDist.v
theories/P_Psr.v
theories/P_Psr2.v
theories/P_Psr3.v
theories/P_PsrMesh.v
theories/P_Quad.v
theories/P_QuadOps.v
theories/P_Random.v
theories/P_Ray.v
theories/P_RayMesh.v
theories/P_ReachArcs.v
theories/P_Relabel.v
theories/P_Relax.v
theories/P_Remesh.v
theories/P_RemeshCpp.v
theories/P_RemeshCpp2.v
theories/P_Rfs.v
theories/P_Rfs2.v
theories/P_RfsLine.v
theories/P_Rot.v
theories/P_Solve.v
theories/P_Spline.v
theories/P_Split.v
theories/P_SqExp.v
theories/P_Stl.v
theories/P_Stl2.v
theories/P_Stl3.v
theories/P_Subdiv.v
theories/P_Swarm.v
theories/P_Sweep.v
theories/P_SweepPose.v
theories/P_SweepTime.v
theories/P_Topo.v
theories/P_TriTri.v
theories/P_UpEnv.v
theories/P_UpEnv2.v
theories/P_Voxel.v
theories/P_Wind.v
theories/PlyHeader.v
theories/PlyModel.v
theories/PlyProofs.v
theories/PlyProofs2.v
theories/PlyProofs3.v
theories/PlyProofs4.v
theories/PlyProofs5.v
theories/PlyRound.v
theories/PlyWrite.v
theories/PointsModel.v
theories/PolyDistModel.v
theories/Psr2Proofs.v
theories/Psr3Proofs.v
theories/Psr4Proofs.v
theories/Psr5Proofs.v
theories/PsrMeshModel.v
theories/PsrModel.v
theories/PsrNbProofs.v
theories/PsrProofs.v
theories/PsrSpec.v
theories/PyExn.v
theories/Quad10Proofs.v
theories/Quad2Proofs.v
theories/Quad3Proofs.v
theories/Quad4Proofs.v
theories/Quad5Proofs.v
theories/Quad6Proofs.v
theories/Quad7Proofs.v
theories/Quad8Proofs.v
theories/Quad9Proofs.v
theories/QuadModel.v
theories/QuadOpsModel.v
theories/QuadProofs.v
theories/QuadSpec.v
theories/RayMeshModel.v
theories/RayMeshProofs.v
theories/RayModel.v
theories/RayProofs.v
theories/ReachArcsModel.v
theories/RelabelModel.v
theories/RelabelProofs.v
theories/RelabelSpec.v
theories/RelaxModel.v
theories/RemeshCppModel.v
theories/RemeshCppProofs.v
theories/RemeshModel.v
theories/RfsLine2Proofs.v
theories/RfsLine3Proofs.v
theories/RfsLineModel.v
theories/RfsLineProofs.v
theories/RfsModel.v
theories/RfsProofs.v
theories/RotModel.v
theories/SolveModel.v
theories/SolveProofs.v
theories/SplineModel.v
theories/Split2Proofs.v
theories/Split3Proofs.v
theories/Split4Proofs.v
theories/Split5Proofs.v
theories/SplitModel.v
theories/SplitProofs.v
theories/SqDistModel.v
theories/SqDistProofs.v
theories/SqExp2Proofs.v
theories/SqExpModel.v
theories/SqExpProofs.v
theories/StlAscii.v
theories/StlAscii2.v
theories/StlModel.v
theories/StlProofs.v
theories/Subdiv2Proofs.v
theories/Subdiv3Proofs.v
theories/SubdivModel.v
theories/SubdivProofs.v
theories/SubdivSpec.v
theories/SwarmModel.v
theories/SweepModel.v
theories/SweepPoseModel.v
theories/SweepTimeModel.v
theories/TextModel.v
theories/TextProofs.v
theories/TopoLemmas.v
theories/TopoModel.v
theories/TopoProofs.v
theories/TopoSpec.v
theories/TriTri2Proofs.v
theories/TriTri3Proofs.v
theories/TriTri4Proofs.v
theories/TriTriModel.v
theories/TriTriProofs.v
theories/UpEnv2Proofs.v
theories/UpEnv3Proofs.v
theories/UpEnvModel.v
theories/UpEnvProofs.v
theories/Vec.v
theories/VoxelModel.v
theories/WindModel.v
theories/WindProofs.v
