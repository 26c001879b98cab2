-Q theories Verif
theories/Res.v
theories/SumR.v
theories/SparseModel.v
theories/SparseSpec.v
theories/SparseProof.v
theories/SparseProof2.v
theories/ParModel.v
theories/ParProof.v
theories/SparseMain.v
theories/PropSparse.v
theories/DenseModel.v
theories/DenseSpec.v
theories/DenseProof.v
theories/DenseR.v
theories/DenseMain.v
theories/PropDense.v
theories/DetProof.v
theories/DetMain.v
theories/PropDet.v
theories/LUModel.v
theories/LUProof.v
theories/LUMain.v
theories/PropLU.v
theories/AssemblyModel.v
theories/AssemblySpec.v
theories/AssemblyProof.v
theories/AssemblyProof2.v
theories/AssemblyProof3.v
theories/AssemblyMain.v
theories/PropAssembly.v
theories/KrylovModel.v
theories/KrylovSpec.v
theories/KrylovProof.v
theories/CGMath.v
theories/KrylovProof2.v
theories/IluProof.v
theories/IluProof2.v
theories/SorProof.v
theories/SorProof2.v
theories/KrylovProof3.v
theories/KrylovMain.v
theories/PropKrylov.v
theories/ShapeModel.v
theories/ShapeMain.v
theories/PropShape.v
theories/QuadModel.v
theories/QuadSpec.v
theories/QuadMain.v
theories/PropQuad.v
theories/ElemModel.v
theories/ElemSpec.v
theories/ElemProof.v
theories/ElemProof2.v
theories/ElemProof3.v
theories/ElemMain.v
theories/PropElem.v
theories/ElemSpec2.v
theories/ElemProof4.v
theories/ElemMain2.v
theories/PropElem2.v
theories/SpringSpec.v
theories/SpringMain.v
theories/PropSpring.v
theories/FlowModel.v
theories/FlowSpec.v
theories/FlowProof.v
theories/FlowProof2.v
theories/FlowProof3.v
theories/FlowProof4.v
theories/FlowMain.v
theories/PropFlow.v
theories/FilterModel.v
theories/FilterSpec.v
theories/FilterMain.v
theories/PropFilter.v
theories/OCModel.v
theories/OCMain.v
theories/PropOC.v
theories/SolvelsModel.v
theories/SolvelsProof.v
theories/MMAModel.v
theories/MMASpec.v
theories/MMAProof.v
theories/MMAMain.v
theories/PropMMA.v
theories/MeshModel.v
theories/MeshSpec.v
theories/MeshProof.v
theories/MeshMain.v
theories/PropMesh.v
theories/RingMain.v
theories/PropRing.v
theories/HoleMain.v
theories/PropHole.v
theories/BicgMath.v
theories/BicgProof.v
theories/BicgMain.v
theories/PropBicg.v
theories/IOModel.v
theories/IOSpec.v
theories/IOProof.v
theories/IOProof2.v
theories/IOProof3.v
theories/IOProof4.v
theories/IOProof5.v
theories/IOMain.v
theories/PropIO.v
theories/ElemSpec3.v
theories/ElemProof5.v
theories/ElemProof6.v
theories/ElemMain3.v
theories/PropElem3.v
theories/LoadSpec.v
theories/LoadProof.v
theories/LoadProof2.v
theories/LoadMain.v
theories/PropLoad.v
theories/HomSpec.v
theories/HomProof.v
theories/HomMain.v
theories/PropHom.v
theories/SupgSpec.v
theories/SupgProof.v
theories/SupgMain.v
theories/PropSupg.v
theories/WilsonSpec.v
theories/WilsonProof.v
theories/WilsonMain.v
theories/PropWilson.v
theories/MMAStepMain.v
theories/PropMMAStep.v
theories/LanczosSpec.v
theories/SturmMath.v
theories/SturmMath2.v
theories/LanczosModel.v
theories/LanczosProof.v
theories/LanczosProof2.v
theories/LanczosProof3.v
theories/LanczosProof4.v
theories/LanczosProof5.v
theories/LanczosProof6.v
theories/LanczosExample.v
theories/LanczosExample2.v
theories/LanczosMain.v
theories/PropLanczos.v
theories/GenModel.v
theories/GenSpec.v
theories/GenProof.v
theories/GenProof2.v
theories/GenMain.v
theories/PropGen.v
theories/BeamModel.v
theories/BeamSpec.v
theories/BeamProof.v
theories/BeamProof2.v
theories/BeamMain0.v
theories/BeamMain1.v
theories/BeamMain2.v
theories/BeamMain.v
theories/PropBeam.v
theories/DelaunayModel.v
theories/DelaunaySpec.v
theories/DelaunayProof.v
theories/DelaunayProof2.v
theories/DelaunayProof3.v
theories/DelaunayProof4.v
theories/DelaunayProof5.v
theories/DelaunayProof6.v
theories/DelaunayMain.v
theories/PropDelaunay.v
theories/DelaunaySpec2.v
theories/DelaunayProof7.v
theories/DelaunayProof8.v
theories/DelaunayProof9.v
theories/DelaunayMain2.v
theories/PropDelaunay2.v
theories/DelaunayProof10.v
theories/DelaunayMain3.v
theories/PropDelaunay3.v
theories/DelaunaySpec3.v
theories/DelaunayProof11.v
theories/DelaunayProof12.v
theories/DelaunayProof13.v
theories/DelaunayProof14.v
theories/DelaunayMain4.v
theories/PropDelaunay4.v
theories/DelaunayProof15.v
theories/DelaunayMain5.v
theories/PropDelaunay5.v
theories/PatchSpec.v
theories/PatchProof.v
theories/PatchProof2.v
theories/PatchProof3.v
theories/PatchProof4.v
theories/PatchProof5.v
theories/PatchMain.v
theories/PropPatch.v
theories/StableSpec.v
theories/StableProof.v
theories/StableProof2.v
theories/StableProof3.v
theories/StableProof4.v
theories/StableMain.v
theories/PropStable.v
theories/ThetaModel.v
theories/ThetaSpec.v
theories/ThetaProof.v
theories/ThetaProof2.v
theories/ThetaProof3.v
theories/ThetaProof4.v
theories/ThetaProof5.v
theories/ThetaMain.v
theories/PropTheta.v
theories/TopModel.v
theories/TopSpec.v
theories/TopProof.v
theories/TopProof2.v
theories/TopProof3.v
theories/TopProof4.v
theories/TopProof5.v
theories/TopMain.v
theories/PropTop.v
theories/LoopModel.v
theories/LoopSpec.v
theories/LoopProof.v
theories/LoopProof2.v
theories/LoopProof3.v
theories/LoopProof4.v
theories/LoopProof5.v
theories/LoopProof6.v
theories/LoopMain.v
theories/PropLoop.v
theories/SemiMath.v
theories/SemiMain.v
theories/PropSemi.v
theories/CellModel.v
theories/CellSpec.v
theories/CellProof.v
theories/CellProof2.v
theories/CellProof3.v
theories/CellProof4.v
theories/CellMain.v
theories/PropCell.v
theories/TrussModel.v
theories/TrussSpec.v
theories/TrussProof.v
theories/TrussProof2.v
theories/TrussProof3.v
theories/TrussProof4.v
theories/TrussProof5.v
theories/TrussMain.v
theories/PropTruss.v
theories/LevelModel.v
theories/LevelSpec.v
theories/LevelProof.v
theories/LevelProof2.v
theories/LevelProof3.v
theories/LevelProof4.v
theories/LevelProof5.v
theories/LevelProof6.v
theories/LevelProof7.v
theories/LevelMain.v
theories/PropLevel.v
theories/PlaneModel.v
theories/PlaneSpec.v
theories/PlaneProof.v
theories/PlaneProof2.v
theories/PlaneProof3.v
theories/PlaneProof4.v
theories/PlaneProof5.v
theories/PlaneProof6.v
theories/PlaneMain.v
theories/PropPlane.v
theories/NewtonModel.v
theories/NewtonSpec.v
theories/NewtonProof.v
theories/NewtonProof2.v
theories/NewtonProof3.v
theories/NewtonProof4.v
theories/NewtonProof5.v
theories/NewtonProof6.v
theories/NewtonMain.v
theories/PropNewton.v
theories/StaticModel.v
theories/StaticSpec.v
theories/StaticPiece.v
theories/StaticBrick.v
theories/StaticProof.v
theories/StaticProof2.v
theories/StaticMain.v
theories/PropStatic.v
theories/FrameModel.v
theories/FrameSpec.v
theories/FrameProof.v
theories/FrameProof2.v
theories/FrameProof3.v
theories/FrameProof4.v
theories/FrameProof5.v
theories/FrameMain.v
theories/PropFrame.v
theories/DriftModel.v
theories/DriftSpec.v
theories/DriftProof.v
theories/DriftProof2.v
theories/DriftProof3.v
theories/DriftMain.v
theories/PropDrift.v
theories/DriftProof4.v
theories/DriftProof5.v
theories/DriftProof6.v
theories/FrameProof6.v
theories/StaticSpec2.v
theories/StaticProof3.v
