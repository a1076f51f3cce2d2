-Q theories Verif
theories/Base.v
theories/BaseProofs.v
theories/Num.v
theories/NumInst.v
theories/Spec.v
theories/SpecProofs.v
theories/VectorModel.v
theories/SparseModel.v
theories/SparseProofs.v
theories/SparseIter.v
theories/SparseEntries.v
theories/SparseOps.v
theories/SparseOps2.v
theories/SparseOps3.v
theories/SparseSpec.v
theories/SparseFacts.v
theories/SparseFacts2.v
theories/SparsePropProofs.v
theories/ExampleBase.v
theories/PropSparse.v
theories/OrdField.v
theories/VectorSpec.v
theories/VectorProofs.v
theories/VectorPropProofs.v
theories/PropVector.v
theories/DenseModel.v
theories/MatI.v
theories/MatIProofs.v
theories/DenseSpec.v
theories/DenseProofs.v
theories/DensePropProofs.v
theories/PropDense.v
theories/IterWrite.v
theories/IterWriteProofs.v
theories/PropIterWrite.v
theories/MatOps.v
theories/MatOpsProofs.v
theories/UtilsModel.v
theories/UtilsSpec.v
theories/UtilsProofs.v
theories/UtilsInst.v
theories/PropUtils.v
theories/HilbertMath.v
theories/ConstructModel.v
theories/ConstructProofs.v
theories/NumC.v
theories/PropConstruct.v
theories/OrderModel.v
theories/OrderSpec.v
theories/OrderProofs.v
theories/OrderBfs.v
theories/PropOrder.v
theories/LUModel.v
theories/DetSpec.v
theories/DetProofs.v
theories/LUProofs.v
theories/DetMult.v
theories/LUNear.v
theories/LUSolve.v
theories/LUResult.v
theories/CholProofs.v
theories/LUInv.v
theories/ILUProofs.v
theories/NumEps.v
theories/PropLU.v
theories/IterModel.v
theories/CGMath.v
theories/CGProofs.v
theories/CGResult.v
theories/IterProofs.v
theories/IterResult.v
theories/LUCond.v
theories/ILUStable.v
theories/LinAlg.v
theories/SorConv.v
theories/SorBlock.v
theories/JacConv.v
theories/SorInst.v
theories/PropIter.v
theories/SimplexModel.v
theories/SimplexSpec.v
theories/SimplexProofs.v
theories/SimplexResult.v
theories/NormalProofs.v
theories/PropSimplex.v
theories/MeshModel.v
theories/MeshSpec.v
theories/MeshPool.v
theories/MeshProofs.v
theories/MeshResult.v
theories/MeshHandle.v
theories/MeshHandleProofs.v
theories/MeshValid.v
theories/PropMesh.v
theories/MeshSet.v
theories/MeshSetProofs.v
theories/PropMeshSet.v
theories/HyperSpec.v
theories/HyperProofs.v
theories/HyperGrid.v
theories/HyperGeo.v
theories/HyperResult.v
theories/PropHyper.v
theories/ShapeModel.v
theories/ShapeSpec.v
theories/ShapeProofs.v
theories/ShapeDeriv.v
theories/ShapeTables.v
theories/PropShape.v
theories/MeshDofSpec.v
theories/MeshDof.v
theories/MeshDofResult.v
theories/PropDof.v
theories/QuadModel.v
theories/QuadSpec.v
theories/QuadProofs.v
theories/PropQuad.v
theories/ObjModel.v
theories/ObjSpec.v
theories/ObjProofs.v
theories/PropObj.v
theories/VtkModel.v
theories/VtkSpec.v
theories/VtkProofs.v
theories/VtkResult.v
theories/PropVtk.v
theories/TriModel.v
theories/TriSpec.v
theories/TriProofs.v
theories/TriResult.v
theories/PropTri.v
theories/GridModel.v
theories/GridSpec.v
theories/GridProofs.v
theories/GridPoisson.v
theories/GridMax.v
theories/GridSor.v
theories/GridHeat.v
theories/GridHeatRun.v
theories/GridConv.v
theories/PropGrid.v
theories/ILUGrid.v
theories/PropILU.v
theories/NormProofs.v
theories/NormResult.v
theories/PropNorm.v
theories/StreamModel.v
theories/StreamSpec.v
theories/StreamProofs.v
theories/PropStream.v
theories/FemModel.v
theories/FemSpec.v
theories/FemProofs.v
theories/FemAssemble.v
theories/FemMesh.v
theories/FemResult.v
theories/FemMath.v
theories/FemSpd.v
theories/FemHyper.v
theories/FemFacts.v
theories/FemPost.v
theories/FemSolve.v
theories/PropFem.v
theories/FloatSpec.v
theories/F64Flocq.v
theories/FloatProofs.v
theories/FloatResult.v
theories/FloatSolve.v
theories/FloatLUSpec.v
theories/FloatLU.v
theories/FloatLUSolve.v
theories/FloatIterSpec.v
theories/FloatIter.v
theories/PropFloat.v
theories/PropFloatIter.v
theories/FloatGrowth.v
theories/FloatDetSpec.v
theories/FloatDet.v
theories/FloatInv.v
theories/PropFloatDet.v
theories/FloatCholSpec.v
theories/FloatChol.v
theories/FloatCholSafe.v
theories/PropFloatChol.v
theories/FloatLUSafeSpec.v
theories/FloatLUSafe.v
theories/PropFloatLUSafe.v
theories/AccuracySpec.v
theories/GridTaylor.v
theories/GridAccuracy.v
theories/GridCount.v
theories/PropAccuracy.v
theories/GridFloatSpec.v
theories/GridFloat.v
theories/HeatFloat.v
theories/PropGridFloat.v
theories/QuadError.v
theories/PropQuadErr.v
theories/FloatQuad.v
theories/PropFloatQuad.v
theories/FloatConvSpec.v
theories/FloatConv.v
theories/PropFloatConv.v
theories/FloatSimplexSpec.v
theories/FloatSimplex.v
theories/PropFloatSimplex.v
theories/FemLoad.v
theories/FemAccuracy.v
theories/PropFemAcc.v
