-Q theories Verif
theories/AcFail.v
theories/AcModel.v
theories/AcProof.v
theories/AcProp.v
theories/AmbModel.v
theories/AmbProp.v
theories/Array2.v
theories/Base.v
theories/BaseLemmas.v
theories/BitConvModel.v
theories/BitConvProof.v
theories/BitConvProp.v
theories/BitConvSubset.v
theories/BitConvSweep.v
theories/BitModel.v
theories/BitProof.v
theories/BitProp.v
theories/BmapModel.v
theories/BmapProof.v
theories/BmapProp.v
theories/BsetModel.v
theories/BsetProof.v
theories/BsetProp.v
theories/BvBlock.v
theories/BvModel.v
theories/BvOps.v
theories/BvProof.v
theories/BvProp.v
theories/BvSel.v
theories/CfftModel.v
theories/CfftProp.v
theories/ChtModel.v
theories/ChtProof.v
theories/ChtProp.v
theories/CompressModel.v
theories/CompressProof.v
theories/CompressProp.v
theories/ConvGarner.v
theories/ConvInt.v
theories/ConvLarge.v
theories/ConvModel.v
theories/ConvNtt.v
theories/ConvProp.v
theories/ConvSum.v
theories/DepqModel.v
theories/DepqProof.v
theories/DepqProp.v
theories/DijkProof.v
theories/DirichletModel.v
theories/DirichletMult.v
theories/DirichletProof.v
theories/DirichletProp.v
theories/DncModel.v
theories/DncProof.v
theories/DncProp.v
theories/DualSegProof.v
theories/DualSparseProof.v
theories/EnumModel.v
theories/EnumProof.v
theories/EnumProp.v
theories/FbmModel.v
theories/FbmOps.v
theories/FbmProof.v
theories/FbmProp.v
theories/FenwickModel.v
theories/FenwickProof.v
theories/FenwickProp.v
theories/FftDft.v
theories/FftInv.v
theories/FftModel.v
theories/FftProof.v
theories/FftProp.v
theories/FibCut.v
theories/FibHeap.v
theories/FibLink.v
theories/FibModel.v
theories/FibOps.v
theories/FibProp.v
theories/FibRing.v
theories/FibStr.v
theories/FlowDinic.v
theories/FlowModel.v
theories/FlowNet.v
theories/FlowProof.v
theories/FlowProp.v
theories/FpsBase.v
theories/FpsExp.v
theories/FpsExpD.v
theories/FpsInv.v
theories/FpsLog.v
theories/FpsModel.v
theories/FpsMul.v
theories/FpsPow.v
theories/FpsProp.v
theories/FpsProp2.v
theories/FpsSpModel.v
theories/FpsSpProp.v
theories/FpsSparse.v
theories/FractionModel.v
theories/FractionProof.v
theories/FractionProp.v
theories/GraphModel.v
theories/GraphProof.v
theories/GraphProp.v
theories/HldBuilt.v
theories/HldDec.v
theories/HldFacts.v
theories/HldModel.v
theories/HldPath.v
theories/HldProp.v
theories/HldQuery.v
theories/HldSub.v
theories/HldSz.v
theories/HldTree.v
theories/HldUpd.v
theories/IntVecModel.v
theories/IntVecProof.v
theories/IntVecProp.v
theories/LazySegIds.v
theories/LazySegModel.v
theories/LazySegProof.v
theories/LazySegProof2.v
theories/LazySegProp.v
theories/LazySegSpec.v
theories/LctForest.v
theories/LctLinks.v
theories/LctModel.v
theories/LctOps.v
theories/LctPath.v
theories/LctProof.v
theories/LctProp.v
theories/LiChaoModel.v
theories/LiChaoProof.v
theories/LiChaoProp.v
theories/ListExtra.v
theories/MatchProof.v
theories/MatchProp.v
theories/MatrixDet.v
theories/MatrixDetCode.v
theories/MatrixElimProp.v
theories/MatrixGauss.v
theories/MatrixModel.v
theories/MatrixProof.v
theories/MatrixProp.v
theories/MatrixSolve.v
theories/MatrixSolveCode.v
theories/McfBuild.v
theories/McfCost.v
theories/McfModel.v
theories/McfProof.v
theories/McfProp.v
theories/McfSearch.v
theories/MeldModel.v
theories/MeldProof.v
theories/MeldProp.v
theories/MoModel.v
theories/MoProof.v
theories/MoProp.v
theories/ModularModel.v
theories/ModularProof.v
theories/ModularProp.v
theories/ModularSqrt.v
theories/NetModel.v
theories/NetProp.v
theories/NthExtra.v
theories/NttAlg.v
theories/NttCore.v
theories/NttModel.v
theories/NttPass.v
theories/NttProof.v
theories/NttProp.v
theories/NttRev.v
theories/NttSum.v
theories/NumGen.v
theories/NumProth.v
theories/NumTheory.v
theories/Order.v
theories/OrsModel.v
theories/OrsProof.v
theories/OrsProp.v
theories/OrsSum.v
theories/OrsWt.v
theories/PQueueModel.v
theories/PQueueProof.v
theories/PQueueProp.v
theories/PTree.v
theories/PersModel.v
theories/PersProof.v
theories/PersProp.v
theories/PersSpec.v
theories/PrimRootModel.v
theories/PrimRootProof.v
theories/PrimRootProp.v
theories/PsAlg.v
theories/RSum.v
theories/RerootModel.v
theories/RerootNet.v
theories/RerootProof.v
theories/RerootProp.v
theories/RmqExc.v
theories/RmqLca.v
theories/RmqModel.v
theories/RmqParens.v
theories/RmqProof.v
theories/RmqProp.v
theories/RmqTree.v
theories/RmqWord.v
theories/SccModel.v
theories/SccProof.v
theories/SccProp.v
theories/SearchModel.v
theories/SearchProp.v
theories/Seg2dModel.v
theories/Seg2dProof.v
theories/Seg2dProp.v
theories/SegHldData.v
theories/SegHldModel.v
theories/SegHldOps.v
theories/SegHldProof.v
theories/SegHldProp.v
theories/SegHldShape.v
theories/SegTreeModel.v
theories/SegTreeProof.v
theories/SegTreeProp.v
theories/SkewModel.v
theories/SkewProof.v
theories/SkewProp.v
theories/SkipErase.v
theories/SkipFr.v
theories/SkipInv.v
theories/SkipModel.v
theories/SkipOps.v
theories/SkipProp.v
theories/SkipSet.v
theories/SparseModel.v
theories/SparseProof.v
theories/SparseProp.v
theories/SparseSpec.v
theories/SplayKth.v
theories/SplayList.v
theories/SplayModel.v
theories/SplayProp.v
theories/SplayRot.v
theories/SplaySplay.v
theories/SplayTree.v
theories/SpsAlg.v
theories/SpsModel.v
theories/SpsProof.v
theories/SpsProof2.v
theories/SpsProof3.v
theories/SpsProp.v
theories/SpsRep.v
theories/StdAlgo.v
theories/TourModel.v
theories/TourProof.v
theories/TourProp.v
theories/TreapModel.v
theories/TreapOps.v
theories/TreapProp.v
theories/TreapRot.v
theories/TreapSearch.v
theories/TreapWalk.v
theories/TreapWorld.v
theories/TreeGraph.v
theories/TyModel.v
theories/TyProp.v
theories/UnionFindModel.v
theories/UnionFindProof.v
theories/UnionFindProp.v
theories/UnionFindSpec.v
theories/WmModel.v
theories/WmPath.v
theories/WmProof.v
theories/WmProp.v
theories/WmTree.v
theories/WtModel.v
theories/WtProof.v
theories/WtProp.v
theories/WtQuery.v
theories/ZalgModel.v
theories/ZalgProof.v
theories/ZalgProp.v
