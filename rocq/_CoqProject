-Q theories Verif
theories/Common.v
theories/Rational.v
theories/RationalSpec.v
theories/RationalProofs.v
theories/P_Rational.v
theories/Heap.v
theories/HeapSpec.v
theories/HeapProofs.v
theories/P_Heap.v
theories/RatVec.v
theories/RatVecSpec.v
theories/RatVecProofs.v
theories/P_RatVec.v
theories/ListOps.v
theories/ListOpsSpec.v
theories/ListOpsProofs.v
theories/P_ListOps.v
theories/IntComb.v
theories/IntCombSpec.v
theories/IntCombProofs.v
theories/P_IntComb.v
theories/Kannan.v
theories/KannanSpec.v
theories/KannanProofs.v
theories/P_Kannan.v
theories/BinSearch.v
theories/BinSearchSpec.v
theories/BinSearchProofs.v
theories/P_BinSearch.v
theories/Util.v
theories/UtilSpec.v
theories/UtilProofs.v
theories/P_Util.v
theories/Trie.v
theories/TrieSpec.v
theories/TrieProofs.v
theories/TrieProofs2.v
theories/P_Trie.v
theories/Block.v
theories/BlockSpec.v
theories/BlockProofs.v
theories/P_Block.v
theories/Integ.v
theories/IntegSpec.v
theories/IntegMath.v
theories/IntegProofs.v
theories/IntegProofs2.v
theories/IntegProofs3.v
theories/IntegProofs4.v
theories/DecompProofs.v
theories/DecompProofs2.v
theories/DecompProofs3.v
theories/DecompProofs4.v
theories/IntegProofs5.v
theories/P_Integ.v
theories/Interp.v
theories/InterpSpec.v
theories/InterpProofs.v
theories/InterpProofs2.v
theories/P_Interp.v
theories/RatFun.v
theories/Periodic.v
theories/PeriodicSpec.v
theories/PeriodicProofs.v
theories/Knapsack.v
theories/KnapsackSpec.v
theories/KnapsackProofs.v
theories/KnapsackProofs2.v
theories/KnapsackProofs3.v
theories/KnapsackProofs4.v
theories/Series.v
theories/BernoulliProofs.v
theories/P_Knapsack.v
theories/ZMat.v
theories/Hermite.v
theories/HermiteSpec.v
theories/HermiteProofs.v
theories/HermiteProofs2.v
theories/HermiteProofs3.v
theories/Det.v
theories/DetProofs.v
theories/Preproc.v
theories/PreprocSpec.v
theories/PreprocProofs.v
theories/P_Hermite.v
theories/Smith.v
theories/SmithSpec.v
theories/SmithProofs.v
theories/SmithProofs2.v
theories/SmithProofs3.v
theories/P_Smith.v
theories/Piped.v
theories/PipedSpec.v
theories/PipedProofs.v
theories/PipedProofs2.v
theories/PipedProofs3.v
theories/PipedProofs4.v
theories/P_Piped.v
theories/ConeSpec.v
theories/Irrational.v
theories/ConeProofs.v
theories/IrrationalProofs.v
theories/IrrationalProofs2.v
theories/IrrationalProofs3.v
theories/P_Irrational.v
theories/Barvinok.v
theories/BarvinokSpec.v
theories/BarvinokProofs.v
theories/BarvinokProofs2.v
theories/BarvinokProofs3.v
theories/BarvinokProofs4.v
theories/P_Barvinok.v
theories/Exponential.v
theories/ExpSpec.v
theories/ExpProofs.v
theories/ExpProofs2.v
theories/ExpProofs3.v
theories/ExpProofs4.v
theories/P_Exponential.v
theories/PolyTree.v
theories/PolyTreeSpec.v
theories/PolyTreeProofs.v
theories/PolyTreeProofs2.v
theories/P_PolyTree.v
theories/Perturb.v
theories/PerturbSpec.v
theories/PerturbProofs.v
theories/PerturbProofs2.v
theories/PerturbProofs3.v
theories/PerturbProofs4.v
theories/PerturbProofs5.v
theories/PerturbProofs6.v
theories/PerturbProofs7.v
theories/P_Perturb.v
theories/Valuation.v
theories/ValuationSpec.v
theories/ValuationSpec2.v
theories/ValuationProofs.v
theories/ValuationProofs2.v
theories/ValuationProofs3.v
theories/ValuationProofs4.v
theories/ValuationProofs5.v
theories/ValuationProofs6.v
theories/ValuationProofs7.v
theories/ValuationProofs8.v
theories/ValuationProofs9.v
theories/P_Valuation.v
theories/Text.v
theories/TextProofs.v
theories/PolyText.v
theories/PolyTextSpec.v
theories/PolyTextProofs.v
theories/PolyTextProofs2.v
theories/PolyTextProofs3.v
theories/PolyTextProofs4.v
theories/P_PolyText.v
theories/LatteText.v
theories/LatteTextSpec.v
theories/LatteTextProofs.v
theories/LatteTextProofs2.v
theories/P_LatteText.v
theories/Graph.v
theories/GraphSpec.v
theories/GraphProofs.v
theories/GraphProofs2.v
theories/GraphProofs3.v
theories/GraphProofs4.v
theories/P_Graph.v
theories/Hyper.v
theories/HyperSpec.v
theories/HyperProofs.v
theories/HyperProofs2.v
theories/P_Hyper.v
theories/BrionLinear.v
theories/CountSpec.v
theories/BrionProofs.v
theories/BrionProofs2.v
theories/BrionProofs3.v
theories/EulerProofs.v
theories/BrionProofs4.v
theories/BrionProofs5.v
theories/Count.v
theories/CountProofs.v
theories/CountProofs2.v
theories/CountProofs3.v
theories/CountProofs4.v
theories/CountProofs5.v
theories/CountProofs6.v
theories/CountProofs7.v
theories/P_Count.v
theories/GenFun.v
theories/GenFunSpec.v
theories/GenFunProofs.v
theories/GenFunProofs2.v
theories/GenFunProofs3.v
theories/GenFunProofs4.v
theories/GenFunProofs5.v
theories/GenFunProofs6.v
theories/GenFunProofs7.v
theories/P_GenFun.v
theories/Residue.v
theories/ResidueSpec.v
theories/ResidueProofs.v
theories/ResidueProofs2.v
theories/ResidueProofs3.v
theories/ResidueProofs4.v
theories/ResidueProofs5.v
theories/P_Residue.v
theories/IntegralSpec.v
theories/LimitProofs.v
theories/IntegralProofs.v
theories/IntegralProofs2.v
theories/IntegralProofs3.v
theories/IntegralProofs4.v
theories/IntegralProofs5.v
theories/IntegralProofs6.v
theories/P_Integral.v
theories/ConeMethodSpec.v
theories/ConeMethodProofs.v
theories/ConeMethodProofs2.v
theories/ConeMethodProofs3.v
theories/ConeMethodProofs4.v
theories/P_ConeMethod.v
theories/Triang.v
theories/TriangSpec.v
theories/TriangProofs.v
theories/TriangProofs2.v
theories/TriangProofs3.v
theories/TriangProofs4.v
theories/P_Triang.v
theories/Omega.v
theories/OmegaSpec.v
theories/OmegaProofs.v
theories/OmegaProofs2.v
theories/OmegaProofs3.v
theories/OmegaProofs4.v
theories/OmegaProofs5.v
theories/OmegaProofs6.v
theories/LLLProofs.v
theories/OmegaProofs7.v
theories/P_Omega.v
theories/P_Full.v
theories/Options.v
theories/OptionsSpec.v
theories/OptionsProofs.v
theories/P_Options.v
theories/CheckEmpty.v
theories/CheckEmptySpec.v
theories/CheckEmptyProofs.v
theories/P_CheckEmpty.v
theories/P_OptionsMore.v
theories/CddText.v
theories/CddTextSpec.v
theories/CddTextProofs.v
theories/CddTextProofs2.v
theories/P_CddText.v
theories/CountFile.v
theories/CountFileSpec.v
theories/CountFileProofs.v
theories/CountFileProofs2.v
theories/CountFileProofs3.v
theories/P_CountFile.v
theories/Subcones.v
theories/SubconesSpec.v
theories/SubconesProofs.v
theories/SubconesProofs2.v
theories/P_Subcones.v
theories/VertexCones.v
theories/VertexConesSpec.v
theories/VertexConesProofs.v
theories/VertexConesProofs2.v
theories/P_VertexCones.v
theories/Approx.v
theories/ApproxPoints.v
theories/ApproxProofs.v
theories/ApproxProofs2.v
theories/ApproxProofs3.v
theories/ApproxProofs4.v
theories/ApproxProofs5.v
theories/P_Approx.v
theories/DigHeap.v
theories/DigHeapProofs.v
theories/Dig.v
theories/DigProofs.v
theories/DigProofs2.v
theories/DigProofs3.v
theories/DigProofs4.v
theories/DigProofs5.v
theories/DigSpec.v
theories/P_Dig.v
theories/DigMain.v
theories/DigMainProofs.v
theories/P_DigMain.v
theories/ResidueList.v
theories/ResidueListSpec.v
theories/ResidueListProofs.v
theories/ResidueListProofs2.v
theories/ResidueListProofs3.v
theories/P_ResidueList.v
theories/ResidueMain.v
theories/P_ResidueMain.v
theories/ConvertIne.v
theories/ConvertIneSpec.v
theories/ConvertIneProofs.v
theories/P_ConvertIne.v
theories/Hull.v
theories/HullSpec.v
theories/HullProofs.v
theories/P_Hull.v
theories/Normalize.v
theories/NormalizeSpec.v
theories/NormalizeProofs.v
theories/NormalizeProofs2.v
theories/P_Normalize.v
theories/Dualize.v
theories/DualizeSpec.v
theories/DualizeProofs.v
theories/P_Dualize.v
theories/Tri4ti2.v
theories/Tri4ti2Spec.v
theories/Tri4ti2Proofs.v
theories/P_Tri4ti2.v
theories/Avoiding.v
theories/AvoidingProofs.v
theories/P_Avoiding.v
theories/Topcom.v
theories/TopcomSpec.v
theories/TopcomProofs.v
theories/P_Topcom.v
theories/TrivialSubst.v
theories/TrivialSubstSpec.v
theories/TrivialSubstProofs.v
theories/TrivialSubstProofs2.v
theories/P_TrivialSubst.v
theories/Boundary.v
theories/BoundarySpec.v
theories/BoundaryProofs.v
theories/BoundaryProofs2.v
theories/BoundaryProofs3.v
theories/P_Boundary.v
