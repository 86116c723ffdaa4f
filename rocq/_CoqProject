-Q theories Verif
theories/Base.v
theories/BaseLemmas.v
theories/UnionFind_model.v
theories/UnionFind_spec.v
theories/UnionFind_run.v
theories/UnionFind_proof.v
theories/UnionFind_proof2.v
theories/UnionFind_main.v
theories/UnionFind_props.v
theories/ZMod.v
theories/NumTheory.v
theories/Modint_model.v
theories/Modint_spec.v
theories/Modint_run.v
theories/Modint_proof.v
theories/Modint_proof2.v
theories/Modint_props.v
theories/Agg.v
theories/UnionFind2_model.v
theories/UnionFind2_spec.v
theories/UnionFind2_run.v
theories/UnionFind2_proof.v
theories/UnionFind2_wproof.v
theories/UnionFind2_lproof.v
theories/UnionFind2_main.v
theories/UnionFind2_props.v
theories/Hist.v
theories/Bits.v
theories/Seq.v
theories/Fenwick_model.v
theories/Fenwick_spec.v
theories/Fenwick_run.v
theories/Fenwick_proof.v
theories/Fenwick_proof2.v
theories/Fenwick_props.v
theories/SegTree_model.v
theories/SegTree_spec.v
theories/SegTree_run.v
theories/SegTree_proof.v
theories/LazySeg_proof.v
theories/LazySeg_proof2.v
theories/SegTree_props.v
theories/ListZ.v
theories/Deque_model.v
theories/Deque_spec.v
theories/Deque_run.v
theories/Deque_proof.v
theories/Deque_props.v
theories/SparseTable_model.v
theories/SparseTable_proof.v
theories/SparseTable_props.v
theories/ExtGcd_model.v
theories/ExtGcd_spec.v
theories/ExtGcd_proof.v
theories/Garner_proof.v
theories/ExtGcd_props.v
theories/Montgomery_model.v
theories/Lucas.v
theories/Montgomery_proof.v
theories/M61_proof.v
theories/Montgomery_props.v
theories/Rational_model.v
theories/Rational_spec.v
theories/Rational_proof.v
theories/Rational_props.v
theories/RingSum.v
theories/Smooth.v
theories/Transform_model.v
theories/Transform_spec.v
theories/Kron_proof.v
theories/Kron_alg.v
theories/Transform_proof.v
theories/Divisor_proof.v
theories/Divisor_proof2.v
theories/Naive_proof.v
theories/KronMat_proof.v
theories/Transform_props.v
theories/Sieve_model.v
theories/Sieve_spec.v
theories/Sieve_proof.v
theories/Sieve_props.v
theories/Eratos_model.v
theories/Wheel.v
theories/Eratos_proof.v
theories/Eratos_spec.v
theories/Eratos_proof2.v
theories/ListMore.v
theories/Eratos_proof3.v
theories/Eratos_props.v
theories/RangeSet_model.v
theories/RangeSet_spec.v
theories/Hist2.v
theories/RangeSet_proof.v
theories/RangeSet_props.v
theories/Heap_model.v
theories/Heap_spec.v
theories/Heap_proof.v
theories/Heap_proof2.v
theories/Heap_proof3.v
theories/Heap_props.v
theories/BitVector_model.v
theories/BitVector_spec.v
theories/BitVector_proof.v
theories/Wavelet_model.v
theories/Wavelet_spec.v
theories/Sorting.v
theories/BitVector_props.v
theories/Wavelet_proof.v
theories/Wavelet_proof2.v
theories/Wavelet_proof3.v
theories/Wavelet_props.v
theories/PArray_model.v
theories/PArray_spec.v
theories/PArray_proof.v
theories/PArray_proof2.v
theories/PArray_props.v
theories/PUnionFind_model.v
theories/PUnionFind_proof.v
theories/PUnionFind_props.v
theories/Trie_model.v
theories/Trie_spec.v
theories/Trie_proof.v
theories/Trie_proof2.v
theories/Trie_props.v
theories/Strings_model.v
theories/Strings_spec.v
theories/Strings_proof.v
theories/Strings_proof2.v
theories/Strings_props.v
theories/XorBase_model.v
theories/XorBase_spec.v
theories/XorBase_proof.v
theories/XorBase_props.v
theories/MatrixF2_model.v
theories/MatrixF2_spec.v
theories/MatrixF2_lin.v
theories/MatrixF2_elim.v
theories/MatrixF2_proof.v
theories/MatrixF2_proof2.v
theories/MatrixF2_proof3.v
theories/MatrixF2_props.v
theories/DynBitset_model.v
theories/DynBitset_spec.v
theories/DynBitset_proof.v
theories/DynBitset_proof2.v
theories/DynBitset_proof3.v
theories/DynBitset_proof4.v
theories/DynBitset_props.v
theories/Graph_spec.v
theories/BFS_model.v
theories/BFS_proof.v
theories/BFS_proof2.v
theories/BFS_props.v
theories/Topo_model.v
theories/Topo_proof.v
theories/Topo_props.v
theories/Dijkstra_model.v
theories/Dijkstra_proof.v
theories/Dijkstra_props.v
theories/Perm_model.v
theories/Perm_spec.v
theories/Perm_proof.v
theories/Perm_proof2.v
theories/Perm_props.v
theories/Search_model.v
theories/Search_proof.v
theories/Search_props.v
theories/LIS_model.v
theories/LIS_spec.v
theories/LIS_proof.v
theories/LIS_props.v
theories/DagSP_model.v
theories/DagSP_proof.v
theories/DagSP_props.v
theories/BFS01_model.v
theories/BFS01_proof.v
theories/BFS01_props.v
theories/Bipartite_model.v
theories/Bipartite_proof.v
theories/Bipartite_props.v
theories/FGraph_model.v
theories/FGraph_spec.v
theories/FGraph_proof.v
theories/FGraph_props.v
theories/FPath_model.v
theories/FPath_spec.v
theories/FPath_proof.v
theories/FPath_props.v
theories/Cartesian_model.v
theories/Cartesian_spec.v
theories/Cartesian_proof.v
theories/Cartesian_props.v
theories/SlideMin_model.v
theories/SlideMin_spec.v
theories/SlideMin_proof.v
theories/SlideMin_props.v
theories/Tree_spec.v
theories/Tree_proof.v
theories/Tree_proof2.v
theories/Tree_proof3.v
theories/Tree_proof4.v
theories/Tree_proof5.v
theories/HLD_model.v
theories/HLD_spec.v
theories/HLD_proof.v
theories/HLD_proof2.v
theories/HLD_proof3.v
theories/HLD_proof4.v
theories/HLD_proof5.v
theories/HLD_proof6.v
theories/HLD_proof7.v
theories/HLD_props.v
theories/Rerooting_model.v
theories/Rerooting_spec.v
theories/Rerooting_proof.v
theories/Rerooting_proof2.v
theories/Rerooting_proof3.v
theories/Rerooting_props.v
theories/RBT_model.v
theories/RBT_spec.v
theories/RBT_proof.v
theories/RBT_proof2.v
theories/PRBT_model.v
theories/RBT_props.v
theories/CumSum_model.v
theories/CumSum_spec.v
theories/CumSum_proof.v
theories/CumSum_proof2.v
theories/CumSum_props.v
theories/RLE_model.v
theories/RLE_spec.v
theories/RLE_proof.v
theories/RLE_props.v
theories/PrioSum_model.v
theories/PrioSum_spec.v
theories/PrioSum_proof.v
theories/PrioSum_props.v
theories/Compress_model.v
theories/Compress_spec.v
theories/Compress_proof.v
theories/Compress_props.v
theories/Dual_model.v
theories/Dual_spec.v
theories/Dual_proof.v
theories/Dual_props.v
theories/SpSeg_model.v
theories/SpSeg_spec.v
theories/SpSeg_proof.v
theories/SpSeg_props.v
theories/PSeg_model.v
theories/PSeg_spec.v
theories/PSeg_proof.v
theories/PSeg_props.v
theories/LiChao_model.v
theories/LiChao_spec.v
theories/LiChao_proof.v
theories/LiChao_proof2.v
theories/LiChao_props.v
theories/MonoMin_model.v
theories/MonoMin_spec.v
theories/MonoMin_proof.v
theories/MonoMin_props.v
theories/Kruskal_model.v
theories/Kruskal_spec.v
theories/Kruskal_proof.v
theories/Kruskal_proof2.v
theories/Kruskal_props.v
theories/MaxRect_model.v
theories/MaxRect_spec.v
theories/MaxRect_proof.v
theories/MaxRect_proof2.v
theories/MaxRect_proof3.v
theories/MaxRect_props.v
theories/NumSubseq_model.v
theories/NumSubseq_spec.v
theories/NumSubseq_proof.v
theories/NumSubseq_props.v
theories/FactTab_model.v
theories/FactTab_spec.v
theories/FactTab_proof.v
theories/FactTab_proof2.v
theories/FactTab_props.v
theories/Tourn_model.v
theories/Tourn_spec.v
theories/Tourn_proof.v
theories/Tourn_proof2.v
theories/Tourn_props.v
theories/LowLink_spec.v
theories/LowLink_model.v
theories/LowLink_proof.v
theories/LowLink_proof2.v
theories/LowLink_proof3.v
theories/LowLink_proof4.v
theories/LowLink_proof5.v
theories/LowLink_props.v
theories/Bcc_spec.v
theories/Bcc_model.v
theories/Bcc_proof.v
theories/Bcc_proof2.v
theories/Bcc_proof3.v
theories/Bcc_proof4.v
theories/Bcc_proof5.v
theories/Bcc_proof6.v
theories/Bcc_props.v
theories/AhoC_spec.v
theories/AhoC_model.v
theories/AhoC_proof.v
theories/AhoC_proof2.v
theories/AhoC_proof3.v
theories/AhoC_props.v
theories/Horn_spec.v
theories/Horn_model.v
theories/Horn_proof.v
theories/Horn_props.v
theories/Mo_model.v
theories/Mo_proof.v
theories/Mo_props.v
theories/Odc_spec.v
theories/Odc_model.v
theories/Odc_proof.v
theories/Odc_proof2.v
theories/Odc_props.v
theories/BM_spec.v
theories/BM_model.v
theories/BM_proof.v
theories/BM_proof2.v
theories/BM_proof3.v
theories/BM_proof4.v
theories/BM_props.v
theories/Bez_spec.v
theories/Bez_model.v
theories/Bez_proof.v
theories/Bez_proof2.v
theories/Bez_props.v
theories/Eul_spec.v
theories/Eul_model.v
theories/Eul_proof.v
theories/Eul_proof2.v
theories/Eul_props.v
theories/Ueu_spec.v
theories/Ueu_model.v
theories/Ueu_proof.v
theories/Ueu_proof2.v
theories/Ueu_props.v
theories/Slope_spec.v
theories/Slope_model.v
theories/Slope_proof.v
theories/Slope_props.v
theories/Mcht_spec.v
theories/Mcht_model.v
theories/Mcht_proof.v
theories/Mcht_proof2.v
theories/Mcht_props.v
theories/Quot_spec.v
theories/Quot_model.v
theories/Quot_proof.v
theories/Quot_proof2.v
theories/Quot_props.v
theories/Dlog_spec.v
theories/Dlog_model.v
theories/Dlog_proof.v
theories/Dlog_props.v
theories/MinMod_model.v
theories/MinMod_props.v
theories/CoBFS_spec.v
theories/CoBFS_model.v
theories/CoBFS_proof.v
theories/CoBFS_proof2.v
theories/CoBFS_props.v
theories/RHash_spec.v
theories/RHash_model.v
theories/RHash_proof.v
theories/RHash_proof2.v
theories/RHash_props.v
theories/SubIt_spec.v
theories/SubIt_model.v
theories/SubIt_proof.v
theories/SubIt_proof2.v
theories/SubIt_props.v
theories/TreeEx.v
theories/LevAnc_model.v
theories/LevAnc_proof.v
theories/LevAnc_proof2.v
theories/LevAnc_props.v
theories/Centroid_spec.v
theories/Centroid_model.v
theories/Centroid_proof.v
theories/Centroid_proof2.v
theories/Centroid_props.v
theories/ETour_model.v
theories/ETour_proof.v
theories/ETour_proof2.v
theories/ETour_proof3.v
theories/ETour_props.v
theories/SumCount_spec.v
theories/SumCount_model.v
theories/SumCount_proof.v
theories/SumCount_props.v
theories/Denom_spec.v
theories/Denom_model.v
theories/Denom_proof.v
theories/Denom_props.v
theories/CSort_proof.v
theories/Tri_spec.v
theories/Tri_model.v
theories/Tri_proof.v
theories/Tri_props.v
theories/Mob_spec.v
theories/Mob_model.v
theories/Mob_proof.v
theories/Mob_props.v
theories/MinMax_spec.v
theories/MinMax_model.v
theories/MinMax_proof.v
theories/MinMax_props.v
theories/Depq_spec.v
theories/Depq_model.v
theories/Depq_proof.v
theories/Depq_props.v
theories/PFen_spec.v
theories/PFen_model.v
theories/PFen_proof.v
theories/PFen_proof2.v
theories/PFen_props.v
theories/DCyc_spec.v
theories/DCyc_model.v
theories/DCyc_proof.v
theories/DCyc_props.v
theories/Rcd_spec.v
theories/Rcd_model.v
theories/Rcd_proof.v
theories/Rcd_props.v
theories/MMD_spec.v
theories/MMD_model.v
theories/MMD_proof.v
theories/MMD_props.v
theories/SubConv_spec.v
theories/SubConv_model.v
theories/SubConv_proof.v
theories/SubConv_props.v
theories/MEdge_spec.v
theories/MEdge_model.v
theories/MEdge_proof.v
theories/MEdge_props.v
theories/Trn_spec.v
theories/Trn_model.v
theories/Trn_proof.v
theories/Trn_props.v
theories/Pows_model.v
theories/Pows_props.v
theories/Chrom_spec.v
theories/Chrom_model.v
theories/Chrom_proof.v
theories/Chrom_props.v
theories/DVec_spec.v
theories/DVec_model.v
theories/DVec_proof.v
theories/DVec_props.v
theories/Mont_spec.v
theories/Mont_model.v
theories/Mont_proof.v
theories/Mont_props.v
theories/AffC_spec.v
theories/AffC_model.v
theories/AffC_proof.v
theories/AffC_props.v
theories/Clq_spec.v
theories/Clq_model.v
theories/Clq_proof.v
theories/Clq_props.v
