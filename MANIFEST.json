{"claims": [
 {"property": "C01", "status": "proved", "theorems": ["union_find_history", "union_find_root_canonical"], "note": ""},
 {"property": "C02", "status": "proved", "theorems": ["union_find_history", "union_find_groups"], "note": ""},
 {"property": "C03", "status": "proved", "theorems": ["undo_union_find_history", "undo_union_find_exact"], "note": ""},
 {"property": "C04", "status": "proved", "theorems": ["linked_union_find_component"], "note": ""},
 {"property": "C05", "status": "proved", "theorems": ["component_sum_correct"], "note": "arbitrary commutative semigroup; vector of initial values"},
 {"property": "C06", "status": "proved", "theorems": ["weighted_union_find_history", "weighted_union_find_potential"], "note": "arbitrary group, whole histories including the failing assertion of diff"},
 {"property": "C07", "status": "proved", "theorems": ["fenwick_history", "fenwick_zero_history"], "note": "all histories of add, -=, assignment, [] and sum, both constructors, any abelian group"},
 {"property": "C08", "status": "proved", "theorems": ["fenwick_prefix_history", "fenwick_prefix_constructor_refuted"], "note": "finding: the vector constructor is wrong (refuted with a witness); incremental use is proved for every commutative monoid"},
 {"property": "C09", "status": "proved", "theorems": ["segment_tree_history"], "note": "max_right/min_left of SegmentTree do not compile when instantiated and are not modelled"},
 {"property": "C10", "status": "proved", "theorems": ["lazy_segment_tree_history"], "note": "every monoid with action, every history"},
 {"property": "C100", "status": "proved", "theorems": ["sum_count_counts"], "note": "T and R exact integers"},
 {"property": "C101", "status": "proved", "theorems": ["denominators", "denominators_large_refuted"], "note": "finding: overflow for n near the end of the type"},
 {"property": "C102", "status": "proved", "theorems": ["enumerate_triangles_once"], "note": "the calls of the consumer are modelled as a list"},
 {"property": "C103", "status": "proved", "theorems": ["mobius_function_correct"], "note": "integers unbounded"},
 {"property": "C104", "status": "proved", "theorems": ["minmax_bottleneck"], "note": "std::sort is a parameter with its contract; integer costs with std::less; rows of 64-bit words are boolean lists in blocks of 64. The diagonal is the bottleneck of a closed walk with at least one edge."},
 {"property": "C105", "status": "proved", "theorems": ["double_ended_priority_queue_correct"], "note": "Integers with std::less; the standard heap algorithms, nth_element and sort are parameters with their contracts. Copying a queue (whose reversed comparison keeps a pointer into the original) is not modelled."},
 {"property": "C106", "status": "proved", "theorems": ["persistent_fenwick_correct", "persistent_fenwick_values_refuted"], "note": "The second theorem is a finding: the constructor from values ignores the values. Integers; the pool is large enough and not cleared, n >= 1."},
 {"property": "C107", "status": "proved", "theorems": ["get_cycle_directed_correct", "get_cycle_directed_found_iff"], "note": "Unweighted instance: an edge is its target. Iterators into the stack are positions."},
 {"property": "C108", "status": "proved", "theorems": ["range_count_distinct_correct", "range_count_distinct_rejects"], "note": "atcoder::fenwick_tree is not in the repository and is modelled by its contract; unordered_map by its list of assignments."},
 {"property": "C109", "status": "proved", "theorems": ["manhattan_minimum_distances_correct", "manhattan_minimum_distances_duplicates_refuted"], "note": "Correct for pairwise different points; the refuted theorem records the finding for repeated points. Unbounded integers; the numeric_limits sentinels are None."},
 {"property": "C11", "status": "proved", "theorems": ["deque_history"], "note": "Histories of all calls including iterators; Deque_props.v."},
 {"property": "C110", "status": "proved", "theorems": ["subset_convolution_correct", "subset_convolution_rejects"], "note": "Any commutative ring; FPSNaive operations used are modelled with their padding and truncation."},
 {"property": "C111", "status": "proved", "theorems": ["remove_multiedges_correct", "first_occurrences_meaning", "remove_multiedges_out_of_range"], "note": "std::remove_if is taken to call its predicate in order, once per element."},
 {"property": "C112", "status": "proved", "theorems": ["transpose_correct", "rot90_correct", "transpose_rot90_period", "transpose_twice_no_columns_refuted"], "note": "The refuted theorem shows the exception for arrays without columns."},
 {"property": "C113", "status": "proved", "theorems": ["powers_correct"], "note": "mint is the ring of residues modulo m, pow by its contract; uses the proved linear sieve."},
 {"property": "C114", "status": "proved", "theorems": ["chromatic_number_sound", "chromatic_number_exact", "covers_positive", "chromatic_number_empty"], "note": "Machine integers unbounded in the model (the code needs n <= 30 for its shifts)."},
 {"property": "C115", "status": "proved", "theorems": ["default_vector_map", "default_vector_change", "default_vector_negative", "default_vector_unset"], "note": "values are scalars; a reference obtained from operator[] is used at once (no aliasing across growth)"},
 {"property": "C116", "status": "proved", "theorems": ["montmort_number_correct", "derangements_exist", "montmort_number_negative"], "note": "loop index in unbounded integers (n < 2^31 - 1)"},
 {"property": "C117", "status": "proved", "theorems": ["affine_clamp_apply", "affine_clamp_compose", "affine_clamp_compose_overflow", "affine_clamp_identity", "affine_clamp_fold", "affine_clamp_equality_refuted", "affine_clamp_doubling_refuted"], "note": "T = long long; equality respecting the functions and absence of overflow are refuted"},
 {"property": "C118", "status": "proved", "theorems": ["maximum_clique_complete", "maximum_clique_refuted", "maximum_clique_throws_refuted"], "note": "the expected property is refuted"},
 {"property": "C119", "status": "partial", "theorems": ["minimum_vertex_cover_partial"], "note": "proved from a largest independent set; missing: that maximum_independent_set always returns one (it is modelled, not yet proved)"},
 {"property": "C12", "status": "proved", "theorems": ["queue_history", "queue_history_commutative", "queue_order_refuted"], "note": "Holds for every append/merge pair satisfying the cut law; for non-commutative monoids the ordered product claim is false of the code and refuted in general."},
 {"property": "C13", "status": "proved", "theorems": ["sparse_table_prod", "sparse_table_empty"], "note": "Empty vector: undefined (clz(0))."},
 {"property": "C14", "status": "proved", "theorems": ["barrett_quorem_exact", "barrett_mul_exact", "barrett_large_modulus_refuted"], "note": "exact for 1<=M<=2^31; counterexample M=2^31+1 for the documented claim on all 32-bit M"},
 {"property": "C15", "status": "proved", "theorems": ["static_modint_arithmetic", "dynamic_modint_arithmetic", "barrett128_exact"], "note": ""},
 {"property": "C16", "status": "proved", "theorems": ["montgomery_correct", "montgomery_even_rejected", "montgomery_sub_refuted", "montgomery_large_refuted"], "note": "sub is refuted (general theorem): right iff no borrow; N > R/2 refuted by witness"},
 {"property": "C17", "status": "proved", "theorems": ["ext_gcd_bezout", "gcd_inv_correct", "inv_mod_correct"], "note": "Checked 64-bit arithmetic; ExtGcd_props.v."},
 {"property": "C18", "status": "proved", "theorems": ["garner_correct"], "note": "Checked 64-bit arithmetic; includes the failing-assertion case."},
 {"property": "C19", "status": "proved", "theorems": ["m61_arith", "m61_pow_correct", "m61_inv_correct"], "note": "primality of 2^61-1 is proved by a Lucas certificate"},
 {"property": "C20", "status": "proved", "theorems": ["rational_make_correct", "rational_field_correct", "rational_equality_correct", "rational_order_integer_parts", "rational_order_refuted", "rational_rounding_correct", "rational_rounding_refuted"], "note": "arithmetic and equality proved exact against Q; order and floor/ceil refuted with exact characterisation of failing cases"},
 {"property": "C21", "status": "proved", "theorems": ["subset_transform", "supset_transform", "walsh_hadamard_transform", "or_and_convolution_correct", "xor_convolution_correct", "xor_convolution_int", "divisor_transform", "multiple_transform", "gcd_lcm_convolution_correct", "transform_convolution_sizes"], "note": "over every commutative ring and every length; for xor / inverse Walsh-Hadamard the division by the length is a parameter assumed to undo multiplication by it, discharged for the integers"},
 {"property": "C22", "status": "proved", "theorems": ["linear_sieve_correct", "linear_sieve_factorize"], "note": "all n"},
 {"property": "C23", "status": "proved", "theorems": ["range_set_history", "range_set_segments"], "note": "in_the_same_range does not compile (calls an undeclared member) and is not modelled; T unbounded"},
 {"property": "C24", "status": "proved", "theorems": ["binary_heap_history", "binary_heap_pop_last_refuted"], "note": "History theorem for every strict weak order, both heap directions, any initial sequence. Finding: pop() on a one-element heap is undefined behaviour (proved for every element); it is the only undefined case."},
 {"property": "C25", "status": "proved", "theorems": ["interval_heap_history"], "note": "History theorem from the empty heap for every strict weak order."},
 {"property": "C26", "status": "proved", "theorems": ["bit_vector_queries", "bit_vector_select_refuted"], "note": "access, rank, range rank and select for every content; select returns one more than the documented index, which is recorded as a finding (bit_vector_select_refuted)"},
 {"property": "C27", "status": "proved", "theorems": ["wavelet_access_rank", "wavelet_range_queries", "wavelet_plain_queries", "wavelet_xor_kth_refuted", "wavelet_full_width_refuted"], "note": "all queries for bit_num below the width of T. Findings: the xor k-th queries return v rather than x^v, and with bit_num equal to the width (the default) rank and the range queries shift by the width, which is undefined"},
 {"property": "C28", "status": "proved", "theorems": ["persistent_array_history", "persistent_array_dump_refuted"], "note": "set/get/clone/size/mut_set proved for all histories; dump is a bug, recorded as a refutation"},
 {"property": "C29", "status": "proved", "theorems": ["persistent_union_find_newest_version", "persistent_union_find_refuted"], "note": "claim across versions is false of the code (finding); proved for linear use"},
 {"property": "C30", "status": "proved", "theorems": ["binary_trie_history", "binary_trie_max_refuted", "binary_trie_xor_leq_refuted"], "note": "all member functions except to_string; two findings"},
 {"property": "C31", "status": "proved", "theorems": ["manacher_correct"], "note": "all sequences, any decidable equality"},
 {"property": "C32", "status": "proved", "theorems": ["morris_pratt_correct", "all_periods_correct", "min_period_correct", "matcher_correct", "matcher_refuted"], "note": "matcher proved for std::string without NUL in the text; the failing cases are a finding (matcher_refuted)"},
 {"property": "C33", "status": "proved", "theorems": ["gaussian_f2_solution", "gaussian_f2_basis_refuted", "solution_space_normalized_refuted"], "note": "Findings: the basis is incomplete for wide matrices of full row rank; normalized() always aborts on a nonempty basis. DynamicBitSet is modelled as a list of bits here."},
 {"property": "C34", "status": "proved", "theorems": ["xor_base_represents", "xor_base_add_new"], "note": "unsigned integer T"},
 {"property": "C35", "status": "proved", "theorems": ["bfs_distance_is_least", "bfs_graph_of_edges", "bfs_connected_components"], "note": ""},
 {"property": "C36", "status": "proved", "theorems": ["dijkstra_shortest"], "note": "adjacency-list constructor, integer costs; the hypothesis on overflow is only that a least cost plus one edge stays below numeric_limits::max()"},
 {"property": "C37", "status": "proved", "theorems": ["topological_sort_correct"], "note": "all directed multigraphs with in-range adjacency lists; int treated as unbounded (counts at most the number of edges)"},
 {"property": "C38", "status": "proved", "theorems": ["permutation_permute", "permutation_inv_permute", "permutation_mul", "permutation_mul_assoc", "permutation_inv", "permutation_identity", "permutation_pow", "permutation_hash", "permutation_unhash"], "note": "hash_t taken wide enough for n!; pow needs k+n-1 to be a long long; index_sort not covered"},
 {"property": "C39", "status": "proved", "theorems": ["binary_search_finds_boundary", "binary_search_finds_a_boundary", "binary_search_rejects", "binary_search_exponential_finds_boundary", "ternary_search_convex", "ternary_search_concave", "ternary_search_value_convex", "binary_search_wide_refuted", "ternary_search_max_refuted", "ternary_search_value_refuted"], "note": "integral overloads; findings: difference overflow, r = max overflow, ternary_search_value returns Arg"},
 {"property": "C40", "status": "proved", "theorems": ["lis_increasing_longest", "lis_nondecreasing_longest", "lis_nonincreasing_longest", "lis_decreasing_longest"], "note": "element type modelled as integers; std::lower_bound's precondition is checked in the model"},
 {"property": "C41", "status": "partial", "theorems": ["dynamic_modint_division", "static_modint_division_partial", "is_prime_complete_partial", "inv_gcd_exact"], "note": "missing: no composite below 2^31 passes the Miller-Rabin test with bases 2,7,61, so static_modint division assumes the test is right about m"},
 {"property": "C42", "status": "proved", "theorems": ["lazy_union_find_history"], "note": "laws of the template parameters stated by lazy_laws"},
 {"property": "C43", "status": "proved", "theorems": ["fenwick_2d_history"], "note": ""},
 {"property": "C44", "status": "proved", "theorems": ["lazy_segment_tree_history", "lazy_min_left_refuted", "lazy_suffix_prod_refuted"], "note": "searches proved inside the history theorem; the two broken cases are findings"},
 {"property": "C45", "status": "proved", "theorems": ["kronecker_power_correct"], "note": "any commutative ring"},
 {"property": "C46", "status": "proved", "theorems": ["convolution_naive_correct", "dirichlet_convolution_correct"], "note": "any commutative ring"},
 {"property": "C47", "status": "proved", "theorems": ["simple_sieve_correct", "sieve_is_prime", "sieve_factorize_divisors"], "note": "std::sqrt taken as the exact integer square root; unsigned overflow excluded (N below about 2^27)"},
 {"property": "C48", "status": "proved", "theorems": ["matrix_f2_det", "matrix_f2_inv", "matrix_f2_add", "matrix_f2_mul", "matrix_f2_apply", "matrix_f2_pow", "matrix_f2_rank", "matrix_f2_rank_refuted"], "note": "Finding: rank() out-of-range row read. DynamicBitSet is modelled as a list of bits here."},
 {"property": "C49", "status": "proved", "theorems": ["dynamic_bitset_history", "dynamic_bitset_all_refuted", "dynamic_bitset_bitref_and_refuted"], "note": "all() on sizes that are nonzero multiples of 64 is excluded from the history theorem (finding: undefined shift); bitref::operator&= is refuted (finding)."},
 {"property": "C50", "status": "proved", "theorems": ["dag_shortest_path_correct"], "note": "cost type unbounded below; the hypothesis asks that least costs plus one edge stay under its maximum"},
 {"property": "C51", "status": "proved", "theorems": ["bfs01_shortest"], "note": "class BFS01; MapBFS01 not modelled"},
 {"property": "C52", "status": "proved", "theorems": ["bipartite_coloring_correct"], "note": ""},
 {"property": "C53", "status": "proved", "theorems": ["doubling_correct", "doubling_sum_correct", "boundary_is_largest", "first_true_is_least", "doubling_wide_refuted"], "note": "doubling_wide_refuted is a finding: max_step >= 2^62 overflows in floor_log2"},
 {"property": "C54", "status": "proved", "theorems": ["infinite_paths_correct", "kth_iterate_correct", "kth_iterate_wide_refuted"], "note": "kth_iterate_wide_refuted is a finding: k within n of 2^63 overflows"},
 {"property": "C55", "status": "proved", "theorems": ["cartesian_tree_correct"], "note": ""},
 {"property": "C56", "status": "proved", "theorems": ["sliding_window_correct"], "note": ""},
 {"property": "C57", "status": "proved", "theorems": ["tree_is_forest", "hld_construct", "hld_construct_roots", "hld_graph", "hld_numbering", "hld_order", "hld_light"], "note": "hld_of ties the rooting to the constructor's result."},
 {"property": "C58", "status": "proved", "theorems": ["hld_lca", "hld_la", "hld_dist", "hld_path", "hld_jump"], "note": ""},
 {"property": "C59", "status": "proved", "theorems": ["hld_fold_path", "hld_fold_path_noncommutative", "hld_update_path", "hld_subtree"], "note": "The caller's range structure is a hypothesis (answers / answers_rev)."},
 {"property": "C60", "status": "proved", "theorems": ["rerooting_add_edge", "rerooting_run", "rerooting_rooted_dp_unique", "rerooting_empty_refuted"], "note": "n = 0 is a finding (rerooting_empty_refuted)"},
 {"property": "C61", "status": "proved", "theorems": ["rbt_contents", "rbt_calls", "rbt_merge", "rbt_build", "rbt_reverse_noncommutative_refuted"], "note": "pure trees: nodes are owned by one tree; set does not compile and is left out"},
 {"property": "C62", "status": "proved", "theorems": ["rbt_balanced"], "note": ""},
 {"property": "C63", "status": "proved", "theorems": ["persistent_rbt_refuted", "persistent_rbt_balance_refuted"], "note": "finding: the claim is refuted on the memory model PRBT_model.v"},
 {"property": "C64", "status": "proved", "theorems": ["cumulative_sum_correct", "cumulative_sum_default_refuted", "cumulative_sum_2d_correct"], "note": ""},
 {"property": "C65", "status": "proved", "theorems": ["step_sum_correct", "step_sum_short_refuted"], "note": "finding for residues past the end"},
 {"property": "C66", "status": "proved", "theorems": ["rle_correct", "rle_default_correct", "rle_clear_swap_refuted"], "note": "pop_back does not compile and is left out"},
 {"property": "C67", "status": "proved", "theorems": ["priority_sum_correct", "priority_sum_erase_refuted"], "note": "integers; std::priority_queue as a list in removal order"},
 {"property": "C68", "status": "proved", "theorems": ["compressor_correct", "inversion_number_correct"], "note": "integer keys; std::sort/unique/lower_bound and atcoder::fenwick_tree by their specification"},
 {"property": "C69", "status": "proved", "theorems": ["dual_segment_tree_history", "commutative_dual_segment_tree_history"], "note": "DualSegmentTree calls outside 0 <= l <= r <= n are outside the contract (its push runs before the assertion)."},
 {"property": "C70", "status": "proved", "theorems": ["sparse_segment_tree_history", "sparse_segment_tree_copy_refuted"], "note": "Histories without copies; the copy constructor aliases (finding, proved as a refutation)."},
 {"property": "C71", "status": "proved", "theorems": ["persistent_segment_tree_history", "persistent_segment_tree_empty_refuted", "persistent_segment_tree_dump_refuted"], "note": "full history theorem; two findings: empty construction never returns, dump is wrong after clear_pool"},
 {"property": "C72", "status": "proved", "theorems": ["li_chao_tree_history", "li_chao_query_beyond_refuted", "li_chao_no_coordinates_refuted"], "note": "history theorem for both directions with 64-bit overflow checks; two findings refuted"},
 {"property": "C73", "status": "proved", "theorems": ["monotone_minima_correct", "min_plus_convex_convex_correct", "min_plus_convex_arbitrary_correct", "min_plus_asserts"], "note": "elements are unbounded integers"},
 {"property": "C74", "status": "proved", "theorems": ["kruskal_history"], "note": "std::sort is any correct sort (a parameter with its contract as hypothesis); atcoder::dsu is external code, represented by component labels."},
 {"property": "C75", "status": "proved", "theorems": ["maximum_square_correct", "maximum_rectangle_correct", "maximal_rectangles_reports", "maximal_rectangles_hist_reports", "maximal_rectangles_refuted"], "note": "the claim that only maximal rectangles are reported is refuted (finding)."},
 {"property": "C76", "status": "proved", "theorems": ["number_of_nonempty_subsequences_correct"], "note": "std::sort is any correct sort of pairs (hypothesis); element type modelled as integers."},
 {"property": "C77", "status": "proved", "theorems": ["factorial_history", "factorial_no_abort", "factorial_below_modulus_refuted", "inv_mods_history", "inv_mods_above_modulus_refuted", "get_invs_correct", "pow_mods_history"], "note": "Findings: factorial aborts for indices between p/2 and p depending on the order of queries; inv_mods gives 0 above p. Table indices are unbounded integers in the model."},
 {"property": "C78", "status": "proved", "theorems": ["scc_tournament_correct"], "note": "int and long long are unbounded integers in the model."},
 {"property": "C79", "status": "proved", "theorems": ["low_link_correct", "low_link_edge_ids", "two_edge_cc_correct", "low_link_rebuild_refuted", "two_edge_cc_rebuild_refuted"], "note": "The two _refuted theorems are findings: a second build() ignores edges added since the first, and a second build() of TwoEdgeConnectedComponents resets the component count only. Not covered: pre_order(), low_link() values."},
 {"property": "C80", "status": "proved", "theorems": ["bcc_correct", "bcc_loop_refuted", "bcc_rebuild_refuted", "remove_multiedges_correct", "block_cut_forest_correct"], "note": "bcc_loop_refuted and bcc_rebuild_refuted are findings: a self-loop gets component -1 and makes components() undefined; a second build() repeats the isolated vertices."},
 {"property": "C81", "status": "proved", "theorems": ["ac_correct", "aca_correct", "trie_index_correct", "trie_add_start", "ac_empty_refuted", "ac_rebuild_refuted", "aca_rebuild_refuted"], "note": "The three _refuted theorems are findings: empty pattern in the map version, rebuilding either version."},
 {"property": "C82", "status": "proved", "theorems": ["horn_correct", "horn_negative_refuted"], "note": "horn_negative_refuted is a finding: a derived negative conclusion fires the clauses that have the variable as a premise."},
 {"property": "C83", "status": "proved", "theorems": ["mo_correct", "mo_order_correct"], "note": ""},
 {"property": "C84", "status": "proved", "theorems": ["odc_correct", "odc_absent", "odc_again_refuted"], "note": "Full for one call of answer() at the end of the history. odc_again_refuted is a finding: answer() closes the lifetime of every edge still present, so it cannot be called in the middle of a history."},
 {"property": "C85", "status": "proved", "theorems": ["bm_matching_max", "bm_solve_size", "bm_cover_min", "bm_independent_max", "bm_edge_cover_min", "bm_edge_cover_refuted", "bm_resolve_refuted"], "note": "solve() after a later add_edge and min_edge_cover with m > n are refuted (findings)"},
 {"property": "C86", "status": "proved", "theorems": ["bez_solutions", "bez_extremes", "bez_b_zero_refuted", "bez_count_refuted", "bez_set_refuted"], "note": "b = 0, count for the arbitrary equation and the set_* return value are findings; the restrictions of the arbitrary equation a = b = 0 are modelled but only count() is stated"},
 {"property": "C87", "status": "proved", "theorems": ["eul_circuit_any", "eul_circuit_from", "eul_trail_any", "eul_trail_keeps_edge_refuted", "eul_empty_refuted"], "note": "Both directions (answers are right, missing answers are justified) for all directed multigraphs. Findings: a failed trail search on a disconnected graph leaves the helper edge behind (eul_trail_keeps_edge_refuted); no vertices is UB (eul_empty_refuted)."},
 {"property": "C88", "status": "proved", "theorems": ["ueu_circuit_any", "ueu_circuit_from", "ueu_trail_any", "ueu_rev_edge", "ueu_trail_keeps_edge_refuted", "ueu_empty_refuted"], "note": "Both directions for all undirected multigraphs, self-loops included. Findings: a failed trail search on a disconnected graph leaves the helper edge behind (ueu_trail_keeps_edge_refuted); no vertices is UB (ueu_empty_refuted)."},
 {"property": "C89", "status": "proved", "theorems": ["slope_min_argmin", "slope_function_unique"], "note": "All call histories; T = Z (overflow of T is not modelled), the sentinel inf is a parameter. lines() does not compile and is not modelled."},
 {"property": "C90", "status": "proved", "theorems": ["mcht_answers", "mcht_float_refuted"], "note": "Integral value types: full claim. mcht_float_refuted records the failure for floating-point types (numeric_limits::min() positive)."},
 {"property": "C91", "status": "proved", "theorems": ["quot_enumerate", "quot_ranges", "quot_multiple", "quot_large_refuted", "quot_multiple_max_refuted"], "note": "The two refuted theorems record the overflow for n >= 2^60 and for a numerator equal to the maximum of T."},
 {"property": "C92", "status": "proved", "theorems": ["dlog_least", "dlog_coprime_least", "inv_search_ok", "dlog_large_refuted"], "note": "mint::inv is an oracle with the hypothesis stated in the theorem, met by inv_search_ok. dlog_large_refuted records the overflow for m >= 2^30."},
 {"property": "C93", "status": "proved", "theorems": ["min_mod_least", "min_mod_small", "min_mod_large_refuted"], "note": "atcoder::floor_sum is modelled by its documented value. min_mod_large_refuted records the int overflow for m above 2^30."},
 {"property": "C94", "status": "proved", "theorems": ["co_distance_is_least", "co_connected_components", "co_bfs_of_edges"], "note": "std::partition is a parameter constrained by its contract"},
 {"property": "C95", "status": "proved", "theorems": ["rolling_hash_history", "rolling_hash_collisions", "rolling_hash_negative_refuted"], "note": "gen_bases (random) is not modelled: the bases are universally quantified; finding: ints are converted to uint64_t so negative elements collide"},
 {"property": "C96", "status": "proved", "theorems": ["all_subset_enumerates", "all_setbit_enumerates", "all_subset_k_enumerates", "all_subset_full_refuted", "all_subset_k_single_refuted"], "note": "the intrinsics pdep, tzcnt, blsi, blsr, popcnt are modelled by their documented meaning; two exceptional inputs are findings"},
 {"property": "C97", "status": "proved", "theorems": ["get_tree_path_simple", "level_ancestor"], "note": "All trees, roots and vertices, no size bound. std::upper_bound is modelled with its precondition (partitioned range) as undefined behaviour, which the theorem excludes."},
 {"property": "C98", "status": "proved", "theorems": ["find_centroids_correct"], "note": "All trees, no size bound; integers unbounded. On an empty graph the code reads outside its arrays; the theorem is about trees, which have a vertex."},
 {"property": "C99", "status": "proved", "theorems": ["euler_tour_correct"], "note": "adjacency-list constructor; depths fit because the tree has at most 2^28 vertices"}
]}
