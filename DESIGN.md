# Formal model of suisen-cp/cp-library-cpp in Rocq

## Layout

`rocq/theories/` (logical name `Verif`), for every group `X` of headers:

| file | content |
|---|---|
| `Base.v` | outcome monad `res` (`Ok`, `UB`, `Abort`, `OutOfFuel`), bounds-checked vectors, loops, machine integers |
| `BaseLemmas.v` | lemmas about `Base.v` |
| `X_model.v` | Gallina model of the C++ functions, every definition citing file and lines; no proofs |
| `X_spec.v` | (where needed) the small independent specification the theorems talk about |
| `X_proof.v` | invariants and proofs |
| `X_props.v` | only the property theorems, each closed with `exact`, with `Print Assumptions` and an `Example` that the hypotheses are met by a concrete non-trivial case |

## Modelling conventions

* A C++ member function that mutates the object becomes a function returning the new object.
* `operator[]` on a vector is bounds checked; an out-of-range access is the outcome `UB`, a failing
  `assert` is `Abort`. Theorems of the form `f x = Ok v` therefore contain memory safety and termination.
* Loops are `for_`, `for_each` or `loop` with explicit fuel written in the model; exhausted fuel is the outcome
  `OutOfFuel`, which no theorem accepts as a normal result.
* Index arithmetic is unbounded `Z`/`nat` unless said otherwise (sizes are assumed to fit `int`);
  the number-theoretic headers, whose point is machine arithmetic, are modelled with explicit
  wrap-around (`u32`, `u64`, `u128`) and with signed overflow as `UB`.
* Template parameters (element type, monoid operation, comparison) are Section variables; the laws they must satisfy
  are hypotheses of the theorems.
* `std::sort`, `std::map`, `std::multiset`, ... are modelled by their specification (listed under "Trusted base").

## Trusted base

* The Coq 8.16.1 kernel (with `vm_compute` conversions in examples and in the primality certificates).
* `Print Assumptions` prints "Closed under the global context" under every property theorem: no axiom is used, not even
  one of the standard library. (A listing of everything loaded shows seven `Coq.ssr.ssrunder.Under_rel.*` entries; they are the
  sealed fields of a standard-library module loaded by the ssreflect plugin and no theorem here uses them.)
* Only Coq's standard library is imported (`ZArith`, `List`, `Lia`, `Znumtheory`, `Permutation`, `Sorting`, ...).
* The reading of C++ in `X_model.v`: every definition cites the lines it models; that reading is checked by eye only.
* Specifications assumed of the C++ standard library, written as executable Gallina functions in the models:
  `std::vector`, `std::array`, `std::string` = lists with checked indices; `std::sort` = a sorted permutation (insertion sort);
  `std::map`/`std::set`/`std::multiset` = key-ordered association lists; `std::priority_queue` = a list with extraction of
  the largest element; `std::lower_bound`/`upper_bound` = first position by linear scan; `__builtin_clz/ctz/popcount` = `Z.log2` etc.
* `xor_transform` scales by a parameter standing for the inverse of the length; the theorem's hypothesis says that it is one.
* `std::sqrt`/`sqrtl` of an integer argument, where a model uses it, is `Z.sqrt` (exact for the ranges in question).
* Functions that do not compile when instantiated (`RangeSet::in_the_same_range`, `SegmentTree::max_right`, `MapFenwickTree::sum const`,
  `SlopeTrick::lines`, ...) are not modelled.
* Not modelled: templates' overload resolution and constraints, exceptions, allocation failure, I/O, iterators other than the ones
  named in a model, floating-point code, everything in a header that is not cited by a definition. Sizes and indices are assumed to fit
  the C++ index type unless the model's header comment says that they are checked.

The headers modelled so far, and the parts left out of each, are listed in the table "Plan per property" and in the header comment of
each `X_model.v`.

## Findings

A property whose claim is false of the faithful model is settled by a theorem with suffix `_refuted`.

| theorem | defect |
|---|---|
| `barrett_large_modulus_refuted` | `barrett` quotients are wrong for some 32-bit moduli above 2^31 |
| `fenwick_prefix_constructor_refuted` | `FenwickTreePrefix(vector)` loses elements |
| `lazy_min_left_refuted`, `lazy_suffix_prod_refuted` | `LazySegmentTree::min_left(n)` reads out of range when n is a power of two; `suffix_prod` aborts when n is not |
| `queue_order_refuted` | `QueueAggregation` does not give the ordered product of a non-commutative operation |
| `montgomery_sub_refuted` | `Montgomery::sub` tests an unsigned value for `< 0` |
| `montgomery_large_refuted` | `Montgomery` is wrong for odd N above R/2, although its comment asks only N < R |
| `rational_order_refuted` | `Rational::operator<` compares the wrong way round for proper fractions |
| `rational_rounding_refuted` | `Rational::floor`/`ceil` are wrong for every non-integer |
| `binary_heap_pop_last_refuted` | `BinaryHeap::pop` on one element moves element 0 of an empty vector |
| `bit_vector_select_refuted` | `BitVector::select` returns one more than the documented index |
| `wavelet_xor_kth_refuted` | `WaveletMatrix::range_xor_kth_smallest` returns v, not the documented x^v |
| `wavelet_full_width_refuted` | with the default `bit_num`, `WaveletMatrix` shifts by the width of T |
| `persistent_array_dump_refuted` | `PersistentArray::dump` writes `node->_val` (the root) at every position instead of `cur->_val` |
| `persistent_union_find_refuted` | `PersistentUnionFind::root` path-compresses nodes shared with older versions and changes their connectivity |
| `binary_trie_max_refuted`, `binary_trie_xor_leq_refuted` | `BinaryTrie::max` returns the complement of the maximum; `xor_count_leq` adds count(val) instead of count(x^val), which also breaks xor_count_gt, xor_floor, xor_higher |
| `matcher_refuted` | `MatcherMP` compares the text with `s[s.size()]` after a match: undefined for vectors, runs past the pattern when the text holds NUL; `min_period` of an empty sequence is undefined |
| `gaussian_f2_basis_refuted` | `gaussian_elimination_f2` stops at rank = n and drops the free columns after the last pivot |
| `solution_space_normalized_refuted` | `SolutionSpace::normalized` calls `add_base` on an object whose `_normalized` is false: assertion failure for every nonempty basis |
| `matrix_f2_rank_refuted` | `MatrixF2::rank` reads row n of a wide matrix once the rank is n |
| `dynamic_bitset_all_refuted` | `DynamicBitSet::all` shifts a 64-bit block by 64 when the size is a nonzero multiple of 64 and every bit is set |
| `dynamic_bitset_bitref_and_refuted` | `x[i] &= true` on a DynamicBitSet clears the other bits of the block |
| `binary_search_wide_refuted` | `binary_search(l, r, f)` with r - l not representable: signed overflow |
| `ternary_search_max_refuted` | `ternary_search_key` with r the largest value: the final `++y` overflows |
| `ternary_search_value_refuted` | the integral `ternary_search_value` returns Arg, cutting values of f that need a wider type |
| `doubling_wide_refuted` | `FunctionalGraph` doubling tables with `max_step >= 2^62`: `floor_log2` shifts 1 by 63, which overflows |
| `kth_iterate_wide_refuted` | `FunctionalGraph::kth_iterate(k)` adds a cycle position to `k`: a `long long` k within n of 2^63 overflows |
| `rerooting_empty_refuted` | `Rerooting::run_dp` on an object without vertices indexes `_start[1]` and `dp[0]` of arrays of length 1 and 0 (undefined behaviour) |
| `rbt_reverse_noncommutative_refuted` | the reversible red-black tree keeps no product of the reversed range: with an `op` that is not commutative `prod` is wrong after `reverse` |
| `persistent_rbt_refuted` | `PersistentRedBlackTreeNode` (plain and with `op` alone) inherits a `push` that does not clone: `insert`, `split`, ... free and rewrite the nodes of the version they start from |
| `persistent_rbt_balance_refuted` | the persistent lazy classes clone the node but recolour its shared children in place (`merge` 45/54, `split` 78-79): older versions lose the red-black invariant |
| `cumulative_sum_default_refuted` | `CumulativeSum()` leaves `n` uninitialised: `push_back` and `sum` read it |
| `step_sum_short_refuted` | `StepSum::sum(k, l, r)` with `size <= k < r`, `l < size`: the empty sum is looked up at a wrapped index (out of range) |
| `rle_clear_swap_refuted` | `RunLengthEncoder::clear` and `swap` do not touch `_length` |
| `priority_sum_erase_refuted` | `PrioritySum::erase` compares with `_rev_cmp` where `_cmp` is needed: erasing an element of the head leaves the sum, erasing one of the tail changes it |
| `sparse_segment_tree_copy_refuted` | sparse_segment_tree.hpp:20: the implicitly generated copy shares nodes with the original, so updates of the copy change the original |
| `persistent_segment_tree_empty_refuted` | `PersistentSegmentTree(0)` or construction from an empty vector recurses for ever |
| `persistent_segment_tree_dump_refuted` | after `clear_pool`, leaves taken from recycled nodes keep their old children and `dump` returns elements of the cleared trees |
| `li_chao_query_beyond_refuted` | LiChaoSegmentTree::query above the largest coordinate reads pos[m] out of bounds instead of failing the documented assertion |
| `li_chao_no_coordinates_refuted` | LiChaoSegmentTree built without coordinates answers query(0) with a segment entirely left of 0 |
| `maximal_rectangles_refuted` | maximal_rectangles_hist / maximal_rectangles also pass rectangles that can be extended (equal neighbouring heights, e.g. `[1,1]` gives `(0,1,1)`) and empty ones (grid `[[0]]` gives `(1,1,0,1)`) |
| `factorial_below_modulus_refuted` | `factorial<mint>` doubles its table: after `fac(6)`, `fac(8)` with modulus 11 asks for the inverse of 13! = 0 and aborts, although 8 < 11 |
| `inv_mods_above_modulus_refuted` | `inv_mods<mint>[i]` is 0 for every i above the modulus, also for invertible i |
| `low_link_rebuild_refuted` | `LowLink::build()` does not reset the pre-order numbers: after `add_edge` a second `build()` keeps the answers of the first graph (e.g. the component count) while `_built` says they are current |
| `two_edge_cc_rebuild_refuted` | `TwoEdgeConnectedComponents::build()` after the edge-list constructor (or a second time) sets `component_num()` to 0 and keeps the numbering, so `groups()` and `reduced_forest()` index out of range |
| `bcc_loop_refuted` | `BiconnectedComponents`: a self-loop is labelled -1 and `components()` indexes out of range |
| `bcc_rebuild_refuted` | `BiconnectedComponents::build()` called twice lists the isolated vertices twice, `component_num()` is wrong |
| `ac_empty_refuted` | AhoCorasick (map version) with an empty pattern does not count it except at the initial state; the array version does |
| `ac_rebuild_refuted` | AhoCorasick::build after another add counts the earlier patterns twice |
| `aca_rebuild_refuted` | AhoCorasickArray::build called twice never terminates |
| `horn_negative_refuted` | HornSAT: deriving "x is false" triggers the clauses that have x as a premise, so a satisfiable formula can be reported unsatisfiable |
| `odc_again_refuted` | OfflineDynamicConnectivity::answer() closes the lifetime of every edge still present (also when there was no question): after it, later questions do not see those edges and deleting one fails the assertion |
| `bm_edge_cover_refuted` | BipartiteMatching::min_edge_cover allocates its right-vertex table with n entries: out of bounds when m > n |
| `bm_resolve_refuted` | BipartiteMatching::solve after solve + add_edge returns only the number of new augmentations |
| `bez_b_zero_refuted` | BezoutEquation::solve divides by b/g = 0 when b = 0 and a divides z |
| `bez_count_refuted` | BezoutEquationSolution::count overflows for 0x + 0y = 0 without restrictions |
| `eul_trail_keeps_edge_refuted` | `DirectedEulerianGraph::eulerian_trail` does not remove its helper edge (t, s) when the circuit search fails (disconnected graph), so a later call on the grown graph returns a walk over an edge never added |
| `eul_empty_refuted` | `DirectedEulerianGraph::eulerian_circuit()` with n = 0 reads `iter[0]` of an empty vector |
| `ueu_trail_keeps_edge_refuted` | `UndirectedEulerianGraph::eulerian_trail` does not remove its helper edge (s, t) when the circuit search fails (disconnected graph) |
| `ueu_empty_refuted` | `UndirectedEulerianGraph::eulerian_circuit()` with n = 0 reads `iter[0]` of an empty vector |
| `mcht_float_refuted` | MonotonicCHT starts max_slope and prev_x from numeric_limits<T>::min(), which is positive for floating-point T: adding slopes -2 then -1, or an increasing question at a negative point, fails an assertion |
| `quot_large_refuted` | foreach_quotients computes 2 * h in int: for 2^60 <= n < 2^62 this overflows (UB) |
| `quot_multiple_max_refuted` | multiple_quotients_ranges steps l = r + 1 past numeric_limits<T>::max() when a numerator equals it (UB; with a wrapped value the loop does not end) |
| `dlog_large_refuted` | floor_log2(int m) evaluates 1 << 31 when m >= 2^30: discrete_logarithm is undefined for such moduli (moduli such as 1000000007 are below 2^30 and safe) |
| `min_mod_large_refuted` | min_of_mod_of_linear adds b + (m - 1 - k) in int: for m > 2^30 and b near m it overflows (m = 2^31-1, b = m-1) |
| `rolling_hash_negative_refuted` | RollingHash converts ints to uint64_t before reducing modulo 2^61-1, so the elements -1 and 7 are the same character for every base: vectors with negative elements can collide always |
| `all_subset_full_refuted` | all_subset(s) with every bit of the type set visits no subset at all (s + 1 wraps to 0) |
| `all_subset_k_single_refuted` | all_subset_k(s, 1) with 31 bits set (63 for the 64-bit version) shifts by the width of the type in the last increment |
| `denominators_large_refuted` | `fld_denominators_positive(2^63-1, 1)` (and the three siblings for n or q near the ends of the type) overflows in `n + 1 + q` |
| `persistent_fenwick_values_refuted` | `PersistentFenwickTree(dat)` never stores the values of `dat` in the nodes (build only links them and adds up zeros): every sum over the new tree is 0 |
| `manhattan_minimum_distances_duplicates_refuted` | when a point occurs twice, the copy that comes first in every sweep never sees the other one: its distance is reported as the distance to some third point (or max) instead of 0 |
| `transpose_twice_no_columns_refuted` | transpose of N rows without entries is the empty array, so the number of rows is lost |
| `affine_clamp_equality_refuted` | AffineClamp inherits operator== from Affine, which ignores the clamping bounds |
| `affine_clamp_doubling_refuted` | composing clamped functions overflows in the slope although the clamped composition is bounded |
| `maximum_clique_refuted`, `maximum_clique_complete`, `maximum_clique_throws_refuted` | maximum_clique builds a complement graph with a loop at every vertex: empty result on complete graphs, length_error on three isolated vertices, too small cliques |

## Plan per property

See the table at the end; each row says what is modelled and how it is proved.

| id | modelled | how proved |
|---|---|---|
| C01,C02 | `_dat` vector with path compression, union by size, groups | invariant: parent pointers form a forest whose root map is the closure of the merged pairs; induction over the op list |
| C03 | `_dat` + `_history` stack | undo is the exact inverse of a merge; history is a list of states |
| C04 | `_link` permutation | cycles of the permutation are the components; swap splices two cycles |
| C05 | `_dat`, `_sum` | invariant: root's sum = sum over component |
| C06 | `par`,`siz`,`value` with path halving, arbitrary group | potential function invariant |
| C07,C08 | `_dat` with `i & -i` | tree node i holds sum of (i-lowbit i, i] |
| C09 | `data`, bottom-up loops | node invariant + order-preserving decomposition |
| C10 | `data`, `lazy` | abstraction function pushing all pending actions |
| C11,C12 | two stacks | refinement to list |
| C13 | level tables | invariant per level |
| C14-C19 | explicit machine words | nonlinear integer reasoning with `mod`/`div` |
| C20 | unbounded Z numerators | rational equality by cross multiplication |
| C21 | index loops over list | sums over index sets |
| C22 | sieve loop | invariant over processed i |
| C23 | ordered map of segments | refinement to predicate on Z |
| C24,C25 | heap arrays | heap order invariant + permutation |
| C26,C27 | packed blocks and levels | rank = count of prefix; stable partition argument |
| C28,C29 | explicit heap of nodes | abstraction of a version + frame lemma |
| C30 | trie nodes | multiset abstraction |
| C31,C32 | loops | palindromes/borders invariants |
| C33,C34 | bit vectors as Z / bool lists | linear algebra over F2 |
| C35-C37 | queue/priority-queue loops | reachability invariants |
| C38-C40 | vectors | direct |
| C41 | `inv_gcd`, `is_prime`, modint division | extended Euclid invariant; Fermat for soundness of the test. Partial: that no composite below 2^31 passes the bases 2, 7, 61 would need an exhaustive table |
| C42 | `UnionFindLazy` | refinement to an array with a partition |
| C43 | `FenwickTree2D` | row trees of column trees; Fubini for list sums |
| C44 | `max_right`, `min_left`, `suffix_prod` | walk invariant on aligned blocks; witnesses for the failing cases |
| C45 | `kronecker_power_transform` | digit-by-digit transform equals the Kronecker power, induction on the number of digits |
| C48 | `MatrixF2` over lists of bits | row operations preserve every linear functional vanishing on all rows; counting solutions of triangular systems |
| C49 | `DynamicBitSet` over 64-bit blocks with arbitrary bits past the size | simulation of every call by the list of bits, word-level lemmas on masks and shifts, garbage bits left unconstrained |
| C46 | `convolution_naive`, `dirichlet_convolution`, ... | double loops as sums over index pairs |
| C47 | the wheel sieves modulo 30 | the wheel tables are checked by computation, marking by invariant; `std::sqrt` of an integer is `Z.sqrt` |
| C50 | in-degree counting and relaxation | the topological-sort invariant of C37 plus: vertices already listed have their least cost |
| C51 | deque loop, int distances | every reached vertex is queued or has its edges relaxed; termination by the sum of capped distances |
| C52 | colour vector and queue | for every 2-colouring f of the graph, colours found from one root agree with f up to a swap |
| C53 | doubling tables and the three queries | table row i holds 2^i steps; searches keep the sum of the bits taken so far |
| C54 | both recursive lambdas, the forest and the query lists | depth-first search on the current walk: c counts the walk vertices on the cycle; every write of kth_iterate is a right value and every vertex is written |
| C55 | calc_par, build, ranges | the parent vector is right for every prefix; the children of m are the leftmost minima of the two halves of its interval; ranges by induction on the interval |
| C56 | the deque and both pointers | the deque is the increasing list of positions not passed by a later one in the window; relational history specification |
| C57 | `HLD_model.v`: both recursive passes (dfs with the swap of the adjacency list under iteration, hld), both constructors, getters; `Tree_spec.v`: trees, forests, rootings, ancestors, paths | recursion over the rose tree of a subtree; every rooted forest has such trees (`grow_exists`); every forest can be rooted at any one vertex per component (`choose_one_each`); trees are forests by counting edges |
| C58 | lca, la, jump, dist of `HLD_model.v` | chain lemmas (a chain is a stretch of visit times); induction on the fuel, the visit times go down; uniqueness of simple paths in a rooted forest |
| C59 | fold_path, fold_path_noncommutative, update_path, fold_subtree, update_subtree; the range structure is an oracle that answers about visit order | the walk as a list of ranges, a permutation of the path; the number of chains above a vertex is at most log2 n + 1 |
| C60 | `Rerooting` with its `GraphCSR` (count, prefix sums, placement), both DFS passes | the CSR rows hold the neighbours (counting); the passes by induction on the tree rooted at 0; the spec is an inductive definition of the DP of a branch, shown functional and invariant under the order of neighbours |
| C61 | `RBT_model.v`: merge, split, rotations, push with operators and flags, the whole interface of the four node classes in one model | contents `seq` with pending operators applied; red-black invariant with one permitted red-red edge during merge; `holds` is the inductive set of histories |
| C62 | same | the invariant of C61; the black height is at most log2 of the size |
| C63 | `PRBT_model.v`: the same code over a pool of nodes with addresses, with and without cloning in push | refuted by a run |
| C64 | `CumSum_model.v`: both classes, an indeterminate length as an option | prefix products in an abelian group; loop invariants |
| C65 | `CumSum_model.v`: constructor and sum with the Barrett quotient of C14 and int overflow checks | the prefix sum of a residue class as a sum over its columns |
| C66 | `RLE_model.v`: compress, push_back, clear, swap | loop invariant: what is consumed is the expansion of the runs |
| C67 | `PrioSum_model.v`: the four queues, fix loops, insert, erase, set_k | invariant: the head precedes the tail; one moved element per insertion |
| C68 | `Compress_model.v`: sort, unique, partition points, all queries; inversion_number over an array of counters | strictly sorted list, first position of an upward closed predicate; counters are occurrence counts of the suffix |
| C69 | dual_segment_tree.hpp, commutative_dual_segment_tree.hpp in full except default constructors | invariant: element = pending maps of its ancestors applied to its leaf cell; push makes the ancestors of the visited nodes trivial; the decomposition lemma of the lazy tree |
| C70 | sparse_segment_tree.hpp in full: the shared static pool, several trees, the implicit copy | tree shapes with disjoint node sets over the pool; every node stores the product of its range; frame lemma for apply |
| C71 | PSeg_model.v: node pool as a list with a count, all of PersistentSegmentTree including clear_pool | invariant: every version is a tree of nodes below the pool count representing its vector; an update writes only to nodes allocated by itself; history simulation (PSeg_proof.v) |
| C72 | LiChao_model.v: all of li_chao_segment_tree.hpp with T = long long; std::sort/unique/lower_bound/upper_bound as in Compress_model.v | minimum over the root path of each position; insertion by induction on the level using that two lines cross once; walk and histories by invariant |
| C73 | MonoMin_model.v: monotone_minima.hpp and min_plus_convolution.hpp, the comparison callback as a partial function | a row-best relation that the recursion preserves; slopes of convex sequences; the balance of the two slopes as invariant of the merging loop |
| C74 | kruscal.hpp: add_edge, build, get_weight, get_mst; std::sort a parameter, atcoder::dsu replaced by component labels; unbounded weights | history theorem; kept edges connect, below every weight threshold, what all edges connect; matroid rank by counting components; threshold counts dominate so totals compare |
| C75 | maximum_square.hpp, maximum_rectangle.hpp; callbacks as the list of calls | exact characterisation of the stack after every column (rectangles ending there, attained minimum, left-maximal); every block of ones lies in a maximal one; dp entry is the largest square ending at a cell |
| C76 | number_of_subsequences.hpp; elements are integers, Int is Z or Z/M, std::sort a parameter | previous occurrence computed by the group loop; the new subsequences are those whose rest is not a subsequence of the prefix before the previous occurrence |
| C77 | `FactTab_model.v`: factorial::ensure and its five queries, inv_mods, get_invs, pow_mods over residues modulo p | Invariants of the two filling loops; Fermat for the single inverse; factorial identities for the coefficients; histories by relational simulation |
| C78 | `Tourn_model.v`: bucket sort by in-degree and the splitting loop | A prefix of the sorted vertices satisfies the counting test iff no edge enters it; predecessor-closed sets are prefixes |
| C79 | `low_link.hpp`, `two_edge_connected_components.hpp` in full (the recursive searches with fuel n+1, `LowLink_model.v`); specification by paths in the edge list with one edge or vertex removed (`LowLink_spec.v`) | an inductive description of one search (`walk`) with ghost tree edges and finishing times is extracted from the run; intervals of pre-order numbers give subtrees, and closedness of a subtree under the remaining edges gives bridges, articulation points and classes |
| C80 | `BiconnectedComponents` (search with its static edge stack, all queries), `remove_multiedges`, `BlockCutForest` (constructor and queries) | the depth-first certificate of C79: an edge is labelled through the topmost tree edge of its block; labels agree iff no vertex separates the edges; the forest through a parent function of decreasing rank |
| C81 | add, build, next_state, count_suffix_matching of both automata and the two tries they inherit from; std::map as an ordered association list | nodes = strings (injective), states = longest suffix in the trie, breadth-first invariant, induction on the text |
| C82 | constructor, add_clause, satisfiable, answer, as a history of calls | counters = number of unseen premises; queue invariant; every derived literal is forced in every model |
| C83 | the comparator and solve, callbacks as arbitrary functions; the order is any permutation (std::sort trusted for the strict weak order proved); bucket size arbitrary | interval invariant through the four loops |
| C84 | `Odc_model`: the three recording calls, the covering loop over the heap-indexed tree with 2q nodes (q need not be a power of two), the traversal with merges and undos on the C01 undo union-find | invariant: the open and closed lifetimes describe the edges present at every question; block lemma for ancestors of leaves in [q,2q); the traversal restores the structure exactly |
| C85 | BM_model.v: BipartiteMatching (Hopcroft-Karp phases with level BFS and iterator DFS, all queries); the DFS recursion is fuelled and proved never to run out | augmenting DFS soundness and progress, no augmenting path at the end gives Koenig cover (weak duality), Gallai for edge covers; inductive reachable-state relation |
| C86 | Bez_model.v: BezoutEquation and BezoutEquationSolution over unbounded Z (int128 intermediates), the interval product of count() checked; ext_gcd is the checked model of C-ext_gcd | general solution by Gauss, floor/ceil division lemmas, invariant: constraints hold at k iff k lies in both intervals with sentinels read as infinite |
| C87 | `directed_eulerian_graph.hpp`: add_edge, eulerian_circuit, eulerian_trail as they are (recursive lambda with fuel 2m+1, shown sufficient) | DFS invariant: from a balanced set of unused edges the call returns a walk to the balance point and exhausts every vertex it emits; completeness by closing the emitted vertices under edges |
| C88 | `undirected_eulerian_graph.hpp`: add_edge, eulerian_circuit, eulerian_trail, rev_edge as they are (recursive lambda with fuel 3m+1, shown sufficient) | as C87 with degree parities; the two darts of an edge are paired by `inv` and marked together |
| C89 | `slope_trick.hpp`: all members except lines() (does not compile); priority queues as lists with extreme element on top; T = Z | invariant: f = base + hinge sums over the two heaps without sentinels, every left breakpoint at most every right one; window minimum lemma covers the three minimum operations |
| C90 | MonotonicCHT::add_line, add_left, add_right, is_necessary, the three query bodies (ternary search included); deque as list, value_type as Z | hull invariant (strictly falling slopes, every inner line necessary) gives unimodal values; dropped lines are covered pointwise; the back end is the front end mirrored (slopes and points negated) |
| C91 | quotient_num, foreach_quotients, enumerate_quotients, quotient_ranges, multiple_quotients_ranges; sqrtl as correctly rounded 64-bit root, double division as round-to-nearest-even on 53 bits, both in integers; int and 64-bit arithmetic checked | exactness of the two roundings, closed form of the list on both sides of the root, ranges by index; loop invariant for several numerators |
| C92 | floor_log2, discrete_logarithm_coprime (baby-step giant-step with the table), discrete_logarithm with the switch of modulus; mint::inv as oracle, int arithmetic checked | table and giant-step invariants; cofactor m/gcd(x^d, m) is prime to x by a divisor-power argument; pigeonhole for the search bound |
| C93 | min_of_mod_of_linear; atcoder::floor_sum by its documented sum, checked as 64-bit | adding c < m raises each floor by 0 or 1, so the comparison of sums decides whether some residue is at most k; binary-search invariant |
| C94 | bfs_complement.hpp in full; std::partition as a parameter with its contract (CoBFS_model) | loop invariant: s holds exactly the unvisited vertices, adj is all false between steps, the queue is sorted by distance and every popped vertex is closed under non-edges; optimality by the potential argument of C35 |
| C95 | rolling_hash.hpp with mint = modint2p61m1, pow_mods.hpp tables as shared state (RHash_model); gen_bases not modelled | prefix-hash invariant and ring identities on residues; collisions by counting the roots of the difference polynomial over Z/(2^61-1) |
| C96 | subset_iterator.hpp in full, intrinsics by their documented meaning (SubIt_model); nCk is all_subset_k of (1<<n)-1 | binary induction on masks; the next-combination step decomposed as 2^i(2^(j+1)h+2^j-1) and shown to give the next number with the same bit count; PDEP is a monotone bijection onto the subsets |
| C97 | get_tree_path (the recursive lambda, with a depth bound the theorem excludes), LevelAncestor: build (depth-first numbering, prefix sums, counting sort) and all queries | induction on the rose tree of the rooted tree: the search appends the preorder; the block of a depth class lists preorder times in increasing order; a subtree is an interval of the preorder, so the last vertex of that depth visited no later than u is its ancestor |
| C98 | find_centroids: the loop round by round, its assertion as abort | each subtree is walked in exactly (sum of degrees + vertices) rounds (rose induction over function-valued arrays); the pieces of g - v are the subtrees of the children and the rest; two centroids are parent and child, hence at most two |
| C99 | `ETour_model.v`: the recursive walk, the bottom-up argmin tree over the tour, queries lca, dist, depth, parent, times (the generic-edge and default constructors are not modelled) | tour of a rose tree; walk fills the leaves with the tour; iterative segment query returns a minimum-depth entry; only the lowest common ancestor attains it |
| C100 | `SumCount_model.v`: the five functions over exact integers | count as a sum over rows; induction on the length of the first interval with the closed form as invariant |
| C101 | `Denom_model.v`: the four functions with checked 64-bit sums and truncating division | quotient inequalities q x <= n < (q+1) x, remainders of truncating division; ceiling versions reduce to the floor versions at (-n, -q) |
| C102 | `Tri_model.v`: counting sort by degree, orientation of edges, marking and enumeration; the consumer is a list of calls | `CSort_proof.v`: counting sort assigns the rank by (key, index), injective; the calls are the flat_map over increasing ranks |
| C103 | `Mob_model.v`: constructor sieve, mobius, min_prime_factor, factorize, is_prime | invariant: after the primes below p, each entry is the product of signs over prime divisors below p (0 if a square divides) |
| C104 | minmax_floyd_warshall with both adjacency bit sets in blocks of 64, the recursive closure and the sorted edge list; std::sort is a parameter | the closure recursion keeps a set of triples whose shortcut may still be missing and empties the part it is responsible for; fuel is the number of pairs not yet joined; cheaper edges are all joined, which gives the lower bound |
| C105 | DoubleEndedPriorityQueue over integers with std::less, both heaps and the pivot; make_heap, push_heap, pop_heap, nth_element and sort are a record of functions with the contracts of the standard | step by step simulation of a sorted list: the pivot is the greatest element of the min heap and not above the max heap, as long as the min heap is not empty |
| C106 | PersistentFenwickTree with its node pool as a growing list and pointers as positions; build, add, sum bit by bit | representation of an array by the nodes below a bound, framed by pool growth; add writes only to cloned nodes; simulation of a list of independent arrays |
| C107 | graph/cycle_detection.hpp get_cycle_directed (edges are their targets, iterators are positions) | depth-first search invariant: the stack is the tail of the current path, finished vertices are in topological order |
| C108 | range_query/static range_count_distinct.hpp (atcoder::fenwick_tree by its contract) | invariants of the five loops; counting lemma: value first seen at or after l iff previous occurrence ends at or before l |
| C109 | graph/manhattan_minimum_distances.hpp on top of the models of FenwickTreePrefix and coordinate compression; std::sort by its contract | invariant of the sweep over the sorted order; the eight isometries cover every pair |
| C110 | convolution/subset_convolution.hpp with the FPSNaive operations it uses (fps_naive.hpp operator[], +=, -=, mul) on top of the model of the subset transform | relational simulation: each coefficient of the ranked transform is the scalar transform; Moebius inversion of sums over pairs with given union and sizes |
| C111 | graph/remove_multiedges.hpp (std::remove_if calls the predicate in order) | the flags are all clear between lists; induction on each list |
| C112 | util/transpose.hpp, util/rot90.hpp | common loop invariant for the two nested loops; extensionality of rectangular arrays |
| C113 | sequence/powers.hpp on top of the model of LinearSieve | loop invariant; the least prime factor and the cofactor are smaller |
| C114 | graph/chromatic_number.hpp | counting independent subsets by the lowest bit; zeta transform of covers is the k-th power; alternating sums by a sign-reversing involution; covers vs colourings |
| C115 | util/default_vector.hpp | invariant: the vector represents the total map below its size and the map is the default beyond it; index conversion modulo 2^32 |
| C116 | sequence/montmort_number.hpp | placements with forbidden positions counted by induction over the positions; E(k+1,a) = E(k,a) - E(k,a-1) gives the recurrence; duplicate-free enumeration of the derangements |
| C117 | algebra/monoid/affine.hpp (compose, affine, ==) and affine_clamp.hpp | monotone images of clamped values, by the sign of the slope; overflow modelled exactly |
| C118 | graph/maximum_clique.hpp, maximum_independent_set.hpp | the complement of a complete graph has exactly the loops; run of the small case on loops |
| C119 | graph/minimum_vertex_cover.hpp | complement of a largest independent set is a smallest cover; correctness of maximum_independent_set itself is missing (partial) |
