{"id": "C01", "title": "UnionFind.same/merge decide connectivity", "statement": "After any sequence of merge/root/same/size calls on in-range vertices, same(x,y) is true exactly when x and y are connected by the pairs merged so far; merge(x,y) returns true exactly when they were not yet connected; every call returns (no out-of-range access, no infinite loop).", "quantifier": "every n, every finite history of calls with arguments in [0,n)", "why_tests_cant": "path compression makes the state depend on every earlier query; the number of histories is unbounded", "anchors": ["library/datastructure/union_find/union_find.hpp: UnionFind::root, merge, same"]}
{"id": "C02", "title": "UnionFind.size and groups describe the components", "statement": "After any history, size(x) is the number of vertices connected to x, and groups() is a partition of 0..n-1 into the connected components, each listed once in increasing order.", "quantifier": "every n, every history", "why_tests_cant": "see C01", "anchors": ["library/datastructure/union_find/union_find.hpp: UnionFind::size, groups"]}
{"id": "C03", "title": "UndoUnionFind.undo cancels exactly the last successful merge", "statement": "After any interleaving of merge and undo, the answers of same/size are those of the merges that were successful and not undone; undo restores the state before the last successful merge exactly; rollback restores the state at the last snapshot.", "quantifier": "every n, every history of merge/undo/snapshot/rollback", "why_tests_cant": "the interplay of history and structure is over unbounded histories", "anchors": ["library/datastructure/union_find/undo_union_find.hpp: UndoUnionFind"]}
{"id": "C04", "title": "LinkedUnionFind.connected_component lists the component", "statement": "After any history, connected_component(x) terminates and lists every vertex connected with x exactly once, starting with x.", "quantifier": "every n, every merge history, every x", "why_tests_cant": "the list is a cyclic linked structure spliced by every earlier merge", "anchors": ["library/datastructure/union_find/linked_union_find.hpp: LinkedUnionFind"]}
{"id": "C05", "title": "UnionFindComponentSum: the stored value is the fold over the component", "statement": "After any history of merge calls on a structure built from initial values, with a commutative associative merge operation, the value reported for x is the combination of the initial values of exactly the vertices connected with x, each used once.", "quantifier": "every element type, every commutative associative operation, every initial vector, every sequence of merges, every x", "why_tests_cant": "unbounded histories; the value moves between roots", "anchors": ["library/datastructure/union_find/union_find_component_sum.hpp: UnionFindComponentSum"]}
{"id": "C06", "title": "WeightedUnionFind keeps the merged differences", "statement": "In any group, after merges whose constraints are consistent, diff(x,y) for connected x,y is the product of the merged differences along any path from x to y; merge never changes the difference of already connected vertices.", "quantifier": "every group (also non-commutative), every n, every history", "why_tests_cant": "path halving rewrites the potentials on every query", "anchors": ["library/datastructure/union_find/weighted_union_find.hpp: WeightedUnionFind"]}
{"id": "C07", "title": "FenwickTree.sum is the interval sum", "statement": "After construction from any vector (or zero) and any sequence of add(i,v), sum(l,r)/prefix sums return the sum of the current values of the half-open interval.", "quantifier": "every length, every history of updates, every l<=r", "why_tests_cant": "index arithmetic i & -i for unbounded sizes", "anchors": ["library/datastructure/fenwick_tree/fenwick_tree.hpp: FenwickTree"]}
{"id": "C08", "title": "FenwickTreePrefix: vector constructor loses elements", "statement": "Built incrementally with apply, prefix_query(r) is the fold of the first r updates' values for a commutative monoid. The documented vector constructor does not establish this: for n>=4 prefix_query may miss elements (refuted).", "quantifier": "every length and history; a concrete counterexample for the constructor", "why_tests_cant": "sizes unbounded; the constructor is never exercised by the repository's tests", "anchors": ["library/datastructure/fenwick_tree/fenwick_tree_prefix.hpp: FenwickTreePrefix"]}
{"id": "C09", "title": "SegmentTree range product, point set", "statement": "For any monoid (not necessarily commutative), after any history of point updates prod(l,r) is the ordered product of the current elements l..r-1, all_prod the product of all, and get(i) the last value written.", "quantifier": "every monoid, length, history, 0<=l<=r<=n", "why_tests_cant": "non-commutative order and non-power-of-two sizes over unbounded histories", "anchors": ["library/datastructure/segment_tree/segment_tree.hpp: SegmentTree"]}
{"id": "C10", "title": "LazySegmentTree refines a plain array under range apply", "statement": "For any monoid with an action satisfying mapping/composition laws, after any history of set, range apply and queries, prod(l,r) equals the ordered product of the array obtained by naively applying the updates.", "quantifier": "every monoid/action, length, history", "why_tests_cant": "pushes depend on bit patterns of both ends", "anchors": ["library/datastructure/segment_tree/lazy_segment_tree.hpp: LazySegmentTree"]}
{"id": "C11", "title": "DequeAggregation.prod is the ordered product of the deque", "statement": "After any sequence of construction from a range, push_back/push_front/pop_back/pop_front/clear, prod() is the ordered product of the current contents; front/back/size/[] and iterators moved by ++/--/+=/-= agree with a plain list; popping an empty deque is rejected.", "quantifier": "every monoid (commutative or not), every initial sequence, every history of calls", "why_tests_cant": "rebalancing happens at history-dependent points", "anchors": ["library/datastructure/deque_aggregation.hpp: DequeAggregation"]}
{"id": "C12", "title": "QueueAggregation.prod is the aggregate of the queue", "statement": "After any history of push_back/pop_front/clear, front/back/size/[]/iterators agree with a plain FIFO list and prod() is the aggregate of the current contents, provided the aggregate of a sequence can be computed by merge from an append-accumulation of any prefix taken back to front and of the rest taken front to back (in particular for every commutative monoid). For a non-commutative operation this fails: after a pop that moves elements x, y to the front stack prod() is y*x instead of x*y.", "quantifier": "every element, sum and result type, every append/merge satisfying the law, every history", "why_tests_cant": "the two-stack flip is history dependent", "anchors": ["library/datastructure/queue_aggregation.hpp: QueueAggregation"]}
{"id": "C13", "title": "SparseTable answers idempotent range queries", "statement": "For any idempotent monoid (not necessarily commutative) and any non-empty vector, operator()(l,r) and prod(l,r) are the ordered product of elements l..r-1, the identity if r <= l. Construction from an empty vector is outside the contract.", "quantifier": "every idempotent monoid, every non-empty vector, every range", "why_tests_cant": "unbounded sizes and all ranges", "anchors": ["library/datastructure/sparse_table.hpp: SparseTable"]}
{"id": "C14", "title": "barrett quotient/remainder are exact", "statement": "quorem(x)/quo(x)/rem(x) return exactly floor(x/M) and x mod M for every 64-bit x, for every modulus 1<=M<=2^31; for larger 32-bit M the result can be wrong (refuted).", "quantifier": "all 2^64 x and all M", "why_tests_cant": "2^95 pairs cannot be enumerated", "anchors": ["library/number/barrett_reduction.hpp: suisen::internal::barrett"]}
{"id": "C15", "title": "modint arithmetic is arithmetic modulo m", "statement": "static_modint/dynamic_modint construction from any 64-bit integer, +,-,*,++,--,unary -,pow return the canonical residue of the integer result, with the 32/64-bit machine arithmetic written out.", "quantifier": "every modulus 1<=m<2^31, every operands", "why_tests_cant": "2^62 operand pairs per modulus", "anchors": ["library/number/modint.hpp: static_modint, dynamic_modint"]}
{"id": "C16", "title": "Montgomery form is a ring isomorphism (except sub)", "statement": "make/reduce/mul/pow/add agree with residues modulo any odd N below 2^31 (2^63 for the 64-bit version); sub returns a wrong value whenever a<b (refuted).", "quantifier": "all odd N, all operands", "why_tests_cant": "unbounded operand space", "anchors": ["library/number/montogomery.hpp: Montgomery"]}
{"id": "C17", "title": "ext_gcd returns Bezout coefficients without overflow", "statement": "ext_gcd(a,b) terminates without overflow and returns x,y,g with ax+by=g, g the non-negative greatest common divisor, |x|<=max(1,|b|) and |y|<=max(1,|a|); gcd_inv(a,m) returns x in [0,m) with ax=g (mod m); inv_mod(a,m) returns the inverse in [0,m) when gcd(a,m)=1 and fails its assertion otherwise.", "quantifier": "all 64-bit a,b whose absolute value fits in 63 bits, all moduli 0<m<2^63", "why_tests_cant": "2^126 inputs; overflow of the coefficients needs a proof", "anchors": ["library/number/ext_gcd.hpp: ext_gcd", "library/number/ext_gcd.hpp: gcd_inv", "library/number/ext_gcd.hpp: inv_mod"]}
{"id": "C18", "title": "garner solves the simultaneous congruences", "statement": "For pairwise coprime moduli, garner(eq,m) returns the least non-negative common solution reduced modulo m, without overflow; when two moduli share a factor the assertion fails.", "quantifier": "every number of equations, all int remainders, moduli in [1,2^31), all m in [1,2^31)", "why_tests_cant": "unbounded number of equations", "anchors": ["library/number/garner.hpp: garner"]}
{"id": "C19", "title": "modint2p61m1 arithmetic is arithmetic modulo 2^61-1", "statement": "construction, +,-,*,pow and inv of modint2p61m1 return the canonical residue; inv really inverts because 2^61-1 is prime.", "quantifier": "all 64-bit operands", "why_tests_cant": "2^122 operand pairs", "anchors": ["library/number/modint_2^61m1.hpp: modint2p61m1"]}
{"id": "C20", "title": "Rational arithmetic is exact and normalised; order and rounding are not", "statement": "+,-,*,/ return the exact value in lowest terms with non-negative denominator. compare() orders 1/2 below 1/3, floor(-1/2)=0 and ceil(1/2)=0 (refuted).", "quantifier": "all numerators/denominators (unbounded model)", "why_tests_cant": "infinite domain", "anchors": ["library/number/rational.hpp: Rational"]}
{"id": "C21", "title": "zeta and moebius transforms are mutually inverse and turn pointwise products into or/and/xor/gcd/lcm convolution", "statement": "subset/superset/divisor/multiple zeta computes the stated sums, moebius inverts it, and or/and/xor/gcd/lcm convolution returns c[k]=sum over i*j=k of a[i]b[j].", "quantifier": "every length (power of two where required), every commutative ring", "why_tests_cant": "unbounded lengths", "anchors": ["library/transform/*.hpp", "library/convolution/{or,and,xor,gcd,lcm}_convolution.hpp"]}
{"id": "C22", "title": "LinearSieve returns least prime factors and all primes", "statement": "For every n the sieve's min factor of i is the least prime divisor of i, the prime list is exactly the primes <= n in increasing order and factorize returns the prime factorisation.", "quantifier": "every n", "why_tests_cant": "unbounded n", "anchors": ["library/number/linear_sieve.hpp"]}
{"id": "C23", "title": "RangeSet refines a set of integers", "statement": "After any history of insert/erase of points and intervals, contains, mex-like queries, size and the number of elements added/removed returned agree with a plain integer set; stored segments are disjoint, sorted and maximal.", "quantifier": "every history", "why_tests_cant": "interval merging/splitting cases depend on history", "anchors": ["library/datastructure/util/range_set.hpp: RangeSet"]}
{"id": "C24", "title": "BinaryHeap is a priority queue; popping the last element reads out of range", "statement": "push/pop/top keep the multiset and top() is its least element; pop() on a heap of size one reads element 0 of an empty vector (refuted memory safety).", "quantifier": "every history, every strict weak order", "why_tests_cant": "unbounded histories", "anchors": ["library/datastructure/heap/binary_heap.hpp"]}
{"id": "C25", "title": "IntervalHeap is a double-ended priority queue", "statement": "After any history, min()/max() are the least/greatest of the multiset of elements pushed and not popped.", "quantifier": "every history", "why_tests_cant": "unbounded histories", "anchors": ["library/datastructure/heap/interval_heap.hpp"]}
{"id": "C26", "title": "BitVector.rank and select", "statement": "rank(b, i) counts the bits equal to b among the first i bits for every i<=n whatever the block boundaries; select(b, k) returns the default when there are fewer than k such bits and otherwise the least i with rank(b, i) >= k. That is one more than the position of the k-th such bit, and so never the index the header's comment promises.", "quantifier": "every n, every bit content, every query", "why_tests_cant": "block structure with carries at 8/256 bit boundaries, for unbounded n", "anchors": ["library/datastructure/bit_vector.hpp"]}
{"id": "C27", "title": "WaveletMatrix queries", "statement": "For every vector of b-bit values with b below the width of T: access returns the element, rank counts occurrences, range_kth_smallest/largest return the k-th order statistic, range_freq counts the elements in the value interval, and min/max/min_geq/min_gt/max_lt/max_leq return the extremal element satisfying the bound or the default. The xor versions do the same ordering by x^v and return v; in particular range_xor_kth_smallest never returns the documented k-th x^v when x is not 0. With b equal to the width, which is the default, rank and the range queries are undefined behaviour.", "quantifier": "every vector, every range, every query argument", "why_tests_cant": "unbounded vectors and values; depends on the stable partition at each of b levels", "anchors": ["library/datastructure/wavelet_matrix.hpp"]}
{"id": "C28", "title": "PersistentArray versions are immutable under set; dump is wrong", "statement": "In every history over any number of arrays sharing one node pool, get/set/clone/size behave as on separate plain arrays: set and clone create a new array and change no existing one; mut_set(i, x) changes element i of its own array and at most element i of arrays sharing that cell. dump() does not return the contents: with [x, y] it returns [x, x] (refuted).", "quantifier": "every branching factor, every history of build/get/set/mut_set/clone/size on every version", "why_tests_cant": "the sharing structure grows with the history; every version tree must be covered", "anchors": ["library/datastructure/persistent_array.hpp: PersistentArray"]}
{"id": "C29", "title": "PersistentUnionFind: queries on a new version corrupt an old one", "statement": "When only the newest version is used, root/same/size/merge answer by connectivity of the merged pairs. The full claim, that merging or querying in one version never changes the connectivity answered by another version, is refuted: path compression writes through shared nodes.", "quantifier": "every history on the newest version; a concrete history of merges and queries for the refutation", "why_tests_cant": "needs a specific interleaving of versions; the positive part ranges over all histories", "anchors": ["library/datastructure/union_find/persistent_union_find.hpp: PersistentUnionFind"]}
{"id": "C30", "title": "BinaryTrie multiset queries; xor_count_leq and max are wrong", "statement": "In every history insert/erase/erase_all/count/contains/prefix_count/size and xor_kth_min/xor_kth_max/xor_min/xor_max/xor_count_lt/xor_count_geq/xor_lower/xor_ceil answer as the multiset of words held; xor_count_leq/xor_count_gt/xor_floor/xor_higher do so for x = 0. Failing cases (refuted): xor_count_leq adds count(val) instead of count(x^val), and max() returns the complement of the maximum.", "quantifier": "every word length, every history of calls, every x", "why_tests_cant": "unbounded histories over 2^bit_length words", "anchors": ["library/datastructure/binary_trie.hpp: BinaryTrie"]}
{"id": "C31", "title": "manacher computes maximal palindrome lengths", "statement": "For every sequence and every dummy element (even one occurring in the sequence), odd_length(i) is the length of the longest palindrome centred at i and even_length(i) that of the longest palindrome centred between i-1 and i.", "quantifier": "every sequence over any alphabet, every dummy, every centre", "why_tests_cant": "all strings over all alphabets", "anchors": ["library/string/manacher.hpp: Manacher"]}
{"id": "C32", "title": "Morris-Pratt table, periods and matching; the matcher reads past the pattern", "statement": "morris_pratt[i] is the length of the longest proper border of the prefix of length i; all_periods returns exactly the periods in increasing order; min_period is the prefix of least period; MatcherMP on std::string returns exactly the occurrences of a non-empty pattern in a NUL-free text. Failing cases (refuted): after a match MatcherMP reads s[s.size()], undefined for any other container and running off the pattern when the text contains NUL; min_period of an empty sequence is undefined.", "quantifier": "every pattern, text and flag", "why_tests_cant": "all strings", "anchors": ["library/string/morris_pratt.hpp: morris_pratt", "all_periods", "min_period", "MatcherMP"]}
{"id": "C33", "title": "gaussian_elimination_f2: right solution, incomplete basis for wide matrices", "statement": "gaussian_elimination_f2(A, b) reports no solution exactly when A x = b has none; otherwise the reported x solves it, the reported basis consists of linearly independent solutions of A x = 0, and x plus the span of the basis is the whole solution set when the rank is below the number of rows or there are at least as many rows as columns. Findings: free columns after the last pivot of a wide matrix are dropped (1x2 counterexample), and SolutionSpace::normalized aborts on its own assertion for every nonempty basis.", "quantifier": "every n, m >= 0, every n x m bit matrix and every b of n bits", "why_tests_cant": "unbounded matrices; completeness of a solution set is a statement about all vectors", "anchors": ["library/linear_algebra/gaussian_elimination_f2.hpp:gaussian_elimination_f2", "library/linear_algebra/gaussian_elimination_f2.hpp:SolutionSpace"]}
{"id": "C34", "title": "XorBase spans exactly what was added", "statement": "add returns true exactly when the vector is not in the span, dim is the rank, the basis spans the same space as the inputs; intersection computes the intersection space.", "quantifier": "every sequence of words", "why_tests_cant": "unbounded", "anchors": ["library/linear_algebra/xor_base.hpp"]}
{"id": "C35", "title": "BFS returns shortest hop counts", "statement": "distance(src) is, for each vertex, the least number of edges of a path from a source, -1 if there is none; connected_components partitions the vertices.", "quantifier": "every graph", "why_tests_cant": "all graphs", "anchors": ["library/graph/bfs.hpp"]}
{"id": "C36", "title": "Dijkstra returns shortest path costs", "statement": "With non-negative costs, operator[] is the least path cost and path_to returns a path of that cost.", "quantifier": "every graph with non-negative costs", "why_tests_cant": "all graphs", "anchors": ["library/graph/dijkstra.hpp"]}
{"id": "C37", "title": "topological_sort orders every DAG and detects cycles", "statement": "is_dag() holds iff the graph has no directed cycle, and then sorted() lists each vertex once with all edges going forward.", "quantifier": "every directed multigraph", "why_tests_cant": "all graphs", "anchors": ["library/graph/topological_sort.hpp"]}
{"id": "C38", "title": "Permutation operations", "statement": "permute/inv_permute move elements as documented, p*q is composition and associative, inv is the two-sided inverse, pow(k) is k-fold application, hash/unhash are mutually inverse bijections between permutations of n elements and [0,n!).", "quantifier": "every n, every permutation", "why_tests_cant": "n! inputs", "anchors": ["library/util/permutation.hpp"]}
{"id": "C39", "title": "binary, exponential and ternary search find the boundary / the optimum", "statement": "For every monotone predicate with f(l) false and f(r) true, binary_search returns the least x with f(x); binary_search_exponential does so without an upper bound; contract violations fail an assertion; integral ternary_search_key/value return an argmin/minimum of every convex (argmax of every concave) function on [l,r]. Fails (undefined behaviour or a cut value) exactly when r-l does not fit the argument type, when r is its largest value, or when values of f do not fit the argument type.", "quantifier": "every predicate and interval", "why_tests_cant": "unbounded", "anchors": ["library/util/search.hpp"]}
{"id": "C40", "title": "longest increasing subsequence", "statement": "The returned length is the maximum length of a (strictly/weakly) increasing subsequence and the returned indices form one.", "quantifier": "every sequence", "why_tests_cant": "all sequences", "anchors": ["library/dp/longest_increasing_subsequence.hpp"]}
{"id": "C41", "title": "modint inverse and division; primality test", "statement": "inv()/operator/ of static_modint and dynamic_modint return the unique z in [0,m) with z*y = x (mod m) when gcd(y,m)=1 and fail the assertion otherwise; the compile-time is_prime always answers and accepts every prime; inv_gcd never overflows.", "quantifier": "every modulus 1<=m<2^31, all operands, every 64-bit a,b", "why_tests_cant": "2^31 moduli times 2^62 operand pairs; overflow bounds of the extended Euclid loop need a proof", "anchors": ["library/number/modint.hpp: static_modint::inv", "dynamic_modint::inv", "operator/=", "internal::modint::is_prime", "internal::modint::inv_gcd"]}
{"id": "C42", "title": "UnionFindLazy: point and component updates, component sums", "statement": "Every history of merge, component update, point update, point assignment, propagation and queries answers as an array of values with a partition: updating a component applies the function to each member, the component query is the sum of the current member values, point queries return the current value.", "quantifier": "every abelian group of values, every group of functions acting on sums, every initial vector and every history", "why_tests_cant": "lazy functions are composed with inverses on merge; interleavings are unbounded", "anchors": ["library/datastructure/union_find/union_find_lazy.hpp: UnionFindLazy"]}
{"id": "C43", "title": "FenwickTree2D.sum is the rectangle sum", "statement": "After construction of an n x m zero table and any sequence of add(x,y,v), sum(xl,xr,yl,yr) returns the sum of the current values of the half-open rectangle, in any abelian group.", "quantifier": "all abelian groups, table sizes, histories of adds and rectangle queries", "why_tests_cant": "depends on every interleaving of updates with every rectangle and size; overlapping index chains in two dimensions", "anchors": ["library/datastructure/fenwick_tree/fenwick_tree_2d.hpp: FenwickTree2D"]}
{"id": "C44", "title": "LazySegmentTree searches and suffix product", "statement": "max_right(l,f) returns the largest r such that f holds on the product of l..r-1 (for f true on an initial segment of right ends); min_left(r,f) mirrors it. Finding: min_left(n) is undefined behaviour whenever n is a power of two >= 2, and suffix_prod aborts when n is not a power of two.", "quantifier": "every monoid/action, length, history, predicate", "why_tests_cant": "which node the search visits depends on bit patterns of the position and on pending updates", "anchors": ["library/datastructure/segment_tree/lazy_segment_tree.hpp: max_right", "library/datastructure/segment_tree/lazy_segment_tree.hpp: min_left", "library/datastructure/segment_tree/lazy_segment_tree.hpp: suffix_prod"]}
{"id": "C45", "title": "kronecker_power_transform multiplies by the Kronecker power of any matrix", "statement": "For a D x D matrix A (D >= 2) and a vector of D^k elements, kronecker_power_transform(x, A) returns y with y[i] = sum over j of (product over the base-D digits of A[i_t][j_t]) * x[j].", "quantifier": "every commutative ring, every D >= 2, every matrix, every k, every vector", "why_tests_cant": "unbounded D, k and ring", "anchors": ["library/transform/kronecker_power.hpp:kronecker_power_transform"]}
{"id": "C46", "title": "quadratic convolutions", "statement": "convolution_naive(a, b)[k] is the sum of a[i]*b[j] over i+j=k; dirichlet_convolution(a, b, n)[k] is the sum over i*j=k with i,j >= 1; dirichlet_convolution_coprime keeps only the pairs with gcd(i,j)=1.", "quantifier": "every commutative ring, every pair of vectors (not both empty for convolution_naive), every n >= 0", "why_tests_cant": "unbounded lengths; boundary of the quotient loop", "anchors": ["library/convolution/convolution_naive.hpp:convolution_naive", "library/convolution/dirichlet_convolution.hpp:dirichlet_convolution", "library/convolution/dirichlet_convolution.hpp:dirichlet_convolution_coprime"]}
{"id": "C47", "title": "Sieve of Eratosthenes over the wheel modulo 30", "statement": "For every template bound N, SimpleSieve<N> and Sieve<N> answer is_prime(p) correctly for every 0 <= p <= N; SimpleSieve::prime_list(m) is the increasing list of the primes up to m for every m <= N; Sieve::prime_factor(p) is a prime divisor of p for 2 <= p <= N; Sieve::factorize(n) lists each prime of n once with its exponent and Sieve::divisors(n) lists every positive divisor exactly once for 1 <= n <= N, both asserting otherwise. No access is out of range.", "quantifier": "every bound N >= 0 and every argument in the stated range", "why_tests_cant": "The wheel tables, the bit tricks and the loop bounds (sqrt, block counts) are right or wrong depending on N modulo 30 and on squares near N; tests fix a handful of N.", "anchors": ["library/number/sieve_of_eratosthenes.hpp:SimpleSieve", "library/number/sieve_of_eratosthenes.hpp:Sieve", "library/number/internal_eratosthenes.hpp", "library/number/sieve_of_eratosthenes_constexpr.hpp"]}
{"id": "C48", "title": "MatrixF2: determinant, inverse, rank, sum, product, power", "statement": "For bit matrices: det() is 1 exactly when A x = 0 only for x = 0; inv() returns the matrix of the inverse map, and nothing exactly when some nonzero vector is mapped to 0; +, *, application to a vector and pow(b) are the sum, composition, value and b-fold iterate of the linear maps; rank() is m minus the dimension of the kernel when the rank is below n or m <= n. Finding: rank() reads past the last row when a wide matrix reaches rank n before its last column.", "quantifier": "every size, every bit matrix, every exponent 0 <= b < 2^63", "why_tests_cant": "unbounded sizes; invertibility quantifies over all vectors", "anchors": ["library/linear_algebra/matrix_f2.hpp:MatrixF2"]}
{"id": "C49", "title": "DynamicBitSet is a list of bits", "statement": "Any sequence of calls on dynamic bitsets (construction, resize, push_back, pop_back, reading and writing single bits, comparisons, bitwise operators, shifts, range updates, counts, searches, intersection tests) returns what the same calls return on the plain lists of bits, for every size, including the bits stored beyond the size; assertions fail exactly when their condition is false. Two calls do not meet this: all() is undefined when the size is a nonzero multiple of 64 and every bit is set, and x[i] &= true clears the other bits of the block of i.", "quantifier": "all histories of calls, all sizes, indices and shift amounts", "why_tests_cant": "The garbage bits past the size, block boundaries and shift amounts interact; tests visit a few sizes.", "anchors": ["library/datastructure/util/dynamic_bitset.hpp: DynamicBitSet"]}
{"id": "C50", "title": "Shortest paths in a DAG", "statement": "single_source_shortest_path_dag(g, s) aborts when an edge enters s or the graph has a cycle; otherwise entry t of the result is the least cost of a route from s to t (weights may be negative) or the largest value of the cost type when t cannot be reached.", "quantifier": "all directed multigraphs, all weights whose route costs fit the cost type, all sources", "why_tests_cant": "minimality ranges over all routes of all graphs; the abort must happen for every cyclic graph", "anchors": ["library/graph/single_source_shortest_path_dag.hpp:single_source_shortest_path_dag"]}
{"id": "C51", "title": "0-1 breadth-first search", "statement": "BFS01 over any 0/1-weighted graph with any list of sources terminates; operator[] is the least cost of a route from some source, INF exactly for unreachable vertices, and is_reachable/is_unreachable agree.", "quantifier": "all directed multigraphs with 0/1 costs, all source lists (repeats allowed)", "why_tests_cant": "vertices are expanded again when their distance drops, so termination and minimality depend on the whole order of the deque", "anchors": ["library/graph/bfs01.hpp:BFS01", "library/graph/bfs01.hpp:bfs"]}
{"id": "C52", "title": "Two-colouring", "statement": "bipartite_coloring(g, col0, col1) with distinct colours returns a vector giving every vertex col0 or col1 with no edge inside a colour, or nullopt, and nullopt only if no 2-colouring exists.", "quantifier": "all undirected multigraphs (self loops allowed), all pairs of distinct int colours", "why_tests_cant": "non-existence of a colouring is a statement about all colourings", "anchors": ["library/graph/bipartite_graph_recognition.hpp:bipartite_coloring"]}
{"id": "C53", "title": "Doubling on a functional graph", "statement": "For every functional graph and max_step below 2^62 the doubling tables are built, and for every step count below the least power of two R above max_step: query(u,d) is the vertex reached after d steps (with DoublingSum, also the ordered product of the values at the vertices left); max_step(u,f) returns a step count where f holds and fails one step later (or R-1), hence the largest one for a monotone predicate; step_until(u,f) returns the first step where f becomes true, or reports that f is false after R steps. For max_step >= 2^62 construction overflows.", "quantifier": "all functional graphs, all vertices, all step counts, all predicates, all monoids", "why_tests_cant": "values for every step count and predicate; the boundary case of the highest table row matters only for extreme step counts", "anchors": ["library/graph/functional_graph.hpp:Doubling", "library/graph/functional_graph.hpp:DoublingSum", "library/graph/functional_graph.hpp:floor_log2"]}
{"id": "C54", "title": "Infinite paths and k-th iterates of a functional graph", "statement": "infinite_paths() gives, for every vertex, the exact length of the tail of its walk, the first vertex lying on a cycle and the length of that cycle; kth_iterate(k) gives for every vertex the vertex reached after k steps, aborts for k < 0, and is well defined whenever k + n <= 2^63 (for larger k it can overflow).", "quantifier": "all functional graphs, all vertices, all k", "why_tests_cant": "the recursion order decides which cycle is found from which vertex; k ranges over all 64-bit values", "anchors": ["library/graph/functional_graph.hpp:infinite_paths", "library/graph/functional_graph.hpp:kth_iterate"]}
{"id": "C55", "title": "Cartesian tree", "statement": "CartesianTreeBuilder over any sequence and strict weak order gives every element the parent defined by its two bounding elements; build() gives a tree whose root and child links are the leftmost minima of the intervals they stand for; ranges()[i] is the widest interval in which a[i] comes before everything on its left and nothing on its right comes before it.", "quantifier": "all sequences of any element type, all strict weak orders, all indices", "why_tests_cant": "the links depend on the whole sequence including ties; maximality of the interval ranges over all positions", "anchors": ["library/datastructure/cartesian_tree.hpp:CartesianTreeBuilder", "library/datastructure/cartesian_tree.hpp:CartesianTree", "library/datastructure/cartesian_tree.hpp:ranges"]}
{"id": "C56", "title": "Sliding window extrema", "statement": "After any history of proc_right/proc_left/proc calls the window is as asked, calls that would move an end too far fail their assertion, and arg_query/query give the leftmost or rightmost minimum or maximum of the window according to the comparator.", "quantifier": "all sequences, all call histories, the four comparators", "why_tests_cant": "the deque content depends on the whole history; ties decide leftmost/rightmost", "anchors": ["library/datastructure/sliding_window_minimum.hpp:sliding_window_minimum"]}
{"id": "C57", "title": "Heavy-light decomposition: construction and numbering", "statement": "For every forest given as undirected adjacency lists, HeavyLightDecomposition(g) and HeavyLightDecomposition(g, roots) return; the forest is rooted at the least vertex of every component (or at the given roots); get_visit_time numbers the vertices 0..n-1 without gaps so that every subtree is the block [get_visit_time(v), get_leave_time(v)), get_parent, get_depth and get_subtree_size are right, every vertex lies on a downward path from get_head(v) of consecutive visit times, a vertex that heads its chain has less than half of its parent's subtree, and the caller's graph only has its adjacency lists reordered.", "quantifier": "all forests (any number of vertices and components), all choices of one root per component, all vertices", "why_tests_cant": "Tests try a few trees; the two recursive passes reorder adjacency lists while iterating over them, which must come out right for every shape and every order of the lists.", "anchors": ["library/tree/heavy_light_decomposition.hpp: HeavyLightDecomposition", "get_visit_time", "get_leave_time", "get_head", "get_kth_visited", "get_subtree_size", "get_parent", "get_depth", "get_roots", "inv_ids"]}
{"id": "C58", "title": "Heavy-light decomposition: ancestors, distances, jumps", "statement": "On a decomposition built by a constructor: lca(u,v) is the lowest common ancestor of connected u and v; la(u,k,d) is the k-th ancestor or d when there is none (also for negative k); dist(u,v) is the least number of edges between u and v; jump(u,v,d,x) is the d-th vertex of the one simple path from u to v and x outside of it.", "quantifier": "all forests, all pairs of connected vertices, all k and d, negative or too large ones included", "why_tests_cant": "The chain walks depend on the shape of the tree; tests see a few shapes.", "anchors": ["library/tree/heavy_light_decomposition.hpp: lca", "la", "jump", "dist"]}
{"id": "C59", "title": "Heavy-light decomposition: path and subtree queries", "statement": "If the caller's range query answers about the values in visit order, fold_path returns the product over the simple path for every commutative monoid, fold_path_noncommutative the product in path order from u to v for every monoid; with is_edge_query the topmost vertex is left out. update_path calls the caller's update on ranges that cover every vertex of the path exactly once, at most 2*log2(n)+1 of them; fold_subtree and update_subtree use the range of the subtree (without its root for edge queries).", "quantifier": "all forests, all pairs of connected vertices, all monoids, all callers' structures, both kinds of query", "why_tests_cant": "A range off by one or a chain taken in the wrong direction shows only for particular shapes and non-commutative operations.", "anchors": ["library/tree/heavy_light_decomposition.hpp: fold_path", "fold_path_noncommutative", "update_path", "fold_subtree", "update_subtree"]}
{"id": "C60", "title": "Rerooting computes the rooted DP at every vertex", "statement": "For a Rerooting object whose edges form a tree on its n >= 1 vertices, and for a commutative monoid (op, e) with arbitrary callbacks, run_dp returns n values; the value at r is add_root of the product, over the neighbours of r, of the DP of the branch through that neighbour, where the DP of a branch is defined recursively with add_subtree_root on the tree rooted at r. add_edge rejects an end that is no vertex. (With no vertices run_dp reads outside its arrays: a finding.)", "quantifier": "all trees, all vertex and edge weights, all commutative monoids and callbacks, all orders of insertion of the edges, every root", "why_tests_cant": "Two interacting passes with prefix and suffix products and a hand-made adjacency array; tests check a few trees and monoids, not all shapes and orders.", "anchors": ["library/tree/rerooting.hpp:Rerooting", "Rerooting::run_dp", "Rerooting::GraphCSR"]}
{"id": "C61", "title": "Red-black trees are sequences through every history of calls", "statement": "For the red-black trees of bbst/ (plain, with products, lazy, reversible lazy; not persistent): after any history of build, merge, split, split_range, insert, erase, update_value, get, prod, apply, apply_all, reverse, reverse_all with arguments in range, every call returns, dump yields the sequence that the same calls produce on sequences, size its length, get and erase the right element, prod the product of the range, prod_all that of all. reverse and products together need a commutative op (otherwise the product is wrong: a finding).", "quantifier": "all histories of calls on all trees obtained, all monoids and operator actions, all indices in range", "why_tests_cant": "Pending operators and flags, recolouring and rotations interact over unbounded histories.", "anchors": ["library/datastructure/bbst/red_black_tree_base.hpp:RedBlackTreeNodeBase", "library/datastructure/bbst/red_black_tree.hpp:RedBlackTreeNode", "library/datastructure/bbst/red_black_segment_tree.hpp:RedBlackTreeNode", "library/datastructure/bbst/red_black_lazy_segment_tree.hpp:RedBlackTreeNode", "library/datastructure/bbst/red_black_reversible_lazy_segment_tree.hpp:RedBlackTreeNode"]}
{"id": "C62", "title": "Red-black trees stay balanced", "statement": "After any history of calls as in C61, check_rbtree_properties passes for every tree held, and the depth of a tree of n elements is at most 2 log2 n + 1.", "quantifier": "all histories of calls on all trees obtained", "why_tests_cant": "Balance is an invariant of all reachable trees; tests see a few.", "anchors": ["library/datastructure/bbst/red_black_tree_base.hpp:RedBlackTreeNodeBase::merge", "RedBlackTreeNodeBase::split", "RedBlackTreeNodeBase::check_rbtree_properties"]}
{"id": "C63", "title": "Persistent red-black trees keep old versions", "statement": "Claim: inserting into a version of a persistent red-black tree leaves that version usable with its contents and its balance. It fails: in the plain class and the one with products push does not clone, so that insert destroys the version it starts from; in the lazy classes the children of cloned nodes are recoloured in place, and the old version is no longer a red-black tree.", "quantifier": "all versions obtained by calls", "why_tests_cant": "Aliasing between versions only shows when an old version is used after a later call.", "anchors": ["library/datastructure/bbst/persistent_red_black_tree_base.hpp:PersistentRedBlackTreeNodeBase", "library/datastructure/bbst/persistent_red_black_tree.hpp:PersistentRedBlackTreeNode", "library/datastructure/bbst/persistent_red_black_lazy_segment_tree.hpp:PersistentRedBlackTreeNode", "library/util/object_pool.hpp:ObjectPool"]}
{"id": "C64", "title": "Prefix sums in one and two dimensions", "statement": "After construction from any sequence and any number of push_backs CumulativeSum::sum(l, r) is the sum of elements l..r-1 of everything put in, and asserts on other arguments; CumulativeSum2D(u, d, l, r) is the sum over that rectangle, zero for arguments that are no rectangle. A default-constructed CumulativeSum cannot be used: its length is indeterminate (a finding).", "quantifier": "all abelian groups, sequences, tables, push histories and arguments", "why_tests_cant": "Quantifies over all sequences, histories and query ranges.", "anchors": ["library/util/cumulative_sum.hpp:CumulativeSum", "library/util/cumulative_sum_2d.hpp:CumulativeSum2D"]}
{"id": "C65", "title": "Step sums", "statement": "StepSum(a, step).sum(k, l, r) is the sum of the a_i with i = k (mod step) and l <= i < r, unless k is at least the length of a while the range is not trivially empty: then it reads out of range (a finding).", "quantifier": "all abelian groups, sequences, steps, residues and ranges of int", "why_tests_cant": "Quantifies over all sequences and all four parameters.", "anchors": ["library/util/step_sum.hpp:StepSum"]}
{"id": "C66", "title": "Run-length encoding", "statement": "Constructed from any sequence and extended by any push_backs of positive counts, the encoder holds exactly the maximal runs of the whole sequence and length() is its length. clear() and swap() leave length() stale (a finding).", "quantifier": "all sequences and push histories", "why_tests_cant": "Quantifies over all histories.", "anchors": ["library/util/run_length_encoder.hpp:RunLengthEncoder"]}
{"id": "C67", "title": "Sum of the k first elements", "statement": "After any history of insert, set_k, incr_k, decr_k with k >= 0, get_sum() is the sum of the min(k, size) first elements under the comparator and size() their number. erase breaks this: it tests the wrong side of the boundary (a finding).", "quantifier": "all comparators that are strict weak orders, all histories", "why_tests_cant": "The two heaps with lazy deletion go through unbounded histories.", "anchors": ["library/datastructure/util/priority_sum.hpp:PrioritySum", "MaximumPrioritySum", "MinimumPrioritySum"]}
{"id": "C68", "title": "Coordinate compression and inversions", "statement": "A compressor built from any values has one index per distinct value; comp(e) is the number of distinct smaller values or the default for unregistered e, decomp inverts it, has_key decides membership, and min_gt, min_geq, max_lt, max_leq and their index versions return the right neighbour. inversion_number(a) is the number of pairs i < j with a_i > a_j.", "quantifier": "all sequences and query values", "why_tests_cant": "Quantifies over all value sets.", "anchors": ["library/util/coordinate_compressor.hpp:CoordinateCompressorBuilder", "library/algorithm/inversion_number.hpp:inversion_number"]}
{"id": "C69", "title": "Dual segment trees are range-apply vectors", "statement": "For every history of apply(l,r,f) and get(i), DualSegmentTree answers as the plain vector in which apply replaces elements l..r-1 by their images under f, for any maps closed under composition (in the order of the calls); CommutativeDualSegmentTree does so when the maps commute. Out-of-range get fails its assertion.", "quantifier": "all vectors, all actions (composition and identity laws), all histories of calls", "why_tests_cant": "Quantifies over every history and every action.", "anchors": ["library/datastructure/segment_tree/dual_segment_tree.hpp:DualSegmentTree", "library/datastructure/segment_tree/commutative_dual_segment_tree.hpp:CommutativeDualSegmentTree"]}
{"id": "C70", "title": "Sparse segment tree equals a (huge) plain sequence", "statement": "Any number of SparseSegmentTree objects of one type, used in any interleaving of get, set, apply_fun, prod and prod_all, each behave as their own sequence with initial elements init(i,i+1); calls out of range fail their assertion. Copying a tree is outside this: the copy shares the nodes, so setting an element of the copy of a fresh tree changes the original (finding).", "quantifier": "all monoids, index ranges of any size, all histories over several trees", "why_tests_cant": "Quantifies over every history; aliasing between objects.", "anchors": ["library/datastructure/segment_tree/sparse_segment_tree.hpp:SparseSegmentTree"]}
{"id": "C71", "title": "PersistentSegmentTree versions are independent vectors", "statement": "For a monoid (op, e), every PersistentSegmentTree made by a constructor, set or apply behaves for ever as the vector it was made from: get, prod, prod_all, max_right, min_left and dump on any version, old or new, return what that vector says, whatever other versions are made from it, and index assertions fire exactly outside the documented ranges. Trees built after clear_pool behave the same, except that dump may then return elements of cleared trees. Construction from an empty vector does not terminate.", "quantifier": "all monoids, all sequences of calls on any number of trees sharing the pool, all vectors and predicates that are true up to a point and false afterwards", "why_tests_cant": "versions share nodes: an update that modifies a shared node shows only in some other version at some later call", "anchors": ["library/datastructure/segment_tree/persistent_segment_tree.hpp:PersistentSegmentTree", "library/util/object_pool.hpp:ObjectPool"]}
{"id": "C72", "title": "Li Chao tree answers the extreme value at a coordinate", "statement": "For every non-empty list of coordinates and every history of add_segment, add_line and query calls on a LiChaoSegmentTree<long long> (minimum or maximum), a query at one of the coordinates returns the least (greatest) value among the segments added so far whose closed range contains it, and nullopt if none does; a query at another value below the largest coordinate fails the assertion. Fails exactly: a query above all coordinates reads past the end of the coordinate array, and a tree without coordinates answers query(0) with segments that do not contain 0.", "quantifier": "all coordinate lists, all histories of calls, all line coefficients whose values at covered coordinates are representable and below the largest value", "why_tests_cant": "the number of histories, coordinate sets and crossing orders of lines is unbounded; a test fixes a few", "anchors": ["library/datastructure/segment_tree/li_chao_segment_tree.hpp:LiChaoSegmentTree"]}
{"id": "C73", "title": "Monotone minima and min-plus convolution", "statement": "monotone_minima(n, m, f) returns the leftmost minimum of every row of every matrix whose leftmost row minima move to the right; min_plus_convolution_convex_convex and min_plus_convolution_convex_arbitrary return, for all non-empty inputs that are convex where required, the least a_i + b_j over i + j = k for every k, and fail an assertion on every other input.", "quantifier": "all matrices with monotone minima, all sizes; all pairs of integer sequences", "why_tests_cant": "the divide-and-conquer skips almost all entries; that no skipped entry is smaller must hold for every matrix", "anchors": ["library/algorithm/monotone_minima.hpp:monotone_minima", "library/convolution/min_plus_convolution.hpp:min_plus_convolution_convex_convex", "min_plus_convolution_convex_arbitrary"]}
{"id": "C74", "title": "Minimum and maximum spanning forests", "statement": "For every history of add_edge, build, get_weight and get_mst on KruscalMinimumSpanningTree / KruscalMaximumSpanningTree, build() returns whether the graph of all edges added so far is connected; after it get_mst() returns, sorted by weight, a set of added edges without cycles that connects the same vertices as all the edges and whose total weight is least (greatest) among all such sets, get_weight() is that total, and both fail an assertion when an edge was added since the last build().", "quantifier": "all vertex counts, all edge multisets with endpoints in range, all integer weights, all interleavings of additions and rebuilds, every correct std::sort", "why_tests_cant": "optimality is a statement about all spanning forests, and a rebuild starts from the edges the previous build kept", "anchors": ["library/graph/kruscal.hpp:KruscalMinimumSpanningTree", "KruscalMaximumSpanningTree", "add_edge", "build", "get_weight", "get_mst"]}
{"id": "C75", "title": "Largest square and rectangle of ones", "statement": "For every rectangular 0/1 grid maximum_square and maximum_rectngle return the area and the bounds of a square (rectangle) consisting of ones, and no square (rectangle) of ones in the grid has a larger area; maximal_rectangles passes only rectangles of ones to its callback, among them every rectangle of ones that no other contains, and maximal_rectangles_hist does the same for histograms. That everything passed is maximal is false: equal neighbouring heights give extensible rectangles and zeros give empty ones.", "quantifier": "all grids of all sizes, all histograms of non-negative heights", "why_tests_cant": "maximality compares with all rectangles of the grid, of which a test can list only those of small grids", "anchors": ["library/algorithm/maximum_square.hpp:maximum_square", "library/algorithm/maximum_rectangle.hpp:maximal_rectangles_hist", "maximal_rectangles", "maximum_rectngle"]}
{"id": "C76", "title": "Counting distinct subsequences", "statement": "For every sequence, number_of_nonempty_subsequences returns the number of distinct non-empty subsequences (as values, not as index sets), exactly for an unbounded integer type and modulo M for a modint.", "quantifier": "all sequences of all lengths, all moduli, every correct std::sort", "why_tests_cant": "the count is exponential in the length, so tests can enumerate the subsequences only of short sequences", "anchors": ["library/dp/number_of_subsequences.hpp:number_of_nonempty_subsequences"]}
{"id": "C77", "title": "Factorial, inverse and power tables", "statement": "A factorial table over a modint with prime modulus p answers every query (n!, its inverse, binomial, permutation and multinomial coefficients) with the right residue after any earlier queries. Queries up to p / 2 never fail. Failing case: a query below p can abort, because the table doubles past p and 1 / p! is requested. inv_mods gives the inverse of every index below p and 0 for larger indices (also for invertible ones). get_invs inverts every element and aborts exactly if one is zero. pow_mods[i] is the i-th power of its base.", "quantifier": "every prime modulus, every sequence of queries on one table, every list of residues; every modulus and base for pow_mods", "why_tests_cant": "The answers depend on how far earlier queries have grown the table, and on all moduli; tests use one large modulus where the growth never reaches it.", "anchors": ["library/math/factorial.hpp:factorial", "library/math/inv_mods.hpp:inv_mods", "library/math/inv_mods.hpp:get_invs", "library/math/pow_mods.hpp:pow_mods"]}
{"id": "C78", "title": "Strongly connected components of a tournament", "statement": "Given only the in-degrees of a tournament, scc_tournament returns every vertex exactly once, in non-empty groups, such that u reaches v exactly if u's group is not after v's: the groups are the strongly connected components in topological order.", "quantifier": "every tournament on any number of vertices", "why_tests_cant": "The correctness rests on a counting argument about all vertex subsets; a test compares a few graphs.", "anchors": ["library/graph/scc_tournament.hpp:scc_tournament"]}
{"id": "C79", "title": "Bridges, articulation points, 2-edge-connected components", "statement": "LowLink built from any list of edges (self-loops and multiple edges included) reports exactly the bridges and exactly the articulation points, each once; is_bridge, is_articulation_point, the number of connected components and the number left after removing any one edge or any one vertex are right for every argument, and the static buffer used by the last query is left clean. Edge ids are assigned in order. TwoEdgeConnectedComponents numbers the classes of vertices that no single edge separates, groups() lists them and reduced_forest() lists exactly the bridges. Adding edges after build() and building again does not update the answers; building a TwoEdgeConnectedComponents a second time leaves component_num() = 0.", "quantifier": "every number of vertices, every list of edges, every query argument, every content of the shared buffer left by earlier calls", "why_tests_cant": "the answers depend on the order in which a depth-first search meets every edge of every graph", "anchors": ["library/graph/low_link.hpp:LowLink", "library/graph/two_edge_connected_components.hpp:TwoEdgeConnectedComponents"]}
{"id": "C80", "title": "Biconnected components and block-cut forest", "statement": "For every graph without self-loops BiconnectedComponents gives each edge a component below edge_component_num(), every number is used, and two edges get the same one exactly when no single vertex separates them; isolated_vertices() lists the vertices without edges, component_num() counts both, and components() lists for each component its edges and, each once, its vertices. remove_multiedges keeps the first occurrence of every neighbour. BlockCutForest has one node per component, isolated vertex and articulation point; a component and an articulation point are adjacent, once, exactly when the vertex belongs to the component; vertex_num counts the vertices of a node; component_id names a component containing the vertex, the only one unless it is an articulation point; the graph is a forest, and two vertices are connected in it exactly when they are in the input. A self-loop gets component -1 and components() then goes out of range; calling build() twice lists the isolated vertices twice.", "quantifier": "every number of vertices, every list of edges without self-loops, every content of the static stack", "why_tests_cant": "components depend on the order in which a depth-first search meets every edge of every graph", "anchors": ["library/graph/biconnected_components.hpp:BiconnectedComponents", "library/graph/remove_multiedges.hpp:remove_multiedges", "library/graph/block_cut_forest.hpp:BlockCutForest"]}
{"id": "C81", "title": "Aho-Corasick counts exactly the patterns ending at the current position", "statement": "After adding any nonempty patterns and calling build(), reading any text character by character from init_state() always succeeds and count_suffix_matching of the state reached is the number of added patterns (with repetition) that are suffixes of the text read so far; the array version does the same, also with empty patterns, for characters within its alphabet. The tries give two strings the same node exactly when they are equal, and add(t, start) from the node of s gives the node of s followed by t. Exactly failing cases: with an empty pattern the map version loses it away from the initial state; a second build() counts every mark twice in the map version and never terminates in the array version.", "quantifier": "all finite lists of patterns over any integer characters (array version: any alphabet size and offset) and all texts of any length", "why_tests_cant": "patterns, texts and the automaton's failure structure are unbounded; a test sees a few", "anchors": ["library/string/aho_corasick.hpp AhoCorasick", "library/string/aho_corasick_array.hpp AhoCorasickArray", "library/string/trie_map.hpp MapTrie", "library/string/trie_array.hpp ArrayTrie"]}
{"id": "C82", "title": "HornSAT: answers satisfy the clauses; negative conclusions are mishandled", "statement": "Through any history of add_clause and satisfiable calls with variables in range, satisfiable() terminates without failing, and when it returns true answer() is an assignment satisfying every clause added so far. If no variable that some clause concludes to be false is a premise of a clause, the answer is the least satisfying assignment and false is returned only when no satisfying assignment exists. Exactly failing case: in general, with a negative conclusion on a variable that is also a premise, satisfiable() may return false for a satisfiable formula.", "quantifier": "all numbers of variables, all finite histories of calls, all clauses in range (repeated premises and negative right-hand sides included)", "why_tests_cant": "clause sets and derivation orders are unbounded", "anchors": ["library/algorithm/horn_sat.hpp HornSAT::add_clause", "library/algorithm/horn_sat.hpp HornSAT::satisfiable", "library/algorithm/horn_sat.hpp HornSAT::answer"]}
{"id": "C83", "title": "Mo's algorithm evaluates every query on exactly its interval", "statement": "For any user structure whose add/del callbacks extend or shrink the represented interval by one end point and whose eval returns the answer for the represented interval, Mo::solve returns the answers of all queries in query order and never calls a callback outside the interval its documentation promises, whatever order the sort produces; and the comparator handed to std::sort is a strict weak order.", "quantifier": "all user structures meeting the documented callbacks, all lists of queries 0 <= l <= r <= n, all orders, all bucket sizes", "why_tests_cant": "query lists and orders are unbounded and the callbacks arbitrary", "anchors": ["library/algorithm/mo.hpp Mo::Mo", "library/algorithm/mo.hpp Mo::solve"]}
{"id": "C84", "title": "Offline dynamic connectivity answers for the edges present at each question", "statement": "For any history of add_query, del_query (of present edges) and connectivity_query calls, one call of OfflineDynamicConnectivity::answer returns, in order, whether the two vertices of each question were connected by the edges present at that moment, parallel edges counted; deleting an absent edge fails the assertion. Calling answer in the middle of a history makes it forget the edges still present (finding).", "quantifier": "all n >= 0, all histories of insertions, deletions and questions over vertices 0..n-1, of any length", "why_tests_cant": "The answer depends on the whole history: the segment decomposition of every lifetime, and a union-find whose merges are undone along the traversal. Tests see a few histories.", "anchors": ["library/algorithm/offline_dynamic_connectivity.hpp: OfflineDynamicConnectivity", "add_query", "del_query", "connectivity_query", "answer", "library/datastructure/union_find/undo_union_find.hpp: UndoUnionFind"]}
{"id": "C85", "title": "Bipartite matching, vertex cover, independent set, edge cover", "statement": "After any history of add_edge and query calls on BipartiteMatching(n, m), max_matching() returns a maximum-cardinality matching of the edges added so far and left()/right() agree with it; min_vertex_cover() returns a minimum vertex cover, max_independent_set() a maximum independent set; the first solve() returns the size of a maximum matching; min_edge_cover() returns a minimum edge cover when no vertex is isolated and m <= n. (Exact failing cases: with m > n min_edge_cover accesses a table out of bounds; a solve() after a further add_edge returns only the number of newly matched pairs.)", "quantifier": "all n, m >= 0, all edge lists with repetitions, all interleavings of add_edge, solve and the four queries", "why_tests_cant": "optimality is against all other matchings/covers of every bipartite graph, and the state kept between solves depends on the whole history", "anchors": ["library/graph/bipartite_matching.hpp: BipartiteMatching"]}
{"id": "C86", "title": "Linear equations a x + b y = z with range restrictions", "statement": "For b != 0 and magnitudes up to 2^60, BezoutEquation(a, b).solve(z) followed by any sequence of set_min_x / set_max_x / set_min_y / set_max_y describes exactly the integer solutions meeting the restrictions: has_solution tells whether one exists, count gives their number (nullopt when infinite), and xmin/xmax/ymin/ymax_solution return extreme solutions whenever that coordinate is bounded. (Exact failing cases: b = 0 with a != 0 divides by zero for every solvable z; count() for a = b = z = 0 overflows; a true result of set_* does not mean that a solution is left.)", "quantifier": "all a, b, z, all restriction sequences of any length", "why_tests_cant": "infinitely many solution sets and restriction orders; the answer is about all integer pairs", "anchors": ["library/number/bezout_equation.hpp: BezoutEquation", "BezoutEquationSolution"]}
{"id": "C87", "title": "Eulerian circuits and trails of directed graphs", "statement": "For a directed multigraph built by add_edge, eulerian_circuit() returns a closed walk that uses every edge exactly once, or no value when no such walk exists; eulerian_circuit(start) does the same for walks from start to start; eulerian_trail(different_endpoints) returns a walk using every edge exactly once (between different vertices if asked for) or no value when there is none, and leaves the object unchanged whenever it returns a walk. Two cases fail: when no trail is found because the graph is disconnected, the helper edge stays in the graph and later answers use it; and eulerian_circuit() on a graph without vertices indexes an empty vector.", "quantifier": "all numbers of vertices n >= 1, all finite edge lists with self-loops and parallel edges, all start vertices and both values of the flag", "why_tests_cant": "A missing walk is a claim about every ordering of the edges, and the DFS order depends on the whole insertion history; tests sample a few graphs.", "anchors": ["library/graph/directed_eulerian_graph.hpp: DirectedEulerianGraph::add_edge", "library/graph/directed_eulerian_graph.hpp: DirectedEulerianGraph::eulerian_circuit", "library/graph/directed_eulerian_graph.hpp: DirectedEulerianGraph::eulerian_trail"]}
{"id": "C88", "title": "Eulerian circuits and trails of undirected graphs", "statement": "For an undirected multigraph built by add_edge, eulerian_circuit() returns a closed walk that uses every edge exactly once (in either direction), or no value when no such walk exists; eulerian_circuit(start) does the same from start; eulerian_trail(different_endpoints) returns a walk using every edge exactly once, between different vertices if asked for, or no value when there is none, and leaves the object unchanged whenever it returns a walk; rev_edge(u, i) names the other end of the same edge. The internal assertion never fails. Two cases fail: when no trail is found because the graph is disconnected, the helper edge stays in the graph and later answers use it; and eulerian_circuit() on a graph without vertices indexes an empty vector.", "quantifier": "all numbers of vertices n >= 1, all finite edge lists with self-loops and parallel edges, all start vertices and both values of the flag", "why_tests_cant": "A missing walk is a claim about every ordering and orientation of the edges, and the DFS order depends on the whole insertion history; tests sample a few graphs.", "anchors": ["library/graph/undirected_eulerian_graph.hpp: UndirectedEulerianGraph::add_edge", "library/graph/undirected_eulerian_graph.hpp: UndirectedEulerianGraph::eulerian_circuit", "library/graph/undirected_eulerian_graph.hpp: UndirectedEulerianGraph::eulerian_trail", "library/graph/undirected_eulerian_graph.hpp: UndirectedEulerianGraph::rev_edge"]}
{"id": "C89", "title": "SlopeTrick keeps the minimum and the minimisers", "statement": "After any history of add_const, add_right, add_left, add_abs, cumulative_min_left/right, <<=, >>=, translate and sliding_window_minimum whose parameters stay well below the sentinel inf, the history describes one function f on the integers (sums of hinges, prefix/suffix minima, shifts and window minima, starting from 0), min() is the least value of f and argmin_range() = (lo, hi) is exactly the set of points where f attains it, with values around +-inf standing for an unbounded side.", "quantifier": "all finite histories of calls with sum of absolute parameters below inf/2, every point x of the represented range", "why_tests_cant": "The minimum over all integers of a function composed by an arbitrary call history cannot be enumerated by tests.", "anchors": ["library/datastructure/slope_trick.hpp: SlopeTrick::min", "library/datastructure/slope_trick.hpp: SlopeTrick::argmin_range", "library/datastructure/slope_trick.hpp: SlopeTrick::add_right", "library/datastructure/slope_trick.hpp: SlopeTrick::add_left", "library/datastructure/slope_trick.hpp: SlopeTrick::sliding_window_minimum", "library/datastructure/slope_trick.hpp: SlopeTrick::cumulative_min_left"]}
{"id": "C90", "title": "Convex hull trick for lines added at the ends", "statement": "For every history of add_line and query in which each new slope is at most or at least all earlier slopes, and in which the questions follow the order promised by the query tag (non-decreasing for inc_query_tag, non-increasing for dec_query_tag, any for non_monotonic_query_tag), every query(x) returns the least (MinMonotonicCHT) or greatest (MaxMonotonicCHT) value a*x+b over all lines added so far, and no assertion fails. With a floating-point value type this fails: numeric_limits::min() is positive, so negative slopes in growing order and negative first questions abort.", "quantifier": "all histories of additions and questions, all slopes and intercepts, both extremes and the three question orders", "why_tests_cant": "A line dropped wrongly shows only for a later question in a narrow interval of points; histories interleaving additions at both ends with questions that pop lines are unbounded.", "anchors": ["library/datastructure/monotonic_convex_hull_trick.hpp:MonotonicCHT"]}
{"id": "C91", "title": "Enumeration of the quotients floor(n/d)", "statement": "For every 0 <= n < 2^60, foreach_quotients calls its function once for each positive value of floor(n/x), in ascending order; enumerate_quotients returns that list and quotient_num its length; quotient_ranges returns consecutive ranges from 1 to n such that d lies in a range exactly when floor(n/d) is that range's quotient; multiple_quotients_ranges does the same for several numerators below the type's maximum. The floating-point square root and division used are exact there. For 2^60 <= n the int expression 2*h overflows, and a numerator equal to the type's maximum overflows the loop step.", "quantifier": "all n below 2^60 and all non-empty containers of non-negative numerators", "why_tests_cant": "The parity case at the square root, the rounding of double division and of sqrtl, and the last range depend on n; there are 2^60 of them.", "anchors": ["library/number/enumerate_quotient.hpp:quotient_num", "library/number/enumerate_quotient.hpp:foreach_quotients", "library/number/enumerate_quotient.hpp:enumerate_quotients", "library/number/enumerate_quotient.hpp:quotient_ranges", "library/number/enumerate_quotient.hpp:multiple_quotients_ranges"]}
{"id": "C92", "title": "Discrete logarithm", "statement": "For every modulus 1 <= m < 2^30 and residues x, y, discrete_logarithm(x, y) returns the least t >= 0 with x^t = y (mod m), or -1 when no such t exists, and leaves the modulus as it was; discrete_logarithm_coprime does so when x is prime to m. For m >= 2^30 the shift in floor_log2 leaves the int range (undefined behaviour).", "quantifier": "all moduli below 2^30, all residues x and y, x prime to m or not", "why_tests_cant": "The answer must be least and -1 must mean no exponent at all works; the non-coprime reduction depends on the prime powers shared by x and m.", "anchors": ["library/number/discrete_logarithm.hpp:discrete_logarithm", "library/number/discrete_logarithm.hpp:discrete_logarithm_coprime", "library/number/discrete_logarithm.hpp:floor_log2"]}
{"id": "C93", "title": "Least residue of a linear function", "statement": "For every n >= 1, m >= 1, a and b, min_of_mod_of_linear(n, m, a, b) returns the least value of (a*x+b) mod m over 0 <= x < n, as long as b+m-1 fits in int and the floor sums fit in 64 bits; this covers 0 <= a, b < m <= 2^30. For larger m with b near m the int sum overflows.", "quantifier": "all n, m, a, b within the stated ranges", "why_tests_cant": "The answer comes from a binary search on a counting argument; a wrong bound shows only for particular residues out of 2^31.", "anchors": ["library/number/min_of_mod_of_linear.hpp:min_of_mod_of_linear"]}
{"id": "C94", "title": "Breadth-first search in the complement graph", "statement": "ComplementBFS over a list of edges: distance(src) gives every vertex the least number of non-edges (pairs of distinct vertices not joined by a given edge) on a chain from a source, and -1 exactly when there is no such chain; connected_components() lists every vertex once and puts two vertices together exactly when a chain of non-edges joins them. No access is out of range.", "quantifier": "every number of vertices, every multiset of edges (loops and duplicates included), every set of sources, every behaviour of std::partition its contract allows", "why_tests_cant": "the complement is never materialised: correctness rests on the invariant that the shrinking vector holds exactly the unvisited vertices, whatever order std::partition leaves them in", "anchors": ["library/graph/bfs_complement.hpp:ComplementBFS::distance", "library/graph/bfs_complement.hpp:ComplementBFS::connected_components", "library/graph/bfs_complement.hpp:ComplementBFS::add_edge"]}
{"id": "C95", "title": "Rolling hash", "statement": "RollingHash over modint2p61m1: through every sequence of calls on any collection of strings of non-negative ints, operator()(l, r) returns for every base the polynomial hash of the substring (so equal substrings get equal hashes), and concat(h, l, r) returns the hashes of the string h stands for followed by the substring. Two different strings over positive ints collide for fewer bases than the longer string has characters. With negative elements the second claim fails: -1 and 7 are the same character for every base.", "quantifier": "every array of bases, every collection of strings, every sequence of calls; for collisions every pair of strings and every set of bases", "why_tests_cant": "the tables of powers are static and grow lazily across objects; the collision bound counts bases over the whole prime field", "anchors": ["library/string/rolling_hash.hpp:RollingHash", "library/math/pow_mods.hpp:pow_mods"]}
{"id": "C96", "title": "Iteration over subsets and bits", "statement": "Range-based loops over all_subset(s), all_setbit(s) and all_subset_k(s, k) (32 and 64 bits) visit, respectively, every subset of s once in decreasing order, the position of every one of s in increasing order, and every k-element subset of s once in increasing order. Exceptions: all_subset of the all-ones value visits nothing, and all_subset_k with k = 1 and W-1 bits set shifts by the width (undefined).", "quantifier": "every mask s and every k of the 32- and 64-bit types", "why_tests_cant": "2^64 masks, and the enumeration relies on carry propagation and PDEP bit placement", "anchors": ["library/util/subset_iterator.hpp:all_subset", "library/util/subset_iterator.hpp:all_subset_k", "library/util/subset_iterator.hpp:all_subset_k_64", "library/util/subset_iterator.hpp:all_setbit", "library/util/subset_iterator.hpp:all_setbit_64"]}
{"id": "C97", "title": "Level ancestors and tree paths", "statement": "In every tree given as undirected adjacency lists: get_tree_path(g, u, v) returns the vertices of the simple path from u to v. LevelAncestor(g, root) is built without leaving its arrays; get_depth is the distance to the root, query(u, k) is the vertex k steps above u when k is between 0 and the depth of u and -1 otherwise, get_visit_time and get_kth_visited are inverse to each other, and the vertices below any u are exactly those with visit times in one interval that starts at u.", "quantifier": "all trees, all roots and orders of the adjacency lists, all vertices u, v and all integers k", "why_tests_cant": "Tests use a few shapes; the query is correct only because the preorder times inside each depth class are sorted and a subtree is an interval, which has to hold for every tree.", "anchors": ["library/tree/level_ancestor.hpp: LevelAncestor", "query", "get_visit_time", "get_kth_visited", "get_depth", "library/tree/get_path.hpp: get_tree_path"]}
{"id": "C98", "title": "Centroids of a tree", "statement": "In every tree, find_centroids(g) returns each centroid exactly once and nothing else (a vertex whose removal leaves no piece with more than half of the vertices), there are one or two of them, so its final assertion never fails, and the walk never leaves its arrays.", "quantifier": "all trees with at least one vertex, all orders of the adjacency lists", "why_tests_cant": "The iterative walk with edge counters, the half-size comparisons at even and odd n, and the claim that one or two centroids exist depend on the shape of the whole tree.", "anchors": ["library/tree/find_centroid.hpp: find_centroids"]}
{"id": "C99", "title": "Euler tour of a tree", "statement": "For every tree with at most 2^28 vertices and every root, EulerTour(g, root) is built without leaving its arrays; get_depth and get_parent are the depth and parent of a vertex in the tree hung from that root (parent -1 for the root only), lca(u, v) is the lowest common ancestor, dist(u, v) the number of edges of a shortest walk, and the vertices below u are exactly those w with get_visit_time(u) <= get_visit_time(w) < get_leave_time(u).", "quantifier": "all trees up to 2^28 vertices, all roots, all orders of the adjacency lists, all pairs of vertices", "why_tests_cant": "The range minimum over an Euler tour gives the ancestor only because of where parents are repeated in the tour, for every tree shape and both orders of the two vertices.", "anchors": ["library/tree/euler_tour.hpp: EulerTour", "lca", "dist", "get_depth", "get_parent", "get_visit_time", "get_leave_time"]}
{"id": "C100", "title": "Counting pairs by their sum", "statement": "For all integers (with possibly empty intervals), sum_count, sum_count_leq, sum_count_lt, sum_count_geq and sum_count_gt return the number of pairs (a, b) with min_a <= a <= max_a and min_b <= b <= max_b whose sum is equal to, at most, less than, at least, greater than the last argument.", "quantifier": "all integers min_a, max_a, min_b, max_b and all thresholds", "why_tests_cant": "The closed forms split on the relative order of four bounds; tests sample a few of the unboundedly many configurations.", "anchors": ["library/util/sum_count.hpp:sum_count", "sum_count_leq", "sum_count_lt", "sum_count_geq", "sum_count_gt"]}
{"id": "C101", "title": "Denominators with a given quotient", "statement": "For 64-bit n and q below 2^62 in absolute value and every limit: fld_denominators_positive/negative and cld_denominators_positive/negative return exactly the least and greatest positive (negative) x within the limit with floor(n/x) = q (ceil(n/x) = q), every x in between also has that quotient, and nothing is returned exactly when there is no such x. For larger n the intermediate sums overflow: n = 2^63-1, q = 1 is undefined behaviour although a denominator exists.", "quantifier": "all n, q with |n|, |q| < 2^62, all limits", "why_tests_cant": "The bounds are truncating divisions of shifted values with eight sign cases; exhaustive tests over 2^124 pairs are impossible.", "anchors": ["library/number/find_denominators.hpp:fld_denominators_positive", "fld_denominators_negative", "cld_denominators_positive", "cld_denominators_negative"]}
{"id": "C102", "title": "Triangles of a graph", "statement": "For every simple undirected graph, enumerate_triangles(g, fun) calls fun only with three pairwise adjacent vertices, never twice with the same arguments, and for every triangle exactly once (with its vertices in exactly one order); no array is left.", "quantifier": "all simple undirected graphs, all orders of adjacency lists", "why_tests_cant": "Completeness and uniqueness come from the degree ordering computed by a counting sort and from the marks being cleared after each vertex; they concern every triangle of every graph.", "anchors": ["library/graph/enumerate_triangles.hpp:enumerate_triangles"]}
{"id": "C103", "title": "Moebius function table", "statement": "For every N, MobiusFunction<N> is built without leaving its arrays, and then mobius(n) is the Moebius function for 1 <= n <= N (0 if the square of a prime divides n, otherwise -1 to the number of prime divisors), min_prime_factor(n) the least prime factor for 2 <= n <= N, factorize(n) the prime factorisation with increasing primes, and is_prime(n) decides primality for 0 <= n <= N.", "quantifier": "all N and all n in the table", "why_tests_cant": "The sieve flips signs once per prime divisor and clears multiples of squares; correctness for every n is number theory, not a finite check.", "anchors": ["library/number/mobius_function.hpp:MobiusFunction", "mobius", "min_prime_factor", "factorize", "is_prime"]}
{"id": "C104", "title": "All-pairs bottleneck costs", "statement": "For every square cost matrix, minmax_floyd_warshall returns for each ordered pair (u, v) the least x such that some walk from u to v with at least one edge has no edge dearer than x; this does not depend on how std::sort orders equal costs, and the recursion always ends.", "quantifier": "all square matrices of integer costs, all orders of equal costs", "why_tests_cant": "The bit-set closure is updated recursively while it is being scanned; only an invariant over the pending pairs shows that nothing is missed for every matrix.", "anchors": ["library/graph/minmax_floyd_warshall.hpp:minmax_floyd_warshall"]}
{"id": "C105", "title": "Double-ended priority queue", "statement": "A DoubleEndedPriorityQueue built from any range behaves, over every sequence of push, min, max, pop_min, pop_max, size, empty and dump_sorted, like a sorted multiset: min and max return the extreme elements, the pops remove them, dump_sorted lists everything in order; only a call that needs an element of an empty queue fails, by its assertion.", "quantifier": "all initial ranges, all sequences of calls, every behaviour the standard heap algorithms and nth_element are allowed", "why_tests_cant": "The two heaps are rebalanced lazily around a pivot that stays behind when elements are popped; max() even answers with the stale pivot. Only an invariant over all histories shows that this is right.", "anchors": ["library/datastructure/double_ended_priority_queue.hpp:DoubleEndedPriorityQueue", "push", "min", "max", "pop_min", "pop_max", "dump_sorted", "size", "empty"]}
{"id": "C106", "title": "Persistent Fenwick tree", "statement": "Over every history of PersistentFenwickTree(n), add(i, v) and sum(l, r) on any tree made so far, with valid arguments, each sum is the sum of its tree's array and an add changes only the tree it returns. The constructor from a vector of values, however, drops the values: every sum over the tree it makes is 0.", "quantifier": "all histories over all trees sharing the node pool; all vectors of initial values", "why_tests_cant": "Trees share nodes in one static pool, so persistence is a statement about all interleavings of updates of all versions.", "anchors": ["library/datastructure/fenwick_tree/persistent_fenwick_tree.hpp:PersistentFenwickTree", "add", "sum", "Node::build"]}
{"id": "C107", "title": "Directed cycle detection", "statement": "On every directed graph, self loops and parallel edges included, get_cycle_directed terminates within its n-entry stack and returns a simple directed cycle (each edge leads to the next one, the last back to the first) exactly when the graph has a directed cycle.", "quantifier": "all directed graphs given by adjacency lists", "why_tests_cant": "The search prunes finished vertices and reports the part of the stack from a remembered iterator; that no cycle is missed and the reported part is a cycle is a statement about every graph.", "anchors": ["library/graph/cycle_detection.hpp:get_cycle_directed"]}
{"id": "C108", "title": "Offline count of distinct values", "statement": "For every array and every list of intervals added with add_query, in any order and with repetitions, add_query returns the ids 0, 1, 2, ... and solve returns at each id the number of distinct values of that interval; an interval outside the array stops at the assertion.", "quantifier": "all integer arrays, all sequences of intervals", "why_tests_cant": "The answer comes from a sweep over bucket-sorted right ends and a count of previous occurrences; that the buckets cover every query and the count equals the number of distinct values is a statement about all arrays and query lists.", "anchors": ["library/range_query/static range_count_distinct.hpp:StaticRangeCountDistinctOffline", "add_query", "solve"]}
{"id": "C109", "title": "Nearest points in the Manhattan metric", "statement": "For pairwise different points manhattan_minimum_distances returns for each point the Manhattan distance to the nearest other point (numeric_limits max for a single point), whatever std::sort does with equivalent elements. When a point occurs twice this fails: the first copy never sees the second, and its entry is the distance to some other point instead of 0.", "quantifier": "all lists of points, every behaviour std::sort is allowed", "why_tests_cant": "Eight sweeps must cover all octants, and a point on the boundary of an octant must be met in at least one of them; the failing case (repeated points) is missed by random tests.", "anchors": ["library/graph/manhattan_minimum_distances.hpp:manhattan_minimum_distances"]}
{"id": "C110", "title": "Subset convolution sums over disjoint pairs", "statement": "For two vectors of the same length 2^k over a commutative ring, subset_convolution(a, b) returns the vector whose entry s is the sum of a[t]*b[u] over all pairs of disjoint bit sets t, u with union s. If the length of the first operand is positive and not a power of two, an assertion fails; for empty operands the behaviour is undefined (__builtin_ctz(0)).", "quantifier": "all commutative rings, all k, all pairs of vectors of length 2^k; all lengths for the rejection", "why_tests_cant": "Tests compare a few small random vectors over one modulus; correctness relies on the rank argument (sizes add up iff disjoint) for every k and on truncating the products at the right length for every entry.", "anchors": ["library/convolution/subset_convolution.hpp:subset_convolution", "ranked", "deranked", "ranked_zeta", "deranked_mobius", "library/polynomial/fps_naive.hpp:mul", "operator+=", "operator-="]}
{"id": "C111", "title": "remove_multiedges keeps one edge per neighbour", "statement": "When every neighbour is a vertex of the graph, remove_multiedges replaces every adjacency list by the list of first occurrences of its neighbours, in their order: the same neighbours, each exactly once, independently of the other lists. A neighbour outside the graph makes the call access out of bounds.", "quantifier": "all adjacency lists, of any number of vertices and with any multiplicities", "why_tests_cant": "The flags are shared between the lists, so a flag left set by one list would corrupt a later one; tests see only a few graphs.", "anchors": ["library/graph/remove_multiedges.hpp:remove_multiedges"]}
{"id": "C112", "title": "transpose and rot90 move every entry to its place", "statement": "For an array of N > 0 rows of M entries, transpose returns M rows of N entries with entry (j, i) equal to entry (i, j) of the argument, and rot90 returns M rows of N entries with entry (M-1-j, i) equal to entry (i, j). If M > 0 as well, transposing twice or rotating four times gives the argument back; for M = 0 the number of rows is lost and it does not.", "quantifier": "all element types, all N > 0 and M, all rectangular arrays", "why_tests_cant": "Tests use a few square or small arrays, on which swapped dimensions or an off-by-one in the mirrored index can stay unnoticed.", "anchors": ["library/util/transpose.hpp:transpose", "library/util/rot90.hpp:rot90"]}
{"id": "C113", "title": "powers tabulates k-th powers", "statement": "powers(n, k) over residues modulo m returns the vector of length n+1 with entry i equal to i^k mod m for every 0 <= i <= n, where 0^0 is 1.", "quantifier": "all n, all k, all moduli (prime or not)", "why_tests_cant": "The table is filled multiplicatively through smallest prime factors; tests check a few n and k and cannot cover every composite.", "anchors": ["library/sequence/powers.hpp:powers", "library/number/linear_sieve.hpp:LinearSieve"]}
{"id": "C114", "title": "chromatic_number returns a sufficient number of colours", "statement": "For a graph with n >= 1 vertices and without loops, chromatic_number(n, edges) returns r with 1 <= r <= n such that a proper colouring with r colours exists. It is the least such number, unless the number of ordered covers of the vertices by that many independent sets is divisible by both 998244353 and 1000000007 (every k it skips has that property). For n = 0 it returns 0.", "quantifier": "all n, all edge lists without loops", "why_tests_cant": "Tests check small graphs; that the modular inclusion-exclusion count never reports too few colours, and when it can report too many, concerns every graph.", "anchors": ["library/graph/chromatic_number.hpp:chromatic_number"]}
{"id": "C115", "title": "default_vector is a total map with a default", "statement": "After set_default_value(d) and any history of writes and reads at indices i with 0 <= i < 2^31 - 1 and of resizes, reading any int index (negative ones included) of the const vector or with get_or_default gives the latest value put there that no resize removed, or else d; size() is one more than the largest index accessed since the last resize (or the size then). Changing the default later affects only indices outside the current size: entries created by growth keep the old default. A negative index through operator[] or at of a non-const vector never succeeds (-1 empties the vector and is then out of bounds; smaller ones throw), and without set_default_value growing reads an uninitialised value.", "quantifier": "all initial contents, all histories of accesses, all indices", "why_tests_cant": "The unsigned conversion of the index and the fill with the current default interact with every history of growth and shrinking.", "anchors": ["library/util/default_vector.hpp:default_vector"]}
{"id": "C116", "title": "montmort_number counts derangements", "statement": "For n >= -1, montmort_number(n) has n + 1 entries and entry i is the number, modulo m, of permutations of i elements without a fixed point; for n < -1 it throws.", "quantifier": "all moduli m > 0 and all n", "why_tests_cant": "A test compares a few entries; that the recurrence counts the fixed-point-free permutations for every size is a combinatorial theorem.", "anchors": ["library/sequence/montmort_number.hpp:montmort_number"]}
{"id": "C117", "title": "AffineClamp composes as functions", "statement": "An AffineClamp over 64-bit integers with l <= r maps x to a x + b clamped to [l, r] without overflow. compose(f, g) is well-formed and is the function x -> f(g(x)) whenever a_f a_g, a_f b_g and a_f b_g + b_f fit in 64 bits, and is undefined behaviour otherwise, even if the clamped function is harmless (64 doublings clamped to [0, 10]); id() is neutral; any sequence of compositions that does not overflow acts as applying the functions one after the other. operator== ignores the bounds, so functions that compare equal can differ.", "quantifier": "all well-formed f and g, all sequences of functions, all 64-bit x", "why_tests_cant": "The case analysis over signs of the slope and the positions of the bounds ranges over all 64-bit parameters and all compositions.", "anchors": ["library/algebra/monoid/affine_clamp.hpp:AffineClamp", "library/algebra/monoid/affine.hpp:Affine"]}
{"id": "C118", "title": "maximum_clique returns a largest clique (fails)", "statement": "A user expects maximum_clique(g) to return a largest clique of every simple graph g. It does not: the complement it builds has a loop at every vertex, so on every complete graph with at least one vertex it returns the empty set although all vertices form a clique, on three vertices without edges it throws length_error, and on a path of four vertices it returns a single vertex.", "quantifier": "all complete graphs; all simple graphs (refuted)", "why_tests_cant": "Whether the reduction to independent sets is right for every graph is not settled by the cases tried; the failure is shown for a whole family of graphs.", "anchors": ["library/graph/maximum_clique.hpp:maximum_clique", "library/graph/maximum_independent_set.hpp:maximum_independent_set"]}
{"id": "C119", "title": "minimum_vertex_cover returns a smallest vertex cover", "statement": "For every simple graph g, minimum_vertex_cover(g) returns a smallest set of vertices that meets every edge.", "quantifier": "all simple graphs", "why_tests_cant": "Minimality compares the result with every vertex cover of every graph.", "anchors": ["library/graph/minimum_vertex_cover.hpp:minimum_vertex_cover", "library/graph/maximum_independent_set.hpp:maximum_independent_set"]}
