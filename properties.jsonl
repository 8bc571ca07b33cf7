{"id": "C01", "title": "SegmentTree range query equals the ordered product of the current values", "statement": "For a SegmentTree over any monoid (not necessarily commutative), after construction from any sequence or any size and any history of set(i,x) calls, query(l,r) with 0<=l<=r<=size returns x_l * x_{l+1} * ... * x_{r-1} of the current contents (the identity when l=r), get(i) returns the current x_i, and no array access is out of bounds; queries do not change the contents.", "quantifier": "every monoid, every tree size (also sizes that are not powers of two), every initial contents, every finite history of set calls, every l<=r", "why_tests_cant": "the bottom-up layout for non-power-of-two sizes makes some internal nodes hold wrapped-around garbage products; only a proof shows no query of any (size,l,r) ever reads one and that the order of factors is kept", "anchors": ["include/mtl/segment_tree.hpp: SegmentTree::SegmentTree, get, set, query", "include/mtl/monoid.hpp: Monoid"]}
{"id": "C02", "title": "SegmentTree max_right / min_left find the exact boundary of a monotone predicate", "statement": "For a predicate f on monoid values with f(identity) true: max_right(l,f) returns an r with l<=r<=size such that f(product of [l,r)) holds and either r=size or f(product of [l,r+1)) fails; min_left(r,f) returns the mirrored boundary. Whenever f is monotone (true on a range implies true on its sub-ranges starting at l / ending at r) this r is the largest (l the smallest) possible.", "quantifier": "every monoid, every size, every contents, every start position and every predicate true on the identity", "why_tests_cant": "the climbing/descending walk over a non-power-of-two tree has boundary cases (last block, powers of two) that depend on the size and start in unboundedly many ways", "anchors": ["include/mtl/segment_tree.hpp: SegmentTree::max_right, min_left"]}
{"id": "C03", "title": "FenwickTree prefix and range sums are exact after any history of additions", "statement": "After FenwickTree(size) or construction from a range and any history of add(i,v), sum(i) equals the sum of the values at 0..i, range_sum(l,r) equals the sum over l..r-1, for every abelian group of values; the O(n) construction gives the same tree as n add calls; no out-of-range access happens.", "quantifier": "every size, every history of add calls, every abelian group, every index", "why_tests_cant": "the index walk i&-i / i|(i+1) depends on the binary form of every index and of the size", "anchors": ["include/mtl/fenwick_tree.hpp: FenwickTree"]}
{"id": "C04", "title": "FenwickTree lower_bound returns the first index whose prefix sum reaches the target", "statement": "When all values are non-negative, lower_bound(x) returns the smallest index i with sum(i) >= x, and size when the total is below x.", "quantifier": "every size (not only powers of two), every contents of non-negative values, every target", "why_tests_cant": "binary lifting over the Fenwick array must be right for every size and every distribution of values, including targets 0 and above the total", "anchors": ["include/mtl/fenwick_tree.hpp: FenwickTree::lower_bound"]}
{"id": "C05", "title": "UnionFind answers are exactly the equivalence closure of the united pairs", "statement": "After any interleaving of unite, are_union, root and size_of calls on UnionFind(n): are_union(a,b) is true iff a and b are connected by the pairs united so far; size_of(a) is the number of elements connected to a; unite(a,b) returns true iff a and b were not yet connected; root is the same for connected elements; find operations (which compress paths) never change any answer; all calls terminate.", "quantifier": "every n, every interleaving of mutating and (path-compressing) query calls", "why_tests_cant": "queries mutate the forest, so the property quantifies over all histories; termination needs acyclicity of every reachable forest", "anchors": ["include/mtl/unionfind.hpp: UnionFind"]}
{"id": "C06", "title": "Lazy segment tree: range updates and range queries behave like a plain array", "statement": "After any history of range update(l,r,f), query and get calls on a lazy segment tree built from any contents, query(l,r) returns the ordered product of the array obtained by applying every update to every covered element one by one in the order of the calls; get(i) returns that element. Holds for non-commutative monoids and non-commutative operators.", "quantifier": "every size, every initial contents, every history of update/query/get calls, every monoid with an operator monoid acting on it", "why_tests_cant": "the pending operators are spread over internal nodes depending on the whole history, including earlier queries", "anchors": ["include/mtl/lazy_segment_tree.hpp: range_update, query, get, propagate", "include/mtl/monoid.hpp: OperatorMonoid"]}
{"id": "C07", "title": "Lazy segment tree: a point set replaces exactly one element as long as no range update came before it", "statement": "In every history in which all set(i,x) calls precede the first range update, set replaces exactly the element i: every later get and query (also after later range updates) returns what the same history returns on a plain array. Once a range update precedes a set the code violates this: after update(0,2,+5); set(0,10), get(0) returns 15 instead of 10, and range queries ignore operators pending on the sibling nodes.", "quantifier": "every history that mixes range updates with point assignments", "why_tests_cant": "the violation needs an earlier range update whose operator is still pending on the path; unit tests that set before updating never see it", "anchors": ["include/mtl/lazy_segment_tree.hpp: set (lines 79-89)"]}
{"id": "C08", "title": "Dual segment tree: point reads see every covering range update in order", "statement": "After any history of update(l,r,f), update(i,f), set and get calls on a DualSegmentTree over any (non-commutative) operator monoid, get(i) returns the composition in call order of all operators whose range covers i since the last set of i.", "quantifier": "every size, every history of calls, every monoid", "why_tests_cant": "laziness pushes operators at different times depending on the history; order errors only show for non-commutative operators", "anchors": ["include/mtl/dual_segment_tree.hpp: DualSegmentTreeBase"]}
{"id": "C09", "title": "SparseTable answers range queries of an idempotent operation exactly", "statement": "For any associative idempotent operation and any non-empty sequence, SparseTable.query(l,r) with l<r<=n equals the fold of the operation over positions l..r-1, and construction and query never access out of range.", "quantifier": "every n>0, every contents, every l<r, every associative idempotent operation", "why_tests_cant": "overlapping power-of-two windows cover [l,r) only because of a logarithm identity valid for every length", "anchors": ["include/mtl/sparse_table.hpp: SparseTable"]}
{"id": "C10", "title": "DisjointSparseTable answers range queries of any semigroup exactly", "statement": "For any associative operation (no identity, commutativity or idempotence needed), DisjointSparseTable.query(l,r) with l<r<=n equals x_l * ... * x_{r-1}.", "quantifier": "every n>0, every contents, every l<r, every associative operation", "why_tests_cant": "the level chosen from the highest differing bit of l and r-1 must split every range exactly once", "anchors": ["include/mtl/disjoint_sparse_table.hpp: DisjointSparseTable"]}
{"id": "C11", "title": "DualSparseTable / DualDisjointSparseTable give each position the product of all operators applied to ranges covering it", "statement": "After any sequence of range applications followed by build, get(i) equals the combination of exactly the operators whose range covers i (idempotent commutative operation for the overlapping table, any commutative monoid for the disjoint one).", "quantifier": "every n, every sequence of (range, operator) applications, every position", "why_tests_cant": "each application is scattered over table rows and only pushed down by build; missing or doubled coverage depends on the range", "anchors": ["include/mtl/dual_sparse_table.hpp", "include/mtl/dual_disjoint_sparse_table.hpp"]}
{"id": "C12", "title": "PersistentStack versions never interfere", "statement": "push, pop, top, concat and reverse on any version return the value of the ordinary list operation and leave every previously obtained version observably unchanged.", "quantifier": "every tree of versions produced by any sequence of operations", "why_tests_cant": "branching histories are unbounded; sharing bugs only show on specific interleavings of versions", "anchors": ["include/mtl/persistent_stack.hpp"]}
{"id": "C13", "title": "PersistentQueue is FIFO in every branch of its version tree", "statement": "For every version obtained by any sequence of push/pop from any earlier version, front/pop yield the elements in the order they were pushed along that branch, and operating on one version never changes what another version yields, although versions share lazily evaluated mutable cells.", "quantifier": "every branching history of push and pop over all versions", "why_tests_cant": "the shared suspended cells are forced at history-dependent moments and in any version order", "anchors": ["include/mtl/persistent_queue.hpp"]}
{"id": "C14", "title": "PersistentArray: get after set, in every version", "statement": "For any branching factor >= 2, set(i,x) on a version returns a version whose get(i) is x and whose get(j), j<>i, equal those of the source version, while the source version is unchanged; unset positions read as the default.", "quantifier": "every branching factor, size, version tree and index", "why_tests_cant": "path copying over all versions and all index digits cannot be enumerated", "anchors": ["include/mtl/persistent_array.hpp"]}
{"id": "C15", "title": "PersistentUnionFind: each version is the equivalence closure of its own merges", "statement": "In every version, same(a,b) iff a and b are connected by the merges on the path to that version, size_of is the class size, and merging creates a new version without changing the answers of any other.", "quantifier": "every branching history of merges and queries", "why_tests_cant": "same as C05 but over all branches of versions", "anchors": ["include/mtl/persistent_unionfind.hpp"]}
{"id": "C16", "title": "Skew-binary random access list agrees with a plain list", "statement": "In every persistent version, size, front, get_at, iteration, pushed, popped, updated_at and (on non-empty lists) extended agree with the corresponding operations of a plain list, and so does dropped on versions that do not descend from extended. Documented violation: dropped on a version produced by extended, and extended on an empty list, dereference a null pointer.", "quantifier": "every list length, every index, every branching history", "why_tests_cant": "the tree sizes follow the skew-binary representation of the length, which differs at every length", "anchors": ["include/mtl/skewbinary_list.hpp: PersistentSkewbinaryList"]}
{"id": "C17", "title": "Compressor maps values to their ranks order-isomorphically", "statement": "For every history of clear, add(x), add(begin,end), release() and release_tie() on a Compressor built from any sequence: each returned map is defined on exactly the values added since the last reset, is strictly monotone and onto 0..k-1, sends x to the number of distinct smaller values, and the vector returned by release_tie decodes it.", "quantifier": "every element type with a strict total order, every input sequence including duplicates, every call history", "why_tests_cant": "order isomorphism is a statement over all pairs of all inputs", "anchors": ["include/mtl/compress_int.hpp: Compressor"]}
{"id": "C18", "title": "Portable bit tricks agree with their mathematical definitions on every 64-bit word", "statement": "On the code path without <bit>: popcnt is the number of one bits, ctz/cto/clz/clo the length of the run of trailing/leading zeros/ones (64 on zero), bit_width, bit_floor, bit_ceil (up to 2^63), has_single_bit and bit_reverse have their textbook meaning, bextr extracts the bit field, popcnt_e8 and summary act on each of the eight bytes, for every 64-bit input; the byte helpers ctz8, clz8, lssb8, mssb8 and log2p1 are right on every byte, except that log2p1(0) returns 1 instead of 0 (its callers exclude 0).", "quantifier": "all 2^64 inputs", "why_tests_cant": "2^64 inputs cannot be enumerated by tests", "anchors": ["include/mtl/bit_manip.hpp: namespace bm"]}
{"id": "C19", "title": "bisect_int finds the boundary for every predicate", "statement": "bisect_int(ok,ng,f), when f(ok) and not f(ng), terminates and returns an x between ok and ng with f(x) true and f false at the neighbour of x in the direction of ng, whichever of ok, ng is larger.", "quantifier": "all integers ok, ng and all predicates (also non-monotone)", "why_tests_cant": "predicate space and interval are unbounded; the midpoint rounding for negative numbers and both directions is easy to get wrong", "anchors": ["include/mtl/search.hpp: bisect_int"]}
{"id": "C20", "title": "boundint arithmetic saturates exactly, except that multiplying by zero divides by zero", "statement": "For every boundint<T,ID> with 0 <= sup representable in the signed type T, the constructor clamps into [0,sup]; +, -, * with a non-zero right operand and / by a non-zero operand return the exact mathematical result clamped to [0,sup] with no signed overflow in between, along any history of operations. The code violates this for x * 0, which divides sup by zero (undefined behaviour) instead of giving 0.", "quantifier": "all widths, bounds, in-range operands and operation histories", "why_tests_cant": "the guards against overflow must be right on all sign combinations and at every boundary value", "anchors": ["include/mtl/boundint.hpp: boundint"]}
{"id": "C21", "title": "Enumerate gives exact factorials, permutations and binomials modulo a prime", "statement": "For every prime modulus m<2^31, constructor argument below m, and history of calls with arguments 0<=q<=p<m (or p<q) such that p does not exceed the initial table or 2p-2<m, every fact(p), ifact(p), cmb(p,q), prm(p,q) equals the true value modulo m, whatever earlier calls grew the tables and in whatever order operands are evaluated. Documented violation: once the doubling table passes the modulus the inverse factorials are wrong, e.g. m=7: after fact(5), cmb(6,0) returns 0.", "quantifier": "every prime modulus, every p,q below it, every earlier call history", "why_tests_cant": "failure only shows for small moduli relative to the table size reached by the call history", "anchors": ["include/mtl/enumerate.hpp: Enumerate"]}
{"id": "C22", "title": "Offline dynamic divide and conquer runs every time step with exactly the active updates", "statement": "SegmentTreeDivideAndConquer: during the traversal the callback for time t is invoked exactly once, in increasing t, at a moment when the multiset of applied and not yet undone updates is exactly the set of updates whose interval contains t, and updates are undone in LIFO order, ending with nothing applied.", "quantifier": "every time span, every set of intervals, every update order", "why_tests_cant": "the traversal state at time t depends on the whole set of intervals", "anchors": ["include/mtl/segment_tree_divide_and_conquer.hpp"]}
{"id": "C23", "title": "Modular is the ring Z/m and inv/pow are correct", "statement": "For Modular<MOD>: every expression built from the constructors, +, -, *, unary -, ++, -- and pow(k) evaluates without overflow to the residue in [0,MOD) of the same integer expression; == decides congruence; for prime MOD, x*x.inv()=1 for every non-zero x and division is exact; ModularUtil::inv returns the inverse whatever earlier calls grew its table. Documented violation: operator>> stores the number read without reducing it, so the value may lie outside [0,MOD) and compare unequal to the same residue.", "quantifier": "every modulus below 2^31, every operand (also negative constructor arguments), every exponent", "why_tests_cant": "residues and exponents range over 2^31 and 2^63 values", "anchors": ["include/mtl/modular.hpp: Modular, DynamicModular, ModularUtil"]}
{"id": "C24", "title": "Modular::sqrt returns a square root exactly when one exists", "statement": "For every odd prime MOD and non-zero x, Modular::is_square(x) is true iff some y has y^2=x, and sqrt(x) terminates, returning a root when there is one and throwing otherwise; DynamicModular does so for every prime modulus (2 included) and every x (0 included). Documented violations: Modular::is_square(0) is false and sqrt(0) throws for every odd prime although 0*0=0, and Modular<2>::sqrt(1) never terminates.", "quantifier": "every odd prime, every residue", "why_tests_cant": "the Tonelli-Shanks-like loop's correctness and termination depend on the 2-adic structure of MOD-1", "anchors": ["include/mtl/modular.hpp: Modular::is_square, Modular::sqrt, DynamicModular::is_square, DynamicModular::sqrt"]}
{"id": "C25", "title": "MeldableHeap is a priority queue whatever the coin flips", "statement": "For any program over any number of heaps (construction, push, pop, top, size, empty, clear, meld) and any sequence of random bits, top() is a greatest element (w.r.t. the comparator, any strict weak order) of the elements in the heap and pop removes exactly one such element, provided a heap passed as the argument of meld is not used again except to clear it. Documented violation without that proviso: meld does not empty its argument, so the same element can be popped from both heaps.", "quantifier": "every history, every outcome of the random generator", "why_tests_cant": "randomised melding gives exponentially many shapes per history", "anchors": ["include/mtl/meldable_heap.hpp"]}
{"id": "C26", "title": "Double ended priority queue returns true minimum and maximum", "statement": "For a double-ended priority queue built from a range whose length is not 3 modulo 4 (in particular built empty) and any sequence of push, pop_min, pop_max, min, max, size, empty, clear (pops and extrema only when non-empty), max() is a greatest and min() a least element of the current multiset under operator< (any strict weak order) and each pop removes exactly one such element. Documented violation: the range constructor is wrong for other lengths, e.g. from {5,4,1} min() returns 4.", "quantifier": "every history and every initial range", "why_tests_cant": "the interval-heap invariant must survive every sift path and parity of the size", "anchors": ["include/mtl/double_ended_priority_queue.hpp"]}
{"id": "C27", "title": "Li Chao tree returns the best line at every registered abscissa", "statement": "For a Li Chao tree over n>=1 sorted points (indices, set_x or a range) with either comparator, any sequence of add_line, add_segment_idx, add_segment, get_idx and get: a query at a point returns the best (greatest for std::less, least for std::greater) value offered at that point by the lines and the segments covering it added so far, or the sentinel if there is none; get(x) answers at the first point not below x. Precondition: products and values at covered points fit the integer type, differ from the sentinel, and the constant term is not the sentinel. Documented violation: a line whose constant term equals the sentinel is silently ignored although its values are better.", "quantifier": "every sorted set of abscissae, every sequence of lines and segments", "why_tests_cant": "lines are swapped down history-dependent paths; dominated parts are discarded", "anchors": ["include/mtl/li_chao_tree.hpp"]}
{"id": "C28", "title": "z_algorithm computes the exact Z-array", "statement": "For every string s of positive length, z_algorithm returns an array z of length |s| in which z[i] is the length of the longest common prefix of s and its suffix at i (z[0]=|s|). Documented violation: on an empty range the first assignment z[0]=n is out of bounds.", "quantifier": "all strings over any alphabet", "why_tests_cant": "the amortised window reuse is only correct because of an invariant over the whole prefix", "anchors": ["include/mtl/string/z_algorithm.hpp"]}
{"id": "C29", "title": "Breadth-first search returns exact distances", "statement": "Graph::bfs(s, dist, INF), with INF at least the number of vertices and representable in the distance type, stores for every vertex the length of a shortest path from s, and INF exactly for unreachable vertices, and terminates without undefined behaviour, for every directed multigraph.", "quantifier": "every finite directed multigraph and start vertex", "why_tests_cant": "all graphs cannot be enumerated", "anchors": ["include/mtl/graph.hpp: bfs"]}
{"id": "C30", "title": "Topological sort succeeds exactly on acyclic graphs", "statement": "topological_sort returns an order containing every vertex exactly once in which each edge goes forward iff the graph has no directed cycle; otherwise it reports failure.", "quantifier": "every finite directed multigraph", "why_tests_cant": "both directions (soundness and completeness) quantify over all graphs", "anchors": ["include/mtl/graph.hpp: topological_sort"]}
{"id": "C31", "title": "Mo's algorithm evaluates every query at exactly its own window", "statement": "MoSolver::solve calls the report callback for every query exactly once, at a moment when the net effect of the push/pop callbacks issued so far is exactly the window [l,r) of that query, whatever implementation of std::sort and whatever visiting order is used, and no pop ever removes anything but an end of the current window. Documented violation: with two or more queries that all have r=0 the block size is zero and the comparison divides by zero.", "quantifier": "every list of queries with l<=r, every visiting order", "why_tests_cant": "visiting order depends on block size and all queries at once", "anchors": ["include/mtl/mo.hpp: Mo::solve"]}
{"id": "C32", "title": "Sieve gives the smallest prime factor of every number up to n", "statement": "EratosthenesSieve(n), for 2n+2 representable in int, terminates without overflow; the table entry of every 2<=i<=n is the smallest prime factor of i, primality read from it is exact, and Primes(n) is the increasing list of exactly the primes up to n. Documented violation: for larger n the index arithmetic i*2 / j+=i overflows.", "quantifier": "every n and i", "why_tests_cant": "n is unbounded", "anchors": ["include/mtl/dirichlet.hpp: EratosthenesSieve"]}
{"id": "C33", "title": "Dirichlet convolution is exact", "statement": "DirichletConvolution(a,b) with b at least as long as a returns a sequence as long as a whose entry k is the sum over i*j=k of a[i]*b[j], for every 1<=k<=n, for any coefficient type.", "quantifier": "every length and coefficient sequence", "why_tests_cant": "all sequences of all lengths", "anchors": ["include/mtl/dirichlet.hpp: DirichletConvolution"]}
{"id": "C34", "title": "Subset zeta and Moebius transforms are inverse and OR/AND convolutions are exact", "statement": "For a vector of length 2^n over any commutative ring, SubsetZetaInline gives the sum over subsets, SubsetMobius and SubsetMobiusInline invert it (in both orders), BitwiseOrConvolutionInline(A,B)[k]=sum_{i|j=k} A_i B_j, and BitwiseAndConvolution likewise with & for vectors of any lengths that are not both empty. Documented violation: on a length that is not a power of two the in-place transforms access memory past the end of the vector.", "quantifier": "every n, every vectors, every commutative ring", "why_tests_cant": "the cache-oblivious loop order interleaves all bits and differs from the textbook order", "anchors": ["include/mtl/bitwise_convolution.hpp:12-163"]}
{"id": "C35", "title": "Hadamard transform and XOR convolution are exact", "statement": "HadamardTransform of a vector of length 2^n is the sum signed by the parity of common bits, applied twice it multiplies by 2^n, and BitwiseXorConvolution(A,B)[k]=sum_{i^j=k} A_i B_j for types with pow/inv (when 2^n is invertible) and for integral types (without overflow). Documented violation: for every other type (float, double) the result is divided by 2^(n+1) instead of 2^n.", "quantifier": "every n, every vectors", "why_tests_cant": "same as C34", "anchors": ["include/mtl/bitwise_convolution.hpp:165-241"]}
{"id": "C36", "title": "Subset convolution is exact", "statement": "SubsetConvolution(A,B)[s] = sum over t subset of s of A_t B_{s\\t}, and SubsetConvolutionSquare(A) the same with B = A, for vectors of any lengths up to 2^n (not both empty) over any commutative ring, n at most the template limit LIM.", "quantifier": "every n up to the limit, every vectors", "why_tests_cant": "the ranked transform carries garbage in out-of-rank slots that must never leak into the result", "anchors": ["include/mtl/subset_convolution.hpp:10-176"]}
{"id": "C37", "title": "Matrix algebra is exact", "statement": "operator+, unary -, scalar and matrix product, transpose, == and pow agree with the mathematical definitions over any commutative (semi)ring, pow(k) being the k-fold product. The binary - and -= violate this for every input: a -= b drops a and yields -b.", "quantifier": "all dimensions, all entries, all exponents", "why_tests_cant": "unbounded dimensions and exponents", "anchors": ["include/mtl/matrix.hpp: Matrix"]}
{"id": "C38", "title": "Fraction arithmetic is exact rational arithmetic", "statement": "Fraction and FractionOrdering agree with the rational numbers: every result of construction, +, -, *, /, negation, inverse and comparison that is computed without 64-bit overflow is exact and keeps a positive denominator, * and / give lowest terms, and on 31-bit components nothing overflows. reduct and the mixed operations with a long long are exact and give lowest terms when the greatest common divisor is below 2^31. Violated above that: reduct stores the gcd in an int, so reducing 4294967299/12884901897 yields a different number and reducing 4294967296/12884901888 divides by zero.", "quantifier": "all numerators/denominators", "why_tests_cant": "overflow-free region and sign cases are unbounded", "anchors": ["include/mtl/fraction.hpp"]}
{"id": "C39", "title": "Convex hull trick deque returns the optimum of the added lines", "statement": "ConvexHullTrickDeque with std::less (std::greater): over any history of push_back with slopes beyond all present ones, push_front with slopes before all present ones, clear, get, get_incremental and get_decremental, every query returns the maximum (minimum) at x over all lines pushed since the last clear, provided the arguments respect the direction of earlier incremental and decremental queries; no assertion fails. A query on an empty deque is out of range.", "quantifier": "every sequence of lines with sorted slopes, every x", "why_tests_cant": "discarded lines must never be needed for any x", "anchors": ["include/mtl/convex_hull_trick.hpp: ConvexHullTrickDeque"]}
{"id": "C40", "title": "Treap behaves like a sorted set whatever the priorities; six violations", "statement": "For any history of insert, erase(key), erase(it), clear, split, absorb and erase(begin,end) on any number of treaps and for any priorities drawn: walking over a treap shows exactly the sorted keys (strictly sorted for a set) that a sorted list treated the same way has; insert, erase, find, count, upper_bound, predecessor, lower_bound of a set, ++, -- return what they return on that list, other treaps are untouched, and size() is right as long as split and erase(begin,end) are not used. Violations: insertion with a hint can break the order; sizes are wrong after split and erase(begin,end); erase(it,end()) returns begin(); for a multiset lower_bound need not give the first equal key, count is at most 1 and erase(begin,end) between equal keys fails an assertion.", "quantifier": "every history and every outcome of the priority generator", "why_tests_cant": "random priorities give exponentially many shapes", "anchors": ["include/mtl/treap.hpp:22-570 Treap"]}
{"id": "C41", "title": "Skiplist behaves like a sequence and SkiplistSet like a sorted set whatever the heights, except erase behind a lower element", "statement": "For any heights drawn up to 32, insert_at, erase_at and get_at on a Skiplist act like the list operations at that index (iterators returned included, out-of-range indices change nothing and give end()), size() counts the elements, and SkiplistSet's find, count, lower_bound, upper_bound, successor, predecessor and insert act like a sorted set. SkiplistSet::erase removes the value if it is absent, smallest, or its predecessor in the set is at least as tall; whenever the predecessor is lower, erase decrements size() but every value is still read from the set (documented violation). A draw of 0 gives height 64 and an out-of-range access (documented violation).", "quantifier": "every history and every outcome of the height generator", "why_tests_cant": "length counters on every level must stay consistent for all height patterns", "anchors": ["include/mtl/skiplist.hpp: Skiplist, SkiplistSet"]}
{"id": "C42", "title": "FibonacciHeap is a keyed priority queue", "statement": "After any sequence of push, update (which both keep the better of the old and the new priority of a live key), pop and erase of keys that are not on top, no assertion fails and no table index is out of range, top() is a key with the best priority among the live ones (and fails only if there is none), pop() removes that key, get(k) is the best priority given to k since it was last removed, size() the number of live keys, and popping everything lists the live pairs best first. Documented violation: erase of the key on top leaves top() failing although keys are live.", "quantifier": "every history", "why_tests_cant": "consolidation and cascading cuts depend on the entire history", "anchors": ["include/mtl/fibonacci_heap.hpp: FibonacciHeap"]}
{"id": "C43", "title": "SplayTreeList is a list with range products, reversals and updates", "statement": "Starting from an empty list or a range, any history of insert, erase, set, update(i,f), prod(l,r) with l<r, reverse(l,r) and update(l,r,f) with valid positions runs without failing assertion or null dereference and acts like the corresponding list operations for any monoid and operator monoid (prod returns the ordered product, elements and size read back are those of the list). An empty product prod(l,l) and a position other than 0 of an empty list dereference null.", "quantifier": "every history, every initial range, every monoid and operator monoid", "why_tests_cant": "lazy reversal and operators are pushed down at history dependent rotations", "anchors": ["include/mtl/splay_tree.hpp", "include/mtl/splay_tree_list.hpp"]}
{"id": "C44", "title": "Heavy-light decomposition answers LCA and path queries exactly", "statement": "After build on any tree with any root, in[] is a numbering of the vertices by 0..n-1 in which [in[v],out[v]) is the subtree of v and chains are consecutive, with at most log2(n) chain changes above any vertex; lca(a,b) is the lowest common ancestor; query is the ordered product over the unique simple path from u to v for any monoid, with or without the lca; update calls U on at most 2 log2(n)+1 ranges containing each position of the path once; after subtree_build and any subtree_point_add calls, subtree_sum(r) is the sum over the subtree of r for any commutative monoid.", "quantifier": "every finite tree, every root, every pair of vertices", "why_tests_cant": "all tree shapes", "anchors": ["include/mtl/hld.hpp:10-43", "include/mtl/hld.hpp:53-138", "include/mtl/hld.hpp:140-172"]}
{"id": "C45", "title": "Ford-Fulkerson and Dinic compute maximum flows; the limit is not respected", "statement": "flow(s,t,limit) of FordFulkerson and of Dinic terminates without overflow; the returned value and the residual capacities are those of a valid s-t flow, which is maximum and equal to the capacity of some cut when no limit is given or the result is below the limit. Documented violation: the result can exceed the limit (limit 1, one edge of capacity 5, result 5).", "quantifier": "every network with non-negative capacities (self-loops and parallel edges included), s <> t, some s-t cut within long long", "why_tests_cant": "all capacitated graphs", "anchors": ["include/mtl/max_flow.hpp"]}
{"id": "C46", "title": "AC machine reports exactly the registered keywords", "statement": "After any non-empty list of insertions and build, find_all reports in increasing order exactly the positions of the text where a registered keyword ends, and iterating from a reported position (as from find_suffix_keys) yields exactly the registered keywords ending there, with their values, longest first; an insertion registers its keyword iff the keyword is non-empty and not a prefix of a keyword inserted before, so all are registered when none is. Documented violation: a keyword inserted after one it is a prefix of is dropped and never reported; build with no keyword reads out of range.", "quantifier": "all keyword lists and insertion orders, all texts, all iteration orders of the hash maps", "why_tests_cant": "failure depends on the insertion order of prefix-related keys", "anchors": ["include/mtl/string/ac_machine.hpp: _insert_key"]}
{"id": "C47", "title": "IntVector stores fixed-width integers", "statement": "IntVector<ElementSize> (1..64 bits): after any history of push_back, and of set at indices behind which no element lives in the word where they start, the low ElementSize bits of get(i) are the value last written at i, and get(i) is exactly that value if i is such an index; back() is the last pushed value; with ElementSize = 64 every history is exact. Violated otherwise: set clears all bits of the word above the element and get does not mask, so after pushing 1, 2 (8 bits) get(0) is 513, and set(0,3) then destroys element 1.", "quantifier": "every width, every history", "why_tests_cant": "needs neighbouring elements in one word in a particular write order", "anchors": ["include/mtl/succinct/int_vector.hpp: IntVector"]}
{"id": "C48", "title": "SegmentTree2D query equals the product over the rectangle", "statement": "After any history of set calls, query over any rectangle returns the product of the entries inside it for any commutative monoid.", "quantifier": "every height and width, every history of set calls, every rectangle", "why_tests_cant": "two nested non-power-of-two bottom-up trees", "anchors": ["include/mtl/segment_tree_2d.hpp"]}
{"id": "C49", "title": "Mo's algorithm with rollback evaluates every query at exactly its own window", "statement": "MoSolver::solve_rollback reports every query exactly once, when the net effect of init, push, snapshot and rollback callbacks is exactly the window [l,r) of that query; its internal assertions never fail. Documented violation: when all right ends are zero (even for one query) it divides by zero.", "quantifier": "every list of queries with l<=r, every implementation of std::sort, every positive block size", "why_tests_cant": "the grouping into blocks depends on all queries at once and on unspecified sort order", "anchors": ["include/mtl/mo.hpp: MoSolver::solve_rollback", "include/mtl/mo.hpp: MoSolver::calc_mos_rollback_move"]}
{"id": "C50", "title": "Prime-by-prime Dirichlet convolution with a multiplicative sequence is exact", "statement": "DirichletMultinomialConvolution(a,b) returns the same coefficients as the plain Dirichlet convolution for every 1<=k<=n, whenever a is multiplicative, over any commutative semiring (a short b counts as zero padded). Documented violation: on an empty a the sieve is called with -1 and writes outside its table.", "quantifier": "every multiplicative sequence a, every b, every length (with 2n+2 an int)", "why_tests_cant": "the in-place update order per prime must be right for all lengths and all multiplicative functions", "anchors": ["include/mtl/dirichlet.hpp: DirichletMultinomialConvolution"]}
{"id": "C51", "title": "Matrix::det is the determinant", "statement": "Over any field, det(n) returns the determinant (cofactor expansion) of the leading n x n block, for singular blocks too.", "quantifier": "all dimensions, all entries of every field", "why_tests_cant": "unbounded dimensions, arbitrary fields, pivoting paths", "anchors": ["include/mtl/matrix.hpp: Matrix::det"]}
{"id": "C52", "title": "gaussian_elimination yields the reduced row echelon form", "statement": "gaussian_elimination(row,l,r,&p) leaves the first row rows in reduced row echelon form with respect to the first l columns, returns the number of pivots, stores the pivot columns in p, keeps the other rows, and preserves the kernel of the l+r columns; the kernel of the left part has a basis of l-rank vectors.", "quantifier": "all dimensions, all entries of every field", "why_tests_cant": "unbounded dimensions, arbitrary fields", "anchors": ["include/mtl/matrix.hpp: Matrix::gaussian_elimination"]}
{"id": "C53", "title": "Matrix::solve finds all solutions", "statement": "If the result matrix has room for the kernel basis (its R+1 rows suffice whenever column <= R), solve reports true exactly when the system is solvable; then row 0 is a solution and the next d rows, d being the first component, are a basis of the kernel, so the solutions are exactly row 0 plus the combinations of them. Violation: when the kernel has more than R dimensions (wide systems) the code writes past the result matrix.", "quantifier": "all dimensions, all entries of every field", "why_tests_cant": "unbounded dimensions, arbitrary fields", "anchors": ["include/mtl/matrix.hpp: Matrix::solve"]}
{"id": "C54", "title": "Matrix::inv is the inverse", "statement": "inv(n) reports true exactly when the leading n x n block has a left (equivalently right) inverse, and then returns the two-sided inverse.", "quantifier": "all dimensions, all entries of every field", "why_tests_cant": "unbounded dimensions, arbitrary fields", "anchors": ["include/mtl/matrix.hpp: Matrix::inv"]}
{"id": "C55", "title": "Matching finds a maximum bipartite matching", "statement": "After any calls of add_edge, flow() is the size of a maximum matching and matches() lists a matching of that size made of added edges.", "quantifier": "every bipartite graph, parallel edges included", "why_tests_cant": "all bipartite graphs; optimality over all matchings", "anchors": ["include/mtl/max_flow.hpp:133-158"]}
{"id": "C56", "title": "PSP::solve is the optimum of project selection; selections is not", "statement": "After any calls of add_profit and add_loss, solve() is the largest value of a selection: profits of the selected items minus the loss of each pair (a,b) with b selected and a not. Documented violation: selections() need not be an optimal selection (one project of profit 5: solve is 5, it is not selected).", "quantifier": "every sequence of operations whose positive profits sum to at most the largest long long", "why_tests_cant": "all instances; optimality over all selections", "anchors": ["include/mtl/max_flow.hpp:160-190"]}
{"id": "C57", "title": "scc() returns the strongly connected components in topological order", "statement": "After any calls of add_edge(a,b) on vertices of [0,n), scc() returns a list of non-empty lists in which every vertex of [0,n) occurs exactly once; two vertices are in the same list exactly when each is reachable from the other; every arc goes from a list to the same list or to a later one.", "quantifier": "every n and every sequence of arcs, loops and parallel arcs included", "why_tests_cant": "all graphs; a partition by mutual reachability, which is a statement over all walks", "anchors": ["include/mtl/scc.hpp:5-45"]}
{"id": "C58", "title": "dijkstra_search computes shortest distances", "statement": "For a Network with weights in [0,2^31) dijkstra_search(s,dist,INF) terminates without undefined behaviour, its assertion holds, dist has length n, dist[v] is the least weight of a walk from s to v for every v reachable from s and INF for every other v. Documented violation: Path stores the weight in an int, so with a 64-bit weight type and a weight of 2^32+5 the distance found is 5.", "quantifier": "every n, every sequence of add_edge/add_edge_dir calls, every source, every INF above the distances that fits T", "why_tests_cant": "all weighted graphs; optimality over all walks", "anchors": ["include/mtl/dijkstra.hpp:5-22", "include/mtl/graph.hpp:86-109"]}
{"id": "C59", "title": "euler_tour records a depth-first tour of the tree", "statement": "On a graph built by add_edge from the edges of a tree on [0,n), in any order and direction, euler_tour(root) terminates and tour is a closed walk along edges from root of length 2n-1, L[v] and R[v] are the first and the last position of v, the positions in [L[v],R[v]] are exactly the positions of the descendants of v, and between any two positions of a and b the least common ancestor of a and b is met and nothing but its descendants. What an earlier call left in tour, L, R does not matter.", "quantifier": "every tree, root, order and direction of edges, every earlier content of tour, L and R", "why_tests_cant": "all trees and all pairs of positions", "anchors": ["include/mtl/graph.hpp:66-84"]}
{"id": "C60", "title": "ReRootingGraph and ReRootingNetwork compute the value of every hanging subtree", "statement": "On a tree on [0,n), edges added in any order and direction, with a commutative monoid (merge, e), calc(root) terminates without undefined behaviour and for every vertex s and every entry g[s][i] with vertex t, dp[s][i] is the value of the part of the tree that hangs from t when the edge between s and t is removed, where the value of a tree with root v is G(merge of F(value of child, child, weight), v). Documented violation: for a merge that does not commute the order is not that of the adjacency lists (dfs2 merges the entries that follow from right to left).", "quantifier": "every tree, root, order and direction of edges, every F, G and commutative monoid, weights in the range of int, every earlier dp", "why_tests_cant": "all trees and all callbacks; compares with every rooting of the tree", "anchors": ["include/mtl/rerooting.hpp:5-52", "include/mtl/rerooting.hpp:54-103"]}
{"id": "C61", "title": "MinCostFlowGraph returns the cheapest flow up to a limit", "statement": "For edges with capacities that fit an int and costs in [0,K], s != t, and a cost type of w bits with n*K below its maximum and able to hold the cost of saturating all edges: flow(s,t,limit) terminates without overflow or undefined behaviour and returns (f, c) where f <= limit, c is the cost of a flow of value f that the residual network shows, no flow of value f is cheaper, and f is limit or the value of a maximum flow.", "quantifier": "every graph (loops and parallel edges included), costs and capacities, source, sink, limit", "why_tests_cant": "optimality quantifies over all flows; the heap, the potentials and the reverse arcs interact over an unbounded number of rounds", "anchors": ["include/mtl/min_cost_flow.hpp:14-74", "include/mtl/fibonacci_heap.hpp:74-120"]}
{"id": "C62", "title": "LinkCutTree answers path queries on a changing forest", "statement": "For any monoid and operator monoid satisfying the laws: after construction from values xs, every history of link(u,v) of unconnected vertices, cut(u,v) of present edges, prod(u,v), set(i,m), update(i,f) and update(u,v,f) of connected vertices runs without null dereference or out-of-bounds access and terminates; prod(u,v) returns the product, in order from u to v, of the current values along the unique simple path from u to v in the graph made by the links and cuts; path updates act on exactly the vertices of the path.", "quantifier": "every forest, history, monoid (commutative or not) and operator monoid", "why_tests_cant": "the splay trees change at every access; the lazy reversal, lazy action and path-parent links interact over unboundedly many operations", "anchors": ["include/mtl/link_cut_tree.hpp:9-43", "include/mtl/link_cut_tree.hpp:53-166", "include/mtl/splay_tree.hpp:13-160"]}
{"id": "C63", "title": "SegmentHld and LazySegmentHld are segment trees over the order of a heavy-light decomposition", "statement": "For every tree on [0,n), n >= 1, with its Hld built from edges in any order, and every monoid: the constructor's assertion holds and it terminates; after construction from at most n values, every history of set, get, query(l,r) and reverse_query(l,r) within [0,n) answers what the list of values answers, products taken in order (or reversed). With an operator monoid whose operator() is false only for operators that change nothing, LazySegmentHld does the same with update(l,r,f). Hld::query over it gives the ordered product along the path, and Hld::update makes updates that act exactly once on every vertex of the path and on no other.", "quantifier": "every tree, root, order of edges, monoid (commutative or not), operator monoid, history", "why_tests_cant": "the shape of the tree depends on the sizes of all subtrees; lazy operators, sibling propagation and reversed products interact over unbounded histories", "anchors": ["include/mtl/segment_hld.hpp:7-71", "include/mtl/segment_hld.hpp:73-152", "include/mtl/segment_hld.hpp:155-266"]}
{"id": "C64", "title": "Bitmap is a vector of bits", "statement": "A Bitmap made by Bitmap(n,bit) or from a range of bools, after any history of push_back, resize, assign, assignments =, |=, &= through references, set, range_set (up to 64 bits, across words) and pop_back or a shrinking resize that stays inside the last word, has the size, bits, range_get values (up to 64 bits) and iteration order of the list of bits that the same history makes, and no access is out of bounds. begin()+i moves under ++, --, += and (when it does not borrow from the word index) -= as the integer i does, and equals end() exactly at the size. Documented violations: pop_back or a shrinking resize keeps the words, so a later push_back or resize across a word boundary loses or revives bits; operator-= that borrows from the word index leaves a bit index outside [0,64) whose dereference is undefined.", "quantifier": "every history of operations, every size, every range of up to 64 bits", "why_tests_cant": "masks depend on the position modulo 64 and on both ends of a range; stale words show only after particular sequences of shrinking and growing", "anchors": ["include/mtl/succinct/bitmap.hpp:14-74", "include/mtl/succinct/bitmap.hpp:75-150", "include/mtl/succinct/bitmap.hpp:151-300"]}
{"id": "C65", "title": "Rank and select on bit vectors", "statement": "For every list of bits kept in words of W <= 64 bits (64 for Bitmap, 63 for Rrr) with zeros behind the end, BV::build succeeds, and afterwards rank1(i) for every i is the number of ones among the first i bits, rank0(i) for i <= size the number of zeros, and select<B>(k) the position of the kth B or the size if there is none; select64 finds the kth bit of a word for both values. A BitVector reached by any history of bitmap operations that does not fill with ones or pop gives these answers after build(); after every history rank1 and rank0 inside the vector are right. Documented violation: fills with ones leave ones behind the end which rank1(size()) counts, so BitVector(3,true) answers rank1(3) = 64.", "quantifier": "every list of bits, word width, index, history of the bitmap", "why_tests_cant": "seven 9-bit counts are compared by one subtraction with borrows, samples point to blocks; errors need particular counts at block borders in vectors of thousands of bits", "anchors": ["include/mtl/succinct/bv.hpp:42-71", "include/mtl/succinct/bv.hpp:73-110", "include/mtl/succinct/bv.hpp:111-175", "include/mtl/succinct/select.hpp:5-60", "include/mtl/succinct/bit_vector.hpp:12-90"]}
{"id": "C66", "title": "Queries of the wavelet matrix", "statement": "For every non-empty list of values of h bits (1 <= h <= 64; h from the greatest value or given by the template argument) the WaveletMatrix constructor succeeds and then: get returns the list; range_rank, rank and rank_3way return the exact numbers of elements equal to, less than and greater than any h-bit value in any range; range_freq (h < 64) the number of elements in [x,y); select and range_select the position of the i-th occurrence at or behind l, or size() if there is none; quantile the k-th element of the sorted range; top_k (k >= 1) k distinct values with their exact frequencies in nonincreasing order such that every value left out is not more frequent; sum the sum of the range; range_min_k, range_max_k and range_list_k the first k distinct values in order with their frequencies, range_list all values of [x,y). Documented violation: range_freq with h = 64 shifts 1ull by 64 whatever it is asked; a queried value of more than h bits is taken modulo 2^h; k = 0 returns every value; an empty range at the very end of a one-bit matrix yields a pair of frequency 0; an empty matrix divides by zero.", "quantifier": "every list of values, height, range, queried value, k and bounds", "why_tests_cant": "each query walks up to 64 levels of rank calls over a stable partition; off-by-one errors need particular bit patterns at level borders", "anchors": ["include/mtl/succinct/wavelet_matrix.hpp:24-69", "include/mtl/succinct/wavelet_matrix.hpp:111-138", "include/mtl/succinct/wavelet_matrix.hpp:140-178", "include/mtl/succinct/wavelet_matrix.hpp:180-254", "include/mtl/succinct/wavelet_matrix.hpp:256-343"]}
{"id": "C67", "title": "Primitive roots", "statement": "For every prime m < 2^31, primitive_root_constexpr(m) ends without int or long long overflow and without leaving its array of 20 divisors, and returns g with 0 < g < m that generates the multiplicative group: the powers g^0, ..., g^(m-2) are pairwise different modulo m and reach every nonzero residue. The five tabulated moduli are prime and the tabulated roots are generators.", "quantifier": "every prime below 2^31", "why_tests_cant": "there are about 10^8 primes; the search relies on every prime divisor of m-1 being found and on existence of a generator", "anchors": ["include/mtl/modular.hpp:291-304", "include/mtl/modular.hpp:306-340"]}
{"id": "C68", "title": "Number theoretic transform", "statement": "For every prime p < 2^31 and every vector f of Modular<p> whose length rounds up to 2^N with 2^N dividing p-1: ntt(f) has length 2^N and its entry k is the value of the polynomial f at w^k, where w is the inverse of g^((p-1)/2^N) for the generator g = primitive_root<p>; 2^N times entry k of intt(f) is the value at g^((p-1)/2^N * k); the *_convolution versions give the same values in bit-reversed order (and read them in that order); intt(ntt(f)) = ntt(intt(f)) = intt_convolution(ntt_convolution(f)) = f filled up with zeros to length 2^N. No long long product overflows and every index is in range. If 2^N does not divide p-1 the assertion fails.", "quantifier": "every prime modulus below 2^31 and every vector", "why_tests_cant": "radix-4 butterflies with twiddle tables, an odd or even number of levels, an in-place bit reversal; overflow needs particular residues of a modulus near 2^31", "anchors": ["include/mtl/ntt.hpp:9-11", "include/mtl/ntt.hpp:25-55", "include/mtl/ntt.hpp:57-153", "include/mtl/ntt.hpp:154-209"]}
{"id": "C69", "title": "Convolution of modular vectors", "statement": "For every prime p < 2^31 and nonempty vectors f, g of Modular<p> with n and m entries: convolution_naive (any modulus), convolution_ntt and convolution (n+m-2 <= 2^N with 2^N dividing p-1; convolution with min(n,m) <= 60 without this limit) return a vector whose entry k is sum_{i+j=k} f[i]g[j] mod p for every k, missing entries being zero; the length is n+m-1 for the schoolbook branch and when n+m-2 is a power of two, and otherwise the least power of two that is at least n+m-1 (zeros follow the product). convolution_large returns the same product for every length with n+m < 2^31 and every odd prime, with exactly n+m-1 entries when the length exceeds what one transform of the modulus supports. An empty operand gives the empty vector, except for convolution_ntt called directly. Past the supported length convolution fails the assertion of the transform. No access is out of range. Documented violations: convolution and convolution_ntt return more than n+m-1 entries in general; convolution_ntt with an empty operand can call back() on an empty vector.", "quantifier": "every prime below 2^31, every pair of vectors, every length", "why_tests_cant": "three size classes meet at powers of two and at 60 entries; blocks of convolution_large need millions of entries for the usual moduli", "anchors": ["include/mtl/convolution.hpp:7-23", "include/mtl/convolution.hpp:64-101", "include/mtl/convolution.hpp:117-135", "include/mtl/convolution.hpp:171-210"]}
{"id": "C70", "title": "Convolution for arbitrary moduli and for int", "statement": "convolution_garner: for every modulus M with 1 <= M < 2^31 and nonempty vectors of residues with n+m-2 <= 2^24, entry k of the result is sum_{i+j=k} f[i]g[j] mod M for every k (missing entries zero), with at least n+m-1 entries; no int or long long operation overflows although the mixed radix digit v1 can be negative; 754974721, 167772161, 469762049 and 998244353 are prime. convolution on int vectors with min(n,m) <= 60: the exact product, n+m-1 entries, if sum |a[i]||b[j]| stays below 2^31; with more entries and n+m-2 <= 2^23: the product modulo 998244353, in [0, 998244353), n+m-1 entries. Documented violation: the two branches for int disagree on negative and on large entries of the product (-1 with 60 entries, 998244352 with 61).", "quantifier": "every modulus below 2^31, every pair of vectors up to the stated lengths", "why_tests_cant": "the bound of the reconstruction is approached only by 8 million entries near 2^31; the sign of a digit depends on three residues", "anchors": ["include/mtl/convolution.hpp:7-23", "include/mtl/convolution.hpp:103-135", "include/mtl/convolution.hpp:137-169"]}
{"id": "C71", "title": "Power series: elementary operations and products", "statement": "For series of residues modulo p (1 <= p < 2^31): normalize returns the prefix without final zeros; pre(m) has m entries, the first m coefficients, zero padded; << m, <<= m and >> m move the coefficients by m with sizes n+m and max(n-m,0); == holds iff all coefficients agree, whatever the sizes; += and -= with a scalar or a series, *= and /= with a scalar, unary -, x - f and dot give exactly the coefficientwise results modulo p with sizes max(n,1), max(n,m), n, n, max(n,1), min(n,m); count_terms(n) is the number of non-zero coefficients below n and term_ties lists them in increasing order. For prime p: diff has n-1 entries (k+1) f[k+1]; inte has n+1 entries (0 for the empty series), constant term 0, and diff(inte f) = f for every table of inverses that ModularUtil can have. f *= r (distinct objects) has coefficient k equal to sum f[i] r[k-i] mod p for every k, if r has fewer than 100 non-zero terms (then with n + deg r entries, none if r = 0) or f is not empty and p-1 is divisible by a power of two of at least n+m-1. SparseFps: to_fps lists the coefficients with deg entries; the product with a series is the convolution with deg-1+m entries.", "quantifier": "every prime p < 2^31 (every modulus for the coefficientwise operations), all series, shifts, scalars and table states", "why_tests_cant": "Series lengths, coefficient values, exponents and table states are unbounded; a test fixes a few of them and cannot tell a wrong coefficient at a length that was not tried from a right one.", "anchors": ["include/mtl/fps.hpp:24-148", "include/mtl/fps.hpp:189-234", "include/mtl/sparse_fps.hpp:36-74", "include/mtl/sparse_fps.hpp:161-173"]}
{"id": "C72", "title": "Power series: inverse and division", "statement": "For a series f with non-zero constant term over a prime p < 2^31 and n >= -1 (default: size of f), inv_sparse(n) always, inv_dense(n) if transforms of 2n entries exist modulo p, and inv(n) if one of these holds for the method it selects (fewer than 100 non-zero terms below n: sparse), return exactly n coefficients R with f R = 1 modulo x^n; R is the only such series. f / r (f not empty, r[0] != 0, transforms long enough) equals f times the inverse of r with as many terms as r, so r R = f modulo x^size(r). SparseFps: inv(n) and the division of a series g give f R = 1 modulo x^n and f R = g modulo x^(size g + deg - 1), the quotient having that many entries if g is not zero. Documented violation: f % r is f - (f / r) r with this power series quotient, not the remainder: {1} % {1,1} is x^2.", "quantifier": "every prime p < 2^31, all series and sparse series, every number of terms for which the transforms exist", "why_tests_cant": "Series lengths, coefficient values, exponents and table states are unbounded; a test fixes a few of them and cannot tell a wrong coefficient at a length that was not tried from a right one.", "anchors": ["include/mtl/fps.hpp:149-187", "include/mtl/fps.hpp:349-371", "include/mtl/sparse_fps.hpp:174-218"]}
{"id": "C73", "title": "Power series: logarithm and exponential", "statement": "Over a prime p < 2^31, for every table of inverses ModularUtil can have: for f[0] = 1 and 1 <= n < p, log(n) and log_dense(n) (transforms of size(f)+n and 2n entries exist) and log_sparse(n) (2 <= n <= size of f, every prime) return n coefficients L with L[0] = 0 and L' f = f' up to x^n; for h[0] = 0 and n < p, exp_sparse(n) always, exp_dense(n) if transforms of n entries exist, exp(n) for fewer than 100 non-zero terms or if transforms exist, and SparseFps::exp(n) return R with R[0] = 1 and R' = h' R up to x^n, with n entries (the empty series gives one entry except in exp_dense). Both are determined by these equations; exp(log f) = f and log(exp h) = h as vectors; exp(f+g) = exp f exp g up to x^n. Documented violation: log_sparse(n) pads with zeros instead of computing when n exceeds the size (f = {1,1}, n = 4), and log_sparse(1) fails the assertion of the division.", "quantifier": "every prime p < 2^31, all series, every number of terms below p for which the transforms exist, all table states", "why_tests_cant": "Series lengths, coefficient values, exponents and table states are unbounded; a test fixes a few of them and cannot tell a wrong coefficient at a length that was not tried from a right one.", "anchors": ["include/mtl/fps.hpp:235-266", "include/mtl/fps/exp.hpp:10-121"]}
{"id": "C74", "title": "Power series: powers and square roots", "statement": "Over a prime p < 2^31 with size(f) < p, for every table of inverses ModularUtil can have: pow(n), 0 <= n < 2^63, returns f^n modulo p up to x^size(f) for every f (also with zero constant term), if size(f) < 100 or transforms of 2 size(f) entries exist; for f[0] = 1 and n < 0 it returns size(f) coefficients R with f^|n| R = 1 modulo x^size(f). For p odd, sqrt, sqrt_dense and sqrt_sparse return R with R^2 = f modulo x^size(f), or throw exactly if no series has this property; is_square tells which. SparseFps::pow(n, deg), 0 <= n < 2^63, 1 <= deg <= p, of a sparse series without stored zeros returns f^n up to x^deg. Documented violation: pow with a negative exponent fails an assertion for an invertible f whose constant term is not 1.", "quantifier": "every prime p < 2^31, all series shorter than p, all exponents, all table states", "why_tests_cant": "Series lengths, coefficient values, exponents and table states are unbounded; a test fixes a few of them and cannot tell a wrong coefficient at a length that was not tried from a right one.", "anchors": ["include/mtl/fps/pow.hpp:4-105", "include/mtl/fps.hpp:270-347"]}
{"id": "C75", "title": "TY keeps exactly the sequences whose values stay within max_diff of their block head", "statement": "For every width W of the value type, signed or not, and every DiffType: pushing a sequence into a TY satisfies its assertions if and only if, cut into blocks of W values, every value is at least the first value of its block and exceeds it by at most max_diff (after the cast to the value type); then size, get(i), front and back return the pushed values. The range constructor additionally requires a sorted range. Documented violation: bounding the differences of consecutive elements, as the class comment says, is not enough (for all types there are three sorted values with differences at most max_diff that fail).", "quantifier": "All sequences of values, all widths, signed and unsigned value types, all DiffType maxima", "why_tests_cant": "The condition depends on the position of every value in its block and on casts between types; tests sample a few sequences and types.", "anchors": ["include/mtl/succinct/ty.hpp:14-76"]}
{"id": "C76", "title": "BinarySet over a Bitmap answers rank, get, contains and bounds about the inserted set", "statement": "After any history of insert and build on BinarySet<Bitmap> that ends with build: size is the number of different inserted values, rank(x) counts those below x, get(i) is the value of rank i (the greatest value plus one if there is none), and contains, lower_bound and upper_bound answer for the set as long as the argument lies in a word of the bitmap. Documented violation: for arguments from the next multiple of 64 after the greatest value on, contains, lower_bound (and upper_bound of the value before) read outside the bitmap, for every set.", "quantifier": "All histories of insert and build, all values below 2^32 - 1, all query arguments", "why_tests_cant": "Out-of-range reads at word boundaries do not show in the result; select/rank directories depend on the distribution of all bits.", "anchors": ["include/mtl/succinct/binary_set.hpp:9-69", "include/mtl/succinct/bitmap.hpp:98-102", "include/mtl/succinct/traits.hpp:10-12"]}
{"id": "C77", "title": "BinaryMultiset over a Bitmap answers rank, get, count and bounds about the inserted multiset", "statement": "After any insertions into BinaryMultiset<Bitmap>, in any order, and one build: size is the number of insertions, rank(x) counts the values below x, get(i) is the ith value in sorted order, count and contains are right for every x not above the greatest value, lower_bound(x) and upper_bound(x) are the least value not below x and above x, or the greatest value if there is none. Documented violations: for x above the greatest value contains(x) is true and count(x) is 2^64-1, for every nonempty multiset; inserting after build and building again corrupts the multiset.", "quantifier": "All sequences of inserted values below 2^32 - 1, all query arguments", "why_tests_cant": "The unary code and its select queries depend on all values and their order; the wrong answers above the maximum are silent.", "anchors": ["include/mtl/succinct/binary_set.hpp:71-145"]}
{"id": "C78", "title": "SpsExp is the sum over set partitions", "statement": "For a set power series A with A_0 = 0 and 2^n coefficients, SpsExp(n, A) returns 2^n values and the value at each set s is the sum, over all partitions of s into nonempty disjoint blocks, of the product of A over the blocks. This is the exponential: k! times the sum restricted to the partitions in k blocks is the coefficient of s in A^k for the subset convolution.", "quantifier": "all commutative rings, all n <= LIM, all A of length 2^n with A_0 = 0, all sets s < 2^n, all k", "why_tests_cant": "The number of partitions grows as the Bell numbers, tests only compare a few small n; an error in the merge of the ranked transforms for high ranks needs specific n and coefficients.", "anchors": ["include/mtl/sps.hpp:9-46", "include/mtl/sps.hpp:144-189"]}
{"id": "C79", "title": "SpsCompositionEgf composes an exponential generating function", "statement": "For A_0 = 0, A with at least 2^n coefficients and F with more than n coefficients (or at most one), SpsCompositionEgf(n, F, A) returns 2^n values and the value at s is the sum over the partitions of s of F_k times the product of A over the blocks, k the number of blocks. Documented violation: with 2 <= F.size() <= n the rows are not merged before the last products and the result is wrong (n = 2, F = {0, 1}, A = {0, 1, 2, 3} gives 0 instead of 3 at index 3).", "quantifier": "all commutative rings, all n <= LIM + 1, all F and A with those sizes, all s < 2^n", "why_tests_cant": "Wrong only for particular relations between F.size() and n; the merged rows are correct for all n only by an algebraic invariant on ranked transforms.", "anchors": ["include/mtl/sps.hpp:48-107"]}
{"id": "C80", "title": "SpsCompositionPoly evaluates a polynomial at a set power series", "statement": "If A_0 != 0 and F has more than n coefficients (or exactly one), SpsCompositionPoly(n, F, A) returns, at every s < 2^n, sum_i F_i (A^i)_s where powers are for the subset convolution; A may have any size. Documented violation: if A_0 = 0 the coefficients F are passed unchanged to SpsCompositionEgf, so that the result at s is the sum over the partitions of F_k times the product over the blocks, without the factors k!; e.g. F = x^2, A = {0, 1, 1, 0} gives 1 instead of 2 at index 3.", "quantifier": "all commutative rings, all n <= LIM + 1, all nonempty A, all F of those sizes, all s < 2^n", "why_tests_cant": "Needs the identity of Taylor shift and partition sums for all degrees; the early return for A_0 = 0 is a special case tests with random A do not reach.", "anchors": ["include/mtl/sps.hpp:109-142", "include/mtl/sps.hpp:48-107"]}
{"id": "C81", "title": "SpsLog is the inverse of SpsExp", "statement": "For s with constant term 1, SpsLog(n, s) returns L with 2^n values, L_0 = 0, whose exponential (the sum over partitions of the product over blocks) is s at every set below 2^n; L is the only series without constant term with this property.", "quantifier": "all commutative rings, all n <= LIM, all s of any size with s_0 = 1", "why_tests_cant": "Round trips on a few inputs do not show that the coefficients (-1)^(k-1) (k-1)! are right for every n.", "anchors": ["include/mtl/sps.hpp:191-212"]}
{"id": "C82", "title": "SpsInv is the inverse for the subset convolution", "statement": "For s with constant term 1 and at most 2^n coefficients, SpsInv(n, s) returns 2^n values R with R * s = 1 for the subset convolution. Documented violation: the constant term is not checked and with s_0 != 1 the result is not an inverse (s = {2, 0} gives {1, 0}).", "quantifier": "all commutative rings, all n <= LIM, all such s, all sets t < 2^n", "why_tests_cant": "The rowwise inversion leaves values in slots above the popcount that the Moebius transform must cancel for every n.", "anchors": ["include/mtl/sps.hpp:336-352"]}
{"id": "C83", "title": "TransposedSubsetConvolution sums over supersets", "statement": "If x has 2^n values and s at most 2^n, TransposedSubsetConvolution(s, x) returns y with y_u = sum over the supersets j of u of x_j s_(j minus u); equivalently the scalar product of y with any f is the scalar product of x with s * f. Documented violation: an x shorter than the padded length is reversed before it is padded, and the result is shifted (s = {1, 0}, x = {5} gives {0, 5} instead of {5, 0}).", "quantifier": "all commutative rings, all n <= LIM, all s, x, f of those sizes, all u < 2^n", "why_tests_cant": "A transposition principle is an identity for all vectors; a test checks finitely many.", "anchors": ["include/mtl/sps.hpp:232-248"]}
{"id": "C84", "title": "TransposedSpsCompositionEgf is the power projection", "statement": "For s with 2^n values and s_0 = 0 and x with at least 2^n values, TransposedSpsCompositionEgf(s, x) returns n + 1 values y_k = sum_v x_v [v] s^k/k!, where [v] s^k/k! is the sum over the partitions of v in k blocks of the product of s over the blocks; equivalently sum_k F_k y_k = sum_v x_v (F o s)_v for every F.", "quantifier": "all commutative rings, all n <= LIM, all s, x of those sizes, all k <= n, all F", "why_tests_cant": "The folding of the blocks is right for all n and k only by an adjointness invariant.", "anchors": ["include/mtl/sps.hpp:250-303"]}
{"id": "C85", "title": "rmq64 finds the first minimum of the excess of a word", "statement": "rmq64(mask) returns the pair of the smallest position p (0..63, lowest bit first) at which (number of ones) - (number of zeros) among the bits 0..p is minimal, and that minimal value.", "quantifier": "all 64-bit words", "why_tests_cant": "2^64 words; the packed byte sums must not carry or borrow for any of them.", "anchors": ["include/mtl/range_minimum_query.hpp:20-46", "include/mtl/range_minimum_query.hpp:56-86"]}
{"id": "C86", "title": "DecaltTree is the Cartesian tree, and its parentheses", "statement": "DecaltTree(begin, end) builds nodes whose p, l, r links form one binary tree with inorder 0, 1, ..., n-1 in which every node is smaller than all nodes of its left subtree and not larger than any node of its right subtree; traverse_right_path_to_children with the callbacks of LcaToRmq writes the balanced parentheses of that tree (2(n+1) bits, a zero for node i as the i-th zero).", "quantifier": "all strict weak orders, all sequences (also empty), all trees", "why_tests_cant": "Every insertion relinks a part of the right spine of unbounded length.", "anchors": ["include/mtl/range_minimum_query.hpp:88-132", "include/mtl/range_minimum_query.hpp:135-165", "include/mtl/range_minimum_query.hpp:252-274"]}
{"id": "C87", "title": "Rmq returns the first position of the minimum", "statement": "For every nonempty sequence and every RecursionHeight, the construction of RmqToLca succeeds and rmq(l, r) for l < r <= n returns the smallest index k in [l, r) such that no element of [l, r) is smaller than the k-th; rmq throws (has no result) for l >= r. Documented violation: the construction from an empty sequence is undefined, and LcaToRmq::lca(x, y) with x > y exchanges the positions but not the arguments: on the tree of [1, 2], lca(0, 1) = 0 and lca(1, 0) = 1.", "quantifier": "all strict weak orders, all nonempty sequences, all heights, all ranges", "why_tests_cant": "Three levels of recursion, blocks of 64 bits and all positions of both ends within their blocks; ties.", "anchors": ["include/mtl/range_minimum_query.hpp:172-249", "include/mtl/range_minimum_query.hpp:242-392"]}
{"id": "C88", "title": "Wavelet tree: construction, access, rank and select", "statement": "WaveletTree built over a list of 64-bit values that are not all 0 succeeds, its height is the number of bits of the greatest value, get(i) returns the i-th value, rank(c,i), rank_lower(c,i) and rank_3way(c,i) count the values equal to, smaller than and greater than c among the first i, and select(c,i) is the position of the i-th c or n when there is none, for every c not greater than the greatest value and whatever the scratch array held. A c with more bits is taken modulo 2^h. Documented violations: on a list of zeros (or an empty one) the constructor writes outside of an empty bit vector; rank of a value with more bits than the greatest one counts another value.", "quantifier": "all lists of 64-bit values, all prefixes, all queried values, all occurrence indices", "why_tests_cant": "The boundaries of the nodes depend on which children are empty on every level; tests see few shapes and rarely a list of zeros or a query above the greatest value.", "anchors": ["include/mtl/succinct/wavelet_tree.hpp:17-66", "include/mtl/succinct/wavelet_tree.hpp:75-190"]}
{"id": "C89", "title": "Wavelet tree: enumerate and child", "statement": "enumerate(l,r) of a WaveletTree lists the distinct values of the range in ascending order, each with how often it occurs in the range. Walking from the root (0,n) with child along any bits reaches a range whose length is the number of values with these upper bits and which starts, inside its level, behind the values with smaller upper bits.", "quantifier": "all lists of 64-bit values not all 0, all ranges l <= r <= n, all bit paths not longer than the height", "why_tests_cant": "The recursion passes four positions per level through rank differences; a shifted node boundary shows only for particular distributions of the values over the nodes.", "anchors": ["include/mtl/succinct/wavelet_tree.hpp:68-73", "include/mtl/succinct/wavelet_tree.hpp:193-215"]}
{"id": "C90", "title": "Orthogonal range search: counting", "statement": "After add of any points and build, ORS::freq(xl,xh,yl,yh) is the number of added points (with repetition) with xl <= x < xh and yl <= y < yh; the traversal behind sum cuts the rectangle into ranges whose lengths add up to that number, whenever it ends without an undefined operation. Documented violations: enumerate never reports a point, although freq is positive (points are reported only at leaves that are neither inside nor outside, and there are none); on no points sum and enumerate divide by zero, and with all points at one ordinate they shift by a negative number.", "quantifier": "all lists of fewer than 2^31 points with 32-bit coordinates, all rectangles with xl <= xh and 32-bit bounds", "why_tests_cant": "Coordinates are compressed through two succinct sets and counted in a wavelet matrix; wrong handling of equal coordinates or absent bounds shows only for particular point sets, and the violations depend on the distribution of the ordinates.", "anchors": ["include/mtl/ordinal_range_search.hpp:32-92", "include/mtl/ordinal_range_search.hpp:130-191", "include/mtl/ordinal_range_search.hpp:226-261"]}
{"id": "C91", "title": "Orthogonal range search: sums of weights", "statement": "build of ORS with weights calls add only on indices below the argument of resize, and with that array behind range_sum, sum(xl,xh,yl,yh) is the total weight of the points in the rectangle whenever the traversal ends without an undefined operation, whichever order std::sort chooses for equal points. Documented violation: the traversal can shift by a negative number, for instance when all points share one ordinate.", "quantifier": "all lists of fewer than 2^31 weighted points with 32-bit coordinates, all orders allowed by the comparison, all rectangles with xl <= xh and 32-bit bounds, integer weights", "why_tests_cant": "The weights are permuted level by level in step with the wavelet matrix; one misplaced weight changes only rectangles whose decomposition touches its position.", "anchors": ["include/mtl/ordinal_range_search.hpp:93-128", "include/mtl/ordinal_range_search.hpp:132-180", "include/mtl/ordinal_range_search.hpp:226-242"]}
{"id": "C92", "title": "Bit vector with a Fenwick tree: set, rank and select", "statement": "A Bitmap (mtl/bitmap.hpp) built over a sequence of bits, or of zeros, and changed by any calls of set answers get(i) with the present bit, rank(i) with the number of ones before i, and select(n) with the position of the one number n (from 0). Documented violations: a Bitmap constructed with init_b = true does not count its ones (rank counts only inside the last word, select finds nothing); rank(size) reads behind the words when the size is a positive multiple of 64; select(n) with n not below the number of ones reads behind the words.", "quantifier": "all sequences of fewer than 2^31 bits, all histories of set inside them, all i <= size (i = size only when not a positive multiple of 64), all n below the number of ones", "why_tests_cant": "The counts per word, the words and the byte table must agree after every history; a wrong difference in set or a wrong turn of the byte search shows only for particular contents of a word.", "anchors": ["include/mtl/bitmap.hpp:22-33", "include/mtl/bitmap.hpp:36-61", "include/mtl/bitmap.hpp:64-91"]}
{"id": "C93", "title": "The fast Fourier transform is the discrete Fourier transform, and ifft undoes it", "statement": "With complex arithmetic taken as exact: Fft(size) uses the least power of two n that is not below size; fft(f) returns n values, the ith being the sum over j < n of f[j] * w^(i*j), where w is the primitive nth root of unity exp(-2 pi i/n) and f is cut or filled with zeros to n values; ifft(fft(f)) is f cut or filled with zeros to n values. No index is out of range.", "quantifier": "every size, every vector of any length, every ring with roots of unity of order 2^s (s <= K), each the square of the next, and their inverses", "why_tests_cant": "The bit reversal and the log n stages are correct only together and for all n; tests check a few sizes within a rounding tolerance.", "anchors": ["include/mtl/fft.hpp:13-17", "include/mtl/fft.hpp:25-30", "include/mtl/fft.hpp:36-41", "include/mtl/fft.hpp:44-65", "include/mtl/fft.hpp:67-75"]}
{"id": "C94", "title": "convolution_fft with the floating transform", "statement": "With complex arithmetic taken as exact: for non-empty f and g of sizes n and m with n+m-2 not a power of two, convolution_fft(f, g) returns n+m-1 values, the lth being the real part of the sum of f[j]*g[l-j]. Documented violation: when n+m-2 is a power of two the shortcut for that length pops the last elements and then still loops i < n over f, so f[n-1] is read past the end, for every f and g. (The template calls convolution before its declaration, so it can be instantiated only where a convolution for complex vectors is declared before the header.)", "quantifier": "all non-empty vectors with n+m-1 <= 2^30, every ring with the roots of unity", "why_tests_cant": "The read past the end of the vector usually finds the old element still in memory, and its effect is to add the product of the last elements twice more only for particular lengths.", "anchors": ["include/mtl/convolution.hpp:25-62"]}
{"id": "C95", "title": "ArbitraryModBinomial: is_coprime, and no query is ever answered", "statement": "math::is_coprime(a, b), for arguments that are not negative, is true exactly when 1 is the only common divisor of a and b. Documented violation: ArbitraryModBinomial(n, M) never answers a query: when n and M are coprime the constructor leaves defined behaviour (at the latest its last step writes st_[(n+1)/2], one past the end of st_), and when they are not, operator() fails its assertion for every m.", "quantifier": "all a, b, n, M >= 0 and all m", "why_tests_cant": "A write one past the end of a vector often goes unnoticed; that it happens for every coprime n and M is a statement about all inputs.", "anchors": ["include/mtl/arbitrary_mod_binomial.hpp:9-19", "include/mtl/arbitrary_mod_binomial.hpp:39-102", "include/mtl/arbitrary_mod_binomial.hpp:103-113", "include/mtl/arbitrary_mod_binomial.hpp:114-119"]}
