# Formal model of matsutaku-library — design

## Trusted base

* Coq 8.16.1's kernel (and the `vm_compute` machine used in concrete examples).
* What `Print Assumptions` prints under each property theorem. The target is
  "Closed under the global context" everywhere; exceptions are listed in the
  section "Assumptions" below.
* The hand translation from C++ to Gallina in the `*Model.v` files. Every
  definition cites the lines of `/repo/include/mtl` that it mirrors.
* Nothing was compiled or executed: the C++ source was read as text.

## Modelling conventions

* A C++ function becomes a total Gallina function into `option`. `None` means
  undefined behaviour (out-of-range access, division by zero, failed
  dereference, …) or exhausted loop fuel. A property theorem always shows
  `… = Some v`, so absence of UB and termination are part of each statement.
* `std::vector<T>` is `list T`; reads are `nth_error`, writes fail out of range.
* Sizes and indices are `nat`. Index arithmetic in the C++ is `int`/`size_t`;
  the model has no 2^31 wrap-around on *indices* (assumption: sizes are far
  below 2^30). Values whose machine width matters (bit tricks, Modular,
  BoundInt, Fraction, …) are `Z`/`N` with explicit wrap-around.
* A template parameter with algebraic requirements (Monoid, Operator…) is a
  record of operations plus the laws as explicit hypotheses of the theorems
  (records inhabited in the examples, never axioms).
* Randomness is an arbitrary stream/list of bits quantified in the theorem.
* Loops are structural recursion when the C++ bound is syntactic and fuelled
  recursion otherwise; fuel exhaustion is `None`, so it is excluded by the
  theorem's conclusion.
* Where the code violates a property, the model is kept faithful, and the
  violation is a theorem named `…_refuted` with a concrete witness, together
  with the strongest positive statement we can prove.

## File layout

`theories/Base.v` option monad and arrays. For module M: `MModel.v`
(definitions only), `MProof.v` (lemmas), `MProp.v` (property theorems,
non-vacuity examples and `Print Assumptions` only).

## Assumptions

`Print Assumptions` under every property theorem prints "Closed under the global
context". No axiom of any library is used by a property theorem. The seven
constants `Coq.ssr.ssrunder.Under_rel.*` that a whole-library scan (`coqchk -o`)
lists are module parameters of Coq's own ssreflect plugin files, loaded through
standard-library imports (`Lia`, `ssreflect`); no theorem here depends on them.

## What is modelled, property by property

For each property: the part of the code in the model, how the proof goes, and
what is simplified or left out. Everything not named here is not modelled.

### Arrays and range queries

* **C01** `segment_tree.hpp` both constructors, `get`, `set`, `query`. Invariant:
  every inner node is the product of its children; a query keeps the product of
  the two accumulators and the open range. Iterators and `operator[]` proxies are
  left out. Sizes below 2^61 (`bit_ceil`).
* **C02** `max_right`, `min_left` with a predicate object. Invariant over aligned
  blocks. The overload `min_left<F>(begin,end)` does not compile and is left out.
* **C03, C04** `fenwick_tree.hpp`. A node is the sum over its lowbit range;
  `lower_bound` is binary lifting.
* **C05** `unionfind.hpp`. Histories of `unite`; refinement to the equivalence
  closure. The operands of `unite` are evaluated in either order.
* **C06, C07** `lazy_segment_tree.hpp` constructors, `update`, `query`, `get`,
  `set`. A node's abstract value under its pending operators refines to an array.
  `set` (79-89) pushes nothing down from its ancestors before writing: refuted.
  `max_right/min_left` of this tree rely on a call inside `assert`; left out.
* **C08** `dual_segment_tree.hpp` `update`, `get`, `set`, `propagate`. The
  iterator and `max_right/min_left` (do not compile) are left out.
* **C09–C11** `sparse_table.hpp`, `disjoint_sparse_table.hpp`,
  `dual_sparse_table.hpp`. Row invariants.
* **C22** `segment_tree_divide_and_conquer.hpp`. The callbacks are a trace; the
  theorem replays the trace on a stack.
* **C27** `li_chao_tree.hpp`. Signed `w`-bit values, `w >= 32`, overflow is `None`.
  `n = 0` is excluded (infinite recursion in the code). The sentinel line makes
  the claim false for values below it: refuted.
* **C31, C49** `mo.hpp` with and without rollback. Events are a trace;
  `std::sort` is any function meeting the standard's contract for the comparison;
  the floating-point block size is abstracted to "zero iff `n` is zero".

* **C48** `segment_tree_2d.hpp`, whole class, on top of the SegmentTree model; a
  simulation shows that every column is a one-dimensional tree. Commutativity is shown
  to be needed.

### Persistent structures

* **C12** `persistent_stack.hpp`, **C13** `persistent_queue.hpp`: heap models with
  explicit cells; nothing is freed (`shared_ptr` keeps what is reachable).
* **C14** `persistent_array.hpp`, **C15** `persistent_unionfind.hpp`: immutable trees.
* **C16** `skewbinary_list.hpp`: immutable trees. `dropped`/`extended` are wrong in
  two documented cases: refuted.

### Numbers

* **C17** `compress_int.hpp`: `std::sort`/`unique`/`lower_bound` by contract,
  `unordered_map` as an association list.
* **C18** `bit_manip.hpp`, portable path, exact 64-bit words in `Z`. Facts on bytes
  are checked on all 256 bytes and lifted to words by proof.
* **C19** `search.hpp` `bisect_int`, machine width explicit. `FibonacciSearch` does
  not compile and is left out.
* **C20** `boundint.hpp`: all operators but the shifts.
* **C21** `enumerate.hpp`: the operands of `*` are evaluated in either order.
* **C23, C24** `modular.hpp`: 64-bit intermediate words; `sqrt` with Fermat's little
  theorem proved in `NumTheory.v`.
* **C32, C33, C50** `dirichlet.hpp`: sieve, `DirichletConvolve` and the
  multiplicative extension. `w`-bit `int`. The hyperbola-method functions
  (`DirichletConvolveOptimal`, `…Zeta`, floating-point exponents) are left out.

* **C38** `fraction.hpp`: `long long` overflow is `None`. Meaning in `Q`. `reduct` and
  the mixed operations keep the gcd in an `int`: refuted from 2^31 on, exact below.
  `get<T>` and the C++20 `operator==(long long, f)` are left out.
* **C39** `convex_hull_trick.hpp` `ConvexHullTrickDeque`: unbounded coefficients, both
  comparators (`rev`), `int` indices of width `w`. The deque is a list. The class
  `ConvexHullTrick` (two maps) is not modelled.

* **C46** `string/ac_machine.hpp` `AcMachine`: hash maps are association lists whose
  iteration order is an arbitrary permutation; `-1` is `None`; node indices do not
  overflow. The trie invariant ties nodes to strings, the failure link of a node is
  proved to be the longest proper suffix in the trie (breadth-first invariant). The
  keyword that is a prefix of an earlier one is dropped (refuted). Insertions after
  `build` and `DynamicAcMachine` are not modelled.
* **C47** `succinct/int_vector.hpp`: words as integers below 2^64, bit-level effect of
  `set` and `get`. The general claim is refuted. `container_size`, `front`, `clear` are
  left out.

### Heaps, strings, graphs

* **C25** `meldable_heap.hpp`: pointer model, parent links omitted (not read by the
  modelled functions), coin flips universally quantified.
* **C26** `double_ended_priority_queue.hpp`: the range constructor is wrong when
  `n mod 4 = 3`: refuted.
* **C28** `z_algorithm.hpp`: `n = 0` writes out of range: refuted.
* **C29, C30** `graph.hpp` `bfs` and `topological_sort`; `w`-bit distances.
* **C57** `scc.hpp`, whole class. Both searches are fuelled recursions over the adjacency
  lists; vertex numbers do not overflow an `int`. Proof: finished vertices and grey path of
  the first search; every vertex reachable from a finished one is finished or leads back to
  the path; each search on the reversed arcs then collects exactly one component.
* **C58** `graph.hpp` `Network` and `dijkstra.hpp`, on top of the FibonacciHeap model
  (C42). Distances are signed `w`-bit integers whose overflow is `None`; the sum `d+e.w` is
  computed in that type (for a `T` narrower than `int` C++ would promote). Settled vertices
  and a frontier separated by a bound. `Path` keeps the weight in an `int`: refuted for
  wider weights. Weights that are not negative are assumed.
* **C59** `graph.hpp` `euler_tour`. Trees as in C44. The adjacency lists fix an order of the
  children (`TreeGraph.v`); the tour is then a structural recursion, positions and least
  common ancestors follow from its block structure.
* **C60** `rerooting.hpp`, both classes, written once for the two kinds of adjacency
  entries. `dfs2` carries the tree above the current vertex as a ghost argument; moving the
  root along an edge keeps the set of edges. Any rooted tree with the same edges has the same
  values (uniqueness), so the theorem speaks about every rooting. Commutativity is shown to
  be needed. Weights fit an `int`.
* **C61** `min_cost_flow.hpp`, all of it, on the Fibonacci heap model (C42) and the residual
  networks of C45 with a cost beside each arc. `int` and the cost type are range-checked.
  `flow` is modelled on a fresh object (`prevv`, `preve` zero); costs are not negative, which is
  what makes `n + 1` rounds of the inner loop enough. Proof: settled-set invariant for the search
  with potentials; a ghost potential that also covers vertices that are no longer reachable
  (their `h` goes stale) certifies optimality; the sum of capacity times cost over the residual
  arcs gives the cost of the flow.
* **C62** `link_cut_tree.hpp`, all of it, on the splay model of C43 (`rotate`, `splay`).
  `nodes[i]` is cell `i`; the vector owns the nodes, so no weak parent link expires. Memory is a
  list of splay trees, each with the path-parent of its root; the forest is a ghost parent
  function that `expose` keeps, `evert` flips along the root path and `link`/`cut` change at one
  vertex. Specification: edges as a list, simple paths, values as a list.
* **C63** `segment_hld.hpp`, all of it, on the Hld model of C44. `upper_bound` is a linear scan; node
  fields that do not change after construction are kept apart from `m`, `rm`, `a`; recursions carry
  fuel that is proved to suffice. Every weight is at least 1 because of the order `dfs_sz` leaves,
  so a division is strict. A node stands for the list of its elements after its pending operator;
  `operator()` of the operator type is a parameter with the hypothesis that it is false only for
  operators that change nothing. The empty tree is excluded (the assertion fails on it).
* **C64** `succinct/bitmap.hpp`, all of it except `reserve` and `swap`. Words are integers in
  [0, 2^64), sizes naturals; iterators are the pair (word index, bit index) with the bit index kept
  modulo 2^32. The history relation leaves out only a `pop_back` or shrink that leaves the last
  word; the refutations show why.
* **C65** `succinct/select.hpp`, `succinct/bv.hpp` and the calls of `succinct/bit_vector.hpp`. The
  table of `select64` is computed row by row; bytes of a word are little endian. The bit vector is
  its size and its words; the word width is a parameter. Proof: the packed counts are fields of one
  number, the block search is compared with the borrows of a 64-bit subtraction, field by field;
  samples are characterised by the counts they sit between. Copies and moves only repoint the
  directory and are not modelled.
* **C66** `succinct/wavelet_matrix.hpp` over a `Bitmap`, except `intersect` (it cannot be
  instantiated) and copies and moves (they only repoint the directory). Queues are lists, the
  priority queue a list whose greatest tuple is removed. `T` holds every h-bit value, the type of
  `sum` does not overflow; a `size_t` difference below zero is `None`. Proof: layer t is the list
  stably sorted by its highest t bits; a node (range of a layer) holds exactly the elements of the
  asked range with one prefix, and `child`/`parent` map nodes and positions between layers.
* **C67** `modular.hpp:291-343`, `mod_pow_constexpr` and `primitive_root_constexpr`.
  Overflow of `int`/`long long` and a 21st divisor are `None`. Proof: trial division leaves a
  list holding every prime divisor of m-1; the test accepts g exactly when no quotient
  (m-1)/d kills it; a generator exists because orders of elements can be multiplied
  prime power by prime power (`NumGen.v`, with the bound on roots of x^k = 1).
* **C68** `ntt.hpp`, whole file. A `Modular` is its residue; the `long long` products are
  checked against 64 bits; `int` indices are naturals (sizes stay below 2^31 because 2^N
  divides p-1). Proof: each pass rewrites blocks independently (`NttPass.v`), a radix-4 pass is
  two levels of decimation in frequency (forward) or in time (inverse), the root tables are
  powers of a generator (C67), the bit reversal counter is a reversed increment (`NttRev.v`),
  and orthogonality of the roots gives the round trips (`NttAlg.v`).
* **C69, C70** `convolution.hpp`, everything except the floating point `convolution_fft` (C94)
  (lines 25-62) and `complexity_of_convolution`. `ConvSum.v`: loops `h[x] += v` as sums;
  `ConvNtt.v`: the transforms of C68 multiply polynomials, the branch without the last entries;
  `ConvLarge.v`: blocks and antidiagonals; `NumProth.v`: primality of the fixed moduli by
  Proth's criterion; `ConvGarner.v`: mixed radix reconstruction, whose first digit may be
  negative. `int` sizes in `convolution_large` are checked once (n+m < 2^31). Findings: the
  results of `convolution` and `convolution_ntt` may be longer than n+m-1; the `int` overload
  returns residues modulo 998244353 from 61 entries on (`C70_int_refuted`).
* **C71, C72, C73, C74** `fps.hpp`, `fps/exp.hpp`, `fps/pow.hpp` (`SparseFps::pow` in FpsSpModel.v) and
  the members of `sparse_fps.hpp` that compile, for `Modular<p>`. A series is the list of its
  residues; the static table of inverses is an argument, and the theorems quantify over the
  tables that calls of `ModularUtil::inv` produce. Sizes do not wrap. `PsAlg.v`: the ring of
  series modulo (p, x^n), derivatives, uniqueness for f F' = h F; `FpsBase.v`, `FpsMul.v`:
  loops; `FpsInv.v`: Newton steps; `FpsSparse.v`: recurrences over sparse terms; `FpsLog.v`,
  `FpsExp.v`, `FpsExpD.v` (the Bostan-Schost iteration with its three running series),
  `FpsPow.v`. The statements use sums of coefficients (`conv`, `dconv`, `power`). The products
  used inside (C69) may be longer than n+m-1, which the proofs account for. Not modelled:
  `f *= f` on one object (with 100 terms or more `*this` is moved from before it is read),
  members of SparseFps that do not compile (`+`, `-`, `*` of two sparse series, `diff`, `inte`,
  `log`, `pre`). Findings: `%` is not a remainder (`C72_mod_refuted`); `log_sparse` beyond the
  size (`C73_log_sparse_refuted`); the empty series; negative powers (`C74_pow_neg_fails`).
* **C75** `succinct/ty.hpp`: heads and differences as lists; a value type is a width and a
  signedness, casts are explicit (`to_t`), signed overflow of `v - head.back()` is undefined.
  `TyProp.v` keeps the state as a relation to the pushed list (`rep`) and proves both directions.
* **C76, C77** `succinct/binary_set.hpp` with `BitmapType = Bitmap`, on top of the models of
  `Bitmap` and `BV` (C65). Copies and moves are not modelled (values), nor is the parameter
  `RRR`. The set is specified by counting inserted values; the multiset by `less`, `occ` on the
  inserted list; `BsetProof.v` describes the bitmap of the multiset as a unary code.
  Findings: reads outside the bitmap (`C76_beyond_refuted`), `contains`/`count` above the
  maximum (`C77_above_refuted`), a second build (`C77_rebuild_refuted`).
* **C78–C84** `sps.hpp` over any commutative ring with a decidable equality, on top of the
  ranked transforms of C36. The pointers into blocks `[2^i, 2^(i+1))` are `block`/`put_block`
  (out of range is `None`); the scratch row of the in-place product is explicit. Not modelled:
  `TransposedSpsCompositionPoly` (310-334) and the iterator version of
  `TransposedSubsetConvolution` (214-229).
  The specification sums over set partitions (`partitions`, all lists of distinct nonempty
  pairwise disjoint sets with union `s`) and over powers for the subset convolution.
  `SpsAlg.v`: algebra of the subset convolution and of partition sums; `SpsRep.v`: a table of
  rows represents a series (`rep`: the slot `d` is the zeta transform of something that
  vanishes above rank `d` and is right at rank `d`); merge, split and products preserve it;
  `SpsProof*.v`: the loops. Findings: `C79_short_refuted`, `C80_refuted`, `C82_refuted`,
  `C83_refuted`.
* **C85–C87** `range_minimum_query.hpp`: `rmq64` and its table, `DecaltTree`,
  `traverse_right_path_to_children` with the callbacks of `LcaToRmq`, `RmqToLca` for every
  `RecursionHeight`, `LcaToRmq`; on the models of `SparseTable` (C09), `Bitmap` (C64) and
  `BitVector` (C65). Values are compared by any strict weak order (`a > b` is `b < a`).
  Indices do not wrap; in particular the `(int)` conversion of the number of remaining bits
  (line 311), wrong above 2^31 bits, is not modelled.
  `RmqWord.v`: the bytes of the packed prefix excesses do not overflow; the table by
  enumeration of 256 bytes. `RmqTree.v`: zipper invariant for the right spine.
  `RmqParens.v`: the stack represents the parentheses still to be written. `RmqExc.v`: the
  first minimum of a range is the first minimum of the excess between the zeros of its ends.
  `RmqLca.v`: padded words, blocks, three part minima. `RmqProof.v`: induction on the height.
  Findings: `C87_lca_refuted` (`lca(x, y)` with `x > y` may return `x` although `y` is the
  ancestor), `C87_empty_refuted` (constructor on an empty sequence).
* **C88, C89** `succinct/wavelet_tree.hpp`: the constructor with its queues and node
  boundaries, `child`, `get`, `rank`, `rank_lower`, `rank_3way`, `select`, `enumerate`, on the
  models of `Bitmap` (C64) and `BitVector` (C65). `range_freq` cannot be instantiated and is
  not modelled; the `int`s of `ls` are naturals. `WtProof.v`: a level is the concatenation of
  the non-empty groups of equal upper bits, the array `D` their boundaries. `WtQuery.v`: a node
  is a split of the level into smaller, equal and greater upper bits; every query follows nodes.
  Findings: `C88_zeros_refuted` (a list of zeros), `C88_wide_refuted` (a query with more bits
  than the greatest value).
* **C90, C91** `ordinal_range_search.hpp`: `add`, `build` with and without weights,
  `compress_idx`, `freq`, `_traverse` and on it `sum` and `enumerate`, on the
  models of `binary_set.hpp` (C76, C77) and the wavelet matrix. The user's callbacks are the
  list of the calls of `add` and a function `range_sum`. Not modelled: `weight_add`, the default
  bitmap `RRR<>`. `std::sort` may order equal points with different weights in any way: C91
  quantifies over all of them. `OrsProof.v`: the labels are ranks among the distinct ordinates.
  `OrsSum.v`: the queue holds nodes whose weights add up to what is missing; an empty node may
  be taken for one of the next level, which is harmless unless that is one level too deep.
  `OrsWt.v`: the calls of `add` write the levels one after the other. C90_cut and C91_sum are
  about the runs that return (`= Some R`): when the traversal meets an empty node at the very
  end of the last level its shift is undefined (`C90_edges_refuted`, `C91_sum_refuted`), and the
  set of rectangles for which this happens is not characterised. Finding:
  `C90_enumerate_refuted` (`enumerate` is always empty).
* **C92** `bitmap.hpp` (top level): the constructors, `get`, `set`, `rank`, `select` with its table
  of bytes, whose cells that are never written are `None`, on the models of the Fenwick tree
  (C03, C04) and of the bit tricks (C18). The `int`s do not wrap below 2^31 bits, which the
  theorems assume. `FbmProof.v`: the search in one word; `FbmOps.v`: the tree holds the number of
  ones of every word. Findings: `C92_ones_refuted` (`init_b`), `C92_rank_end_refuted`,
  `C92_select_past`.
* **C93** `fft.hpp`: the constructor, `fft`, `ifft` with the bit reversal and the butterfly loops are
  modelled over an arbitrary ring: `tw m i` is the factor of stage `m`, assumed to be the exact power of a
  root of unity of order `2 m`; the rounding of `double`, `cos` and `sin` is not modelled. `C93_size` (least
  power of two), `C93_fft` (the sum over `j` of `f[j] w^(ij)`, with the vector cut or filled to `n`),
  `C93_inverse` (`ifft` after `fft`). Proof: the odometer `k > (i ^= k)` counts in bit-reversed order, so
  the loop is the permutation `rev`, an involution; after stage `s` block `q` holds the transform of length `2^s` of a
  residue class of the input; orthogonality of the powers by halving. The hypotheses are met by the Gaussian
  integers with `n = 4` (`gauss_ring`, `gauss_roots`, `C93_case_inverse`).
* **C94** `convolution.hpp:25-62`, the `convolution_fft` that uses `Fft`, over a ring as in C93; `same`,
  `.real()` and the recursive `convolution` are parameters. `C94_product`: the coefficients of the product;
  the product of two transforms is the transform of the product, then `C93`'s inversion. Finding:
  `C94_read_refuted`, the shortcut for lengths `2^r + 1` reads the element it has just removed (the `ntt`
  variant at 73-76 has the right bounds). The template names `convolution` before its declaration and
  argument-dependent lookup on `std::complex` does not find it, so nothing in the repository can instantiate it.
* **C95** `arbitrary_mod_binomial.hpp`: `is_coprime` (`C95_coprime`), and the constructor and `operator()` of
  `ArbitraryModBinomial` with their array accesses. Findings: `C95_build_refuted` (the loop `k <= mid` writes
  `st_[mid]`, but `st_` has `mid` elements, so the constructor is undefined for every `n` coprime to the modulus)
  and `C95_query_refuted` (hence no query is answered). The table of powers is written past its
  end earlier (rows up to 9 for `k + 1` rows, see `C95_case_new`).
* **C45, C55, C56** `max_flow.hpp`, whole file. `long long` overflow is `None`; vertex
  numbers and `dist` do not overflow an `int`. Every residual network reached is tied to a
  flow on the edges; when a search fails, the vertices it reached are a cut of the same
  size (strong duality). Dinic's `dfs`: an arc skipped by `nxt` leads to an exhausted
  vertex. Both loops ignore the limit passed to `flow` except to stop (refuted).
  `Matching` and `PSP` sit on top of Dinic; `PSP::selections` returns the complement of
  part of a cut (refuted).

* **C44** `hld.hpp`, whole class except the one-line `set` and the one-callback `query`
  (`query(u,v,Q,Q)`). Inputs are arbitrary rooted trees on `0..n-1`, their edges in any
  order and direction. Sizes, times and depths do not overflow an `int`. `T um, vm;` is
  taken to be the identity: for a built-in number type it is uninitialised in C++, so the
  theorem is about value types whose default constructor is the identity. Callbacks of
  `query`/`update` are arbitrary functions with the stated meaning on ranges inside
  `[0,n]`; those of the subtree functions act on a list.

* **C40** `treap.hpp`: the nodes, links, priorities and every operation of `Treap`
  (insertion, hinted insertion, erasures, searches, iterators, split, absorb); a memory
  holds several treaps. `shared_ptr`/`weak_ptr` links are node numbers in one memory that
  is never freed, so an iterator to an erased node is not given a meaning; the theorems
  only use iterators met by walking, and `end()`. Node priorities are unsigned and drawn
  arbitrarily; `size_` is a 64-bit counter. Assertions that speak about the links are
  guards, and so is the assertion of `absorb`. The `TreapMap` wrapper, copying and node
  destruction are not modelled. Contents are what a walk with `++` from `begin()` to
  `end()` shows, so no theorem mentions the tree shape. Refuted: hinted insertion (order
  broken), sizes after split, value of `erase(it, end())`, `lower_bound`, `count` and
  `erase(b, e)` of a multiset.

* **C41** `skiplist.hpp`: nodes with a value, next[] and length[], the sentinel, height_, size_,
  stack_ and idx_; the heights drawn are an argument of insert. `Skiplist` (constructor from a
  range, get_at, insert_at, erase_at, iteration, size) and `SkiplistSet` (find, count, lower_bound,
  upper_bound, successor, predecessor, insert/emplace, erase). Not modelled: set_at (does not
  compile), print_for_debug, copying (shares the nodes), the generator (any height up to 32 is
  allowed), the overflow of the int lengths, reference counts. Refuted: erase leaves the value in
  the set whenever the element before it is lower (`C41_erase_refuted`, for every reachable state);
  a draw of 0 gives the height 64, outside the sentinel's levels (`C41_draw_zero_refuted`).
* **C42** `fibonacci_heap.hpp`: nodes with next/prev/child/parent/deg/marked/enabled, the degree
  table, `_PushLink`, `_PopLink`, `_Meld`, `_ExpandChildren`, `_ExtractTop`, `_Consolidate`, the
  constructor (table size from the Fibonacci numbers), push, update, pop, erase, top, get, size.
  All assertions of the code are guards (`None`), as are null dereferences and table indexes out of
  range, so the theorems also say that the degree table is long enough. Simplified: nodes are named
  by their key (the lazily filled `map_`/`container_` are one array of nodes, not enabled at the
  start). `clear()` (does not compile) and `print_for_debug` are left out. Priorities: any type with
  a strict weak order. Refuted: erase of the top key leaves `root_` at the erased node (it is not
  set to null before `_ExtractTop`), so top() fails with a live key (`C42_erase_top_refuted`).
* **C43** `splay_tree.hpp` and `splay_tree_list.hpp`: links, node fields, rotations, splay,
  propagate, aggregate and all list operations, for any monoid and operator monoid. Nodes
  are numbers in one memory, erased nodes stay there unused. Assertions are guards. The
  branch 50-59 of the range constructor is taken for no standard iterator category and
  is left out; single-pass iterators (which it would read twice) are out of scope. `sum`
  does not overflow. `prod(l, l)` and positions of an empty list go through a null
  pointer; two theorems record that, the others exclude it.

### Convolutions

* **C34, C35, C36** `bitwise_convolution.hpp` and `subset_convolution.hpp`. The
  cache-oblivious loop over masks is modelled as written (`sweep`), proved equal to
  the recursive block order, and then to sums with a multiplicative kernel. Any
  commutative ring; indices do not overflow (`n < 31`). `bm::popcnt` and `bm::clz`
  by contract (C18). `SubsetZeta` (non-inline) and so `BitwiseOrConvolution` do not
  compile and are left out. `BitwiseXorConvolution` for types that are neither
  integral nor have `inv` divides by 2^(n+1): refuted. The integral branch is
  modelled without overflow.

### Linear algebra

* **C37, C51–C54** `matrix.hpp`, whole class except stream output and the arithmetic
  friends that only forward. Entries of any type: (semi)ring for C37, field with
  decidable equality for the elimination. `1/0` is `None`. `operator-=` returns `-b`
  (refuted); `solve` writes out of range when the kernel has more than `R` dimensions
  (refuted). Determinant specification: cofactor expansion; multilinearity and
  alternation are proved for it.

## Method per property

| id | modelled | method |
|----|----------|--------|
| C01 | segment_tree.hpp ctor/get/set/query | invariant on nodes (product of children), refinement to list fold |
| C02 | max_right/min_left | loop invariant over aligned blocks |
| C03 | fenwick_tree.hpp | invariant node = sum of its lowbit range |
| C04 | lower_bound | binary lifting invariant |
| C05 | unionfind.hpp | invariant over histories, refinement to equivalence closure |
| C06 | lazy_segment_tree.hpp | abstract value of a node under pending ops; refinement to array |
| C07 | lazy set | refutation by witness; positive statement when nothing is pending |
| C08 | dual_segment_tree.hpp | composition along the path invariant |
| C09–C11 | sparse tables | row invariants |
| C12–C16 | persistent structures | heap / functional models, refinement to lists |
| C17 | compress_int.hpp | sorted unique list, lower_bound |
| C18 | bit_manip.hpp | exact 64-bit arithmetic in N; bit-level lemmas |
| C19 | bisect_int | well-founded loop |
| C20 | boundint.hpp | case analysis in Z with machine range checks |
| C21 | enumerate.hpp | table invariant below the modulus; refutation above |
| C22 | segment_tree_divide_and_conquer.hpp | trace semantics |
| C23–C24 | modular.hpp | Z arithmetic, Fermat's little theorem |
| C25–C26 | heaps | heap order + multiset |
| C27 | li_chao_tree.hpp | pointwise maximum invariant |
| C28 | z_algorithm.hpp | window invariant |
| C29–C30 | graph.hpp | loop invariants |
| C31 | mo.hpp | trace semantics |
| C32–C33 | dirichlet.hpp | loop invariants |
| C34–C36 | bitwise/subset convolutions | algebra on index lists |
| C37 | matrix.hpp | sums over a ring; refutation of -= |
| C51–C54 | matrix.hpp elimination | echelon invariant, kernel preservation |
| C38 | fraction.hpp | cross-multiplication in Z |
| C39 | convex_hull_trick.hpp | envelope invariant |
| C40 | treap.hpp | pointer trees with contexts (`PTree.v`); refutations |
| C41 | skiplist.hpp | ghost list of nodes; per level: next is the next node of the list that has the level, length its distance; insertion and deletion of one position, level by level |
| C42 | fibonacci_heap.hpp | circular lists as ghost lists; Fibonacci size bound for the degree table; measure (degree, number of roots) for _ExtractTop |
| C43 | splay_tree_list.hpp | pointer trees with contexts; contents as a function of node data |
| C44 | hld.hpp | tree induction |
| C45, C55, C56 | max_flow.hpp | residual invariant, max-flow min-cut; refutations |
| C57 | scc.hpp | grey path and finished set; refinement to mutual reachability |
| C58 | graph.hpp, dijkstra.hpp | settled set / frontier invariant over the heap theorem C42; refutation |
| C59 | graph.hpp euler_tour | tree induction on ordered trees |
| C60 | rerooting.hpp | tree induction with the upper tree as ghost argument |
| C61 | min_cost_flow.hpp | reduced costs, ghost potential, tree of the search as a ranked chain |
| C62 | link_cut_tree.hpp | splay forests, ghost parents, unique simple path from the root |
| C63 | segment_hld.hpp | ghost binary tree over node indices, denotation of pending operators |
| C64 | succinct/bitmap.hpp | bit-level invariant between words and list of bits |
| C65 | succinct/bv.hpp, select.hpp, bit_vector.hpp | counts as packed fields, borrows of one subtraction |
| C66 | succinct/wavelet_matrix.hpp | layers, nodes as prefix filters |
| C67 | modular.hpp (primitive_root) | divisors of m-1, orders of elements, existence of a generator |
| C68 | ntt.hpp | decimation recurrences, orthogonality, bit reversal |
| C69, C70 | convolution.hpp | sums over loops, products by transforms, blocks, Garner, Proth |
| C71–C74 | fps.hpp, fps/exp.hpp, fps/pow.hpp, sparse_fps.hpp | series modulo (p, x^n), Newton steps, linear differential equations |
| C75 | succinct/ty.hpp | relation between state and pushed list |
| C76–C77 | succinct/binary_set.hpp | rank/select of C65, unary codes |
| C78–C84 | sps.hpp | ranked tables represent series; partition sums; adjointness |
| C85–C87 | range_minimum_query.hpp | packed bytes; zipper for the spine; excess of parentheses; induction on the height |
| C88–C89 | succinct/wavelet_tree.hpp | levels as concatenated groups; a node as a split of its level |
| C90–C91 | ordinal_range_search.hpp | labels by rank; queue of nodes with a sum invariant |
| C92 | bitmap.hpp | Fenwick tree of the counts of the words; byte search in a word |
| C93 | fft.hpp | bit-reversal permutation; induction over the stages, in a ring |
| C94 | convolution.hpp (floating) | transform of a product; index out of range in the shortcut |
| C95 | arbitrary_mod_binomial.hpp | Euclid; every run of the constructor leaves `st_` |
| C46–C47 | ac_machine, int_vector | refutations and positive parts |
| C48 | segment_tree_2d.hpp | C01 nested |

Status per property is in `MANIFEST.json`; this file is extended as the model
grows.
