{
 "claims": [
  {
   "property": "C01",
   "status": "proved",
   "theorems": [
    "C01_segment_tree_range",
    "C01_segment_tree_sized"
   ],
   "note": "any monoid, any history of set"
  },
  {
   "property": "C02",
   "status": "proved",
   "theorems": [
    "C02_max_right_boundary",
    "C02_max_right_largest"
   ],
   "note": "see SegTreeProp.v for both directions"
  },
  {
   "property": "C03",
   "status": "proved",
   "theorems": [
    "C03_fenwick_sums",
    "C03_fenwick_sized",
    "C03_fenwick_build_is_adds"
   ],
   "note": "any abelian group; sizes below 2^61"
  },
  {
   "property": "C04",
   "status": "proved",
   "theorems": [
    "C04_fenwick_lower_bound"
   ],
   "note": "integer values, non-negative contents"
  },
  {
   "property": "C05",
   "status": "proved",
   "theorems": [
    "C05_unionfind",
    "C05_roots_canonical"
   ],
   "note": "any history; both evaluation orders of the C++ operands"
  },
  {
   "property": "C06",
   "status": "proved",
   "theorems": [
    "C06_lazy_segment_tree",
    "C06_lazy_segment_tree_sized"
   ],
   "note": "both constructors; sizes up to 2^62"
  },
  {
   "property": "C07",
   "status": "proved",
   "theorems": [
    "C07_lazy_set_before_updates",
    "C07_lazy_set_refuted"
   ],
   "note": "positive half for sets before the first update; the unrestricted claim is refuted by a witness (bug in set, lines 79-89)"
  },
  {
   "property": "C08",
   "status": "proved",
   "theorems": [
    "C08_dual_segment_tree",
    "C08_dual_segment_tree_sized",
    "C08_dual_get_composition"
   ],
   "note": "update/get/set histories; max_right/min_left of the dual tree do not compile and are not modelled"
  },
  {
   "property": "C09",
   "status": "proved",
   "theorems": [
    "C09_sparse_table"
   ],
   "note": "associative idempotent operation"
  },
  {
   "property": "C10",
   "status": "proved",
   "theorems": [
    "C10_disjoint_sparse_table"
   ],
   "note": "any semigroup"
  },
  {
   "property": "C11",
   "status": "proved",
   "theorems": [
    "C11_dual_sparse_table",
    "C11_dual_sparse_table_sized",
    "C11_dual_disjoint_sparse_table",
    "C11_dual_disjoint_sparse_table_sized"
   ],
   "note": "both tables, both constructors"
  },
  {
   "property": "C12",
   "status": "proved",
   "theorems": [
    "C12_persistent_stack"
   ],
   "note": "heap model; every version of every branching history"
  },
  {
   "property": "C13",
   "status": "proved",
   "theorems": [
    "C13_persistent_queue"
   ],
   "note": "heap model with mutable cells; raw pointer proc_ proved to stay inside the chain owned by f_"
  },
  {
   "property": "C14",
   "status": "proved",
   "theorems": [
    "C14_persistent_array",
    "C14_set_get"
   ],
   "note": "every branching factor >= 1, every version"
  },
  {
   "property": "C15",
   "status": "proved",
   "theorems": [
    "C15_persistent_unionfind"
   ],
   "note": "fuel >= n bounds the recursion of leader"
  },
  {
   "property": "C16",
   "status": "proved",
   "theorems": [
    "C16_skewbinary_list",
    "C16_dropped_after_extended_refuted",
    "C16_extended_empty_refuted"
   ],
   "note": "dropped/extended exclusions shown necessary"
  },
  {
   "property": "C17",
   "status": "proved",
   "theorems": [
    "C17_compressor",
    "C17_compress_rank"
   ],
   "note": "std::sort as the unique sorted permutation under a strict total order; unordered_map as association list; int k does not wrap"
  },
  {
   "property": "C18",
   "status": "proved",
   "theorems": [
    "C18_counts",
    "C18_bytes",
    "C18_log2p1_zero_refuted",
    "C18_bytewise",
    "C18_bextr",
    "C18_reverse",
    "C18_powers",
    "C18_edges"
   ],
   "note": "all 64-bit words; byte-level facts by complete enumeration of the 256 bytes, lifted to words by proof"
  },
  {
   "property": "C19",
   "status": "proved",
   "theorems": [
    "C19_bisect_int"
   ],
   "note": "also: f is only called strictly between ok and ng, at most log2_up|ng-ok| times; machine width explicit"
  },
  {
   "property": "C20",
   "status": "proved",
   "theorems": [
    "C20_boundint_step",
    "C20_boundint_history",
    "C20_mul_zero_refuted"
   ],
   "note": "positive part for non-zero multipliers plus the documented violation for zero"
  },
  {
   "property": "C21",
   "status": "proved",
   "theorems": [
    "C21_enumerate",
    "C21_choose_formula",
    "C21_table_past_modulus_refuted"
   ],
   "note": "Full histories, both operand orders; the violation past the modulus is proved."
  },
  {
   "property": "C22",
   "status": "proved",
   "theorems": [
    "C22_divide_and_conquer"
   ],
   "note": "Replay of the callback sequence on a stack; intervals must lie inside the time span."
  },
  {
   "property": "C23",
   "status": "proved",
   "theorems": [
    "C23_ring",
    "C23_equality",
    "C23_inv",
    "C23_div",
    "C23_util_inv",
    "C23_stream_refuted"
   ],
   "note": "Ring laws via evaluation of arbitrary expression trees; operator>> violation proved separately."
  },
  {
   "property": "C24",
   "status": "proved",
   "theorems": [
    "C24_modular_sqrt",
    "C24_dynamic_sqrt",
    "C24_zero_refuted",
    "C24_mod2_refuted"
   ],
   "note": "Correctness and termination for all primes below 2^31; the two violations by Modular are proved."
  },
  {
   "property": "C25",
   "status": "proved",
   "theorems": [
    "C25_meldable_heap",
    "C25_meld_alias_refuted"
   ],
   "note": "Pointer model with disjointness invariant; coin flips universally quantified."
  },
  {
   "property": "C26",
   "status": "proved",
   "theorems": [
    "C26_depq",
    "C26_range_refuted"
   ],
   "note": "Sift invariant over the interval-heap order of positions; range-constructor defect refuted."
  },
  {
   "property": "C27",
   "status": "proved",
   "theorems": [
    "C27_li_chao",
    "C27_sentinel_refuted"
   ],
   "note": "Upper-bound characterisation per root-to-leaf path; overflow modelled."
  },
  {
   "property": "C28",
   "status": "proved",
   "theorems": [
    "C28_z_algorithm",
    "C28_empty_refuted"
   ],
   "note": "Loop invariants; any element type with decidable equality."
  },
  {
   "property": "C29",
   "status": "proved",
   "theorems": [
    "C29_bfs"
   ],
   "note": "Signed w-bit distances."
  },
  {
   "property": "C30",
   "status": "proved",
   "theorems": [
    "C30_topological_sort"
   ],
   "note": "Both directions: success iff no directed cycle."
  },
  {
   "property": "C31",
   "status": "proved",
   "theorems": [
    "C31_mo",
    "C31_any_order",
    "C31_zero_refuted"
   ],
   "note": "Any std::sort meeting its contract, floating-point block size abstracted to: zero iff n is zero."
  },
  {
   "property": "C32",
   "status": "proved",
   "theorems": [
    "C32_sieve",
    "C32_primes",
    "C32_primality",
    "C32_overflow_refuted"
   ],
   "note": "w-bit int."
  },
  {
   "property": "C33",
   "status": "proved",
   "theorems": [
    "C33_dirichlet",
    "C33_pairs"
   ],
   "note": "No algebraic law assumed in C33_dirichlet; C33_pairs over the integers."
  },
  {
   "property": "C34",
   "status": "proved",
   "theorems": [
    "C34_zeta",
    "C34_mobius",
    "C34_inverse",
    "C34_or",
    "C34_and",
    "C34_length_refuted"
   ],
   "note": "Any commutative ring, any n."
  },
  {
   "property": "C35",
   "status": "proved",
   "theorems": [
    "C35_hadamard",
    "C35_xor",
    "C35_xor_inv",
    "C35_xor_int",
    "C35_div_refuted"
   ],
   "note": "The three compile-time branches of the scaling; the third is refuted."
  },
  {
   "property": "C36",
   "status": "proved",
   "theorems": [
    "C36_subset_convolution",
    "C36_square"
   ],
   "note": "Any commutative ring, any n up to LIM, aliasing in the square modelled."
  },
  {
   "property": "C37",
   "status": "proved",
   "theorems": [
    "C37_add",
    "C37_neg",
    "C37_scale",
    "C37_transpose",
    "C37_equal",
    "C37_mul",
    "C37_pow",
    "C37_sub_refuted"
   ],
   "note": "operator-= / binary - is wrong in the code (returns -b); refuted with a witness and the exact behaviour is proved."
  },
  {
   "property": "C38",
   "status": "proved",
   "theorems": [
    "C38_make",
    "C38_make_total",
    "C38_make_ordering",
    "C38_field",
    "C38_field_total",
    "C38_reduct",
    "C38_mixed",
    "C38_mixed_total",
    "C38_compare",
    "C38_compare_total",
    "C38_reduct_refuted"
   ],
   "note": "long long overflow is undefined behaviour (None); exactness whenever a value is produced, totality on 31-bit components; reduct refuted for gcd >= 2^31. get<T> and the ill-typed C++20 operator==(long long, f) are left out."
  },
  {
   "property": "C39",
   "status": "proved",
   "theorems": [
    "C39_cht_deque",
    "C39_empty_refuted"
   ],
   "note": "coefficients are unbounded integers (no overflow assumed); both comparators; int index arithmetic of bisect_int with explicit width."
  },
  {
   "property": "C40",
   "status": "proved",
   "theorems": [
    "C40_sorted",
    "C40_unique",
    "C40_new",
    "C40_insert",
    "C40_erase",
    "C40_erase_at",
    "C40_erase_end",
    "C40_clear",
    "C40_find",
    "C40_count",
    "C40_lower_bound",
    "C40_upper_bound",
    "C40_predecessor",
    "C40_empty",
    "C40_iterate",
    "C40_split",
    "C40_absorb",
    "C40_erase_range",
    "C40_size",
    "C40_hint_end",
    "C40_multi_lower_bound_refuted",
    "C40_multi_count_refuted",
    "C40_split_size_refuted",
    "C40_erase_range_refuted",
    "C40_multi_erase_range_refuted",
    "C40_hint_refuted"
   ],
   "note": "pointer-level model; violations of the code proved by witness"
  },
  {
   "property": "C41",
   "status": "proved",
   "theorems": [
    "C41_contents",
    "C41_get_at",
    "C41_insert_at",
    "C41_erase_at",
    "C41_of",
    "C41_draw_zero_refuted",
    "C41_set_contents",
    "C41_lower_bound",
    "C41_upper_bound",
    "C41_find",
    "C41_predecessor",
    "C41_insert",
    "C41_erase",
    "C41_erase_missing",
    "C41_erase_refuted"
   ],
   "note": "heights are an argument, any number up to 32; erase fully characterised by the height of the element before"
  },
  {
   "property": "C42",
   "status": "proved",
   "theorems": [
    "C42_new",
    "C42_push",
    "C42_update",
    "C42_top",
    "C42_pop",
    "C42_erase",
    "C42_get",
    "C42_size",
    "C42_drain",
    "C42_erase_top_refuted"
   ],
   "note": "Full pointer model incl. cascading cuts; Fibonacci bound shows the degree table is long enough. erase of the top key refuted with a witness."
  },
  {
   "property": "C43",
   "status": "proved",
   "theorems": [
    "C43_from_empty",
    "C43_from_range",
    "C43_contents",
    "C43_prod_empty_null",
    "C43_empty_null"
   ],
   "note": "Pointer model of splay_tree.hpp and splay_tree_list.hpp; histories from an empty list or a range."
  },
  {
   "property": "C44",
   "status": "proved",
   "theorems": [
    "C44_build",
    "C44_order",
    "C44_lca",
    "C44_path",
    "C44_query",
    "C44_update",
    "C44_subtree"
   ],
   "note": "whole class, for every tree, root, monoid and callback with the stated meaning"
  },
  {
   "property": "C45",
   "status": "proved",
   "theorems": [
    "C45_ford_fulkerson",
    "C45_dinic",
    "C45_weak_duality",
    "C45_limit_refuted"
   ],
   "note": "positive part and documented violation"
  },
  {
   "property": "C46",
   "status": "proved",
   "theorems": [
    "C46_find_all",
    "C46_find_suffix",
    "C46_all_registered",
    "C46_refuted",
    "C46_empty_refuted"
   ],
   "note": "AcMachine: failure links, find_all, suffix iteration; prefix-of-earlier keyword is dropped (refutation)"
  },
  {
   "property": "C47",
   "status": "proved",
   "theorems": [
    "C47_int_vector",
    "C47_full_words",
    "C47_pushes",
    "C47_refuted"
   ],
   "note": "positive part: append-only and word-final writes, full-word elements; refuted in general."
  },
  {
   "property": "C48",
   "status": "proved",
   "theorems": [
    "C48_segment_tree_2d",
    "C48_commutativity_needed"
   ],
   "note": "commutative monoid; each column of the rows is a one-dimensional tree, so C01 carries over."
  },
  {
   "property": "C49",
   "status": "proved",
   "theorems": [
    "C49_mo_rollback",
    "C49_zero_refuted"
   ],
   "note": "As C31."
  },
  {
   "property": "C50",
   "status": "proved",
   "theorems": [
    "C50_multiplicative",
    "C50_empty_refuted"
   ],
   "note": "Any commutative semiring."
  },
  {
   "property": "C51",
   "status": "proved",
   "theorems": [
    "C51_det"
   ],
   "note": ""
  },
  {
   "property": "C52",
   "status": "proved",
   "theorems": [
    "C52_gauss",
    "C52_rank"
   ],
   "note": ""
  },
  {
   "property": "C53",
   "status": "proved",
   "theorems": [
    "C53_solve",
    "C53_all_solutions",
    "C53_room_refuted"
   ],
   "note": "Holds when the result matrix has room; out-of-bounds write otherwise, refuted with a 1x3 system."
  },
  {
   "property": "C54",
   "status": "proved",
   "theorems": [
    "C54_inv"
   ],
   "note": ""
  },
  {
   "property": "C55",
   "status": "proved",
   "theorems": [
    "C55_matching"
   ],
   "note": ""
  },
  {
   "property": "C56",
   "status": "proved",
   "theorems": [
    "C56_solve",
    "C56_selections_refuted"
   ],
   "note": "positive part and documented violation"
  },
  {
   "property": "C57",
   "status": "proved",
   "theorems": [
    "C57_scc"
   ],
   "note": "SCC::add_edge and scc (Kosaraju)"
  },
  {
   "property": "C58",
   "status": "proved",
   "theorems": [
    "C58_dijkstra",
    "C58_wide_weight_refuted"
   ],
   "note": "Network and dijkstra_search on top of the FibonacciHeap model; weights not negative; truncation of wide weights is the documented violation"
  },
  {
   "property": "C59",
   "status": "proved",
   "theorems": [
    "C59_euler_tour"
   ],
   "note": "Graph::euler_tour"
  },
  {
   "property": "C60",
   "status": "proved",
   "theorems": [
    "C60_reroot_graph",
    "C60_reroot_network",
    "C60_order_refuted"
   ],
   "note": "both classes of rerooting.hpp"
  },
  {
   "property": "C61",
   "status": "proved",
   "theorems": [
    "C61_min_cost_flow",
    "C61_certificate"
   ],
   "note": "Costs must not be negative and the object must be fresh (a second call of flow starts with potentials zero on a residual network with negative arcs; not claimed)."
  },
  {
   "property": "C62",
   "status": "proved",
   "theorems": [
    "C62_history",
    "C62_history_new",
    "C62_path"
   ],
   "note": "links of connected vertices, cuts of absent edges and products between unconnected vertices are outside the contract"
  },
  {
   "property": "C63",
   "status": "proved",
   "theorems": [
    "C63_history",
    "C63_history_new",
    "C63_lazy",
    "C63_lazy_new",
    "C63_path",
    "C63_path_update"
   ],
   "note": "the lazy variant does not compile with the library's OperatorMonoid, which has no operator(); proved for any operator type that has it"
  },
  {
   "property": "C64",
   "status": "proved",
   "theorems": [
    "C64_history",
    "C64_iterators",
    "C64_pop_refuted",
    "C64_shrink_refuted",
    "C64_minus_refuted"
   ],
   "note": "documented violations have their own refutation theorems"
  },
  {
   "property": "C65",
   "status": "proved",
   "theorems": [
    "C65_directory",
    "C65_bit_vector",
    "C65_rank_any",
    "C65_padding_refuted",
    "select64_ok"
   ],
   "note": "documented violation has its own refutation theorem"
  },
  {
   "property": "C66",
   "status": "proved",
   "theorems": [
    "C66_build",
    "C66_get",
    "C66_counts",
    "C66_rank",
    "C66_select",
    "C66_quantile",
    "C66_top",
    "C66_lists",
    "C66_freq64_refuted",
    "C66_edges_refuted"
   ],
   "note": "intersect cannot be instantiated and is not modelled; T is assumed to hold every h-bit value, the sum type not to overflow"
  },
  {
   "property": "C67",
   "status": "proved",
   "theorems": [
    "C67_generator",
    "C67_table"
   ],
   "note": "Existence of a generator is proved from element orders (NumGen.v)"
  },
  {
   "property": "C68",
   "status": "proved",
   "theorems": [
    "C68_ntt",
    "C68_intt",
    "C68_convolution_order",
    "C68_round_trips",
    "C68_too_long"
   ],
   "note": "Every prime below 2^31, every length"
  },
  {
   "property": "C69",
   "status": "proved",
   "theorems": [
    "C69_naive",
    "C69_ntt",
    "C69_convolution",
    "C69_empty",
    "C69_too_long",
    "C69_large"
   ],
   "note": "length of the results documented"
  },
  {
   "property": "C70",
   "status": "proved",
   "theorems": [
    "C70_garner",
    "C70_int_short",
    "C70_int_long",
    "C70_int_refuted",
    "prime_998244353",
    "prime_754974721",
    "prime_167772161",
    "prime_469762049"
   ],
   "note": "C70_int_refuted documents the disagreement of the two branches for int"
  },
  {
   "property": "C71",
   "status": "proved",
   "theorems": [
    "C71_normalize",
    "C71_shifts",
    "C71_eq",
    "C71_scalars",
    "C71_pointwise",
    "C71_terms",
    "C71_calculus",
    "C71_mul",
    "C71_mul_sparse",
    "C71_sparse"
   ],
   "note": "Distinct objects as operands of *=."
  },
  {
   "property": "C72",
   "status": "proved",
   "theorems": [
    "C72_inv",
    "C72_inv_unique",
    "C72_div",
    "C72_sparse",
    "C72_mod_refuted"
   ],
   "note": "% is refuted as a remainder."
  },
  {
   "property": "C73",
   "status": "proved",
   "theorems": [
    "C73_log",
    "C73_log_sparse",
    "C73_log_unique",
    "C73_log_sparse_refuted",
    "C73_exp",
    "C73_exp_unique",
    "C73_sparse_exp",
    "C73_exp_log",
    "C73_log_exp",
    "C73_exp_add"
   ],
   "note": ""
  },
  {
   "property": "C74",
   "status": "proved",
   "theorems": [
    "C74_pow",
    "C74_pow_neg",
    "C74_sqrt",
    "C74_is_square",
    "C74_pow_neg_fails",
    "C74_sparse_pow"
   ],
   "note": ""
  },
  {
   "property": "C75",
   "status": "proved",
   "theorems": [
    "C75_push",
    "C75_read",
    "C75_range",
    "C75_consecutive_refuted"
   ],
   "note": "TyModel.v; exact condition for the assertions, values read back, counterexample to the class comment for all types."
  },
  {
   "property": "C76",
   "status": "proved",
   "theorems": [
    "C76_set",
    "C76_beyond_refuted"
   ],
   "note": "BsetModel.v on top of the bitmap and rank/select models; the default RRR parameter is not modelled."
  },
  {
   "property": "C77",
   "status": "proved",
   "theorems": [
    "C77_multiset",
    "C77_above_refuted",
    "C77_rebuild_refuted"
   ],
   "note": "BsetModel.v; unary codes; three documented violations."
  },
  {
   "property": "C78",
   "status": "proved",
   "theorems": [
    "C78_exp",
    "C78_power"
   ],
   "note": "equality test decides equality, commutative ring"
  },
  {
   "property": "C79",
   "status": "proved",
   "theorems": [
    "C79_composition",
    "C79_short_refuted"
   ],
   "note": "violation for 2 <= F.size() <= n proved on a concrete input"
  },
  {
   "property": "C80",
   "status": "proved",
   "theorems": [
    "C80_polynomial",
    "C80_no_constant",
    "C80_refuted"
   ],
   "note": "violation for A_0 = 0 proved on a concrete input"
  },
  {
   "property": "C81",
   "status": "proved",
   "theorems": [
    "C81_log",
    "C81_unique"
   ],
   "note": "existence and uniqueness"
  },
  {
   "property": "C82",
   "status": "proved",
   "theorems": [
    "C82_inverse",
    "C82_refuted"
   ],
   "note": "violation for s_0 != 1 proved on a concrete input"
  },
  {
   "property": "C83",
   "status": "proved",
   "theorems": [
    "C83_transposed_convolution",
    "C83_adjoint",
    "C83_refuted"
   ],
   "note": "vector version; violation for short x proved on a concrete input"
  },
  {
   "property": "C84",
   "status": "proved",
   "theorems": [
    "C84_projection",
    "C84_adjoint"
   ],
   "note": "vector version"
  },
  {
   "property": "C85",
   "status": "proved",
   "theorems": [
    "C85_rmq64"
   ],
   "note": "all words"
  },
  {
   "property": "C86",
   "status": "proved",
   "theorems": [
    "C86_cartesian_tree",
    "C86_parentheses"
   ],
   "note": "links, order and parentheses"
  },
  {
   "property": "C87",
   "status": "proved",
   "theorems": [
    "C87_rmq",
    "C87_empty_range",
    "C87_empty_refuted",
    "C87_lca_refuted"
   ],
   "note": "first minimum for every height; documented violations refuted"
  },
  {
   "property": "C88",
   "status": "proved",
   "theorems": [
    "C88_build",
    "C88_get",
    "C88_rank",
    "C88_rank_exact",
    "C88_select",
    "C88_zeros_refuted",
    "C88_wide_refuted"
   ],
   "note": "get, rank, rank_lower, rank_3way, select against the list; zeros and too wide queries refuted"
  },
  {
   "property": "C89",
   "status": "proved",
   "theorems": [
    "C89_enumerate",
    "C89_child"
   ],
   "note": "ascending distinct values with counts; nodes by upper bits"
  },
  {
   "property": "C90",
   "status": "proved",
   "theorems": [
    "C90_freq",
    "C90_cut",
    "C90_enumerate_empty",
    "C90_enumerate_refuted",
    "C90_edges_refuted"
   ],
   "note": "freq for all inputs; sum when it returns; violations with witnesses"
  },
  {
   "property": "C91",
   "status": "proved",
   "theorems": [
    "C91_sum",
    "C91_sum_refuted"
   ],
   "note": "sum for every order std::sort may choose, when the traversal returns; violation with witness"
  },
  {
   "property": "C92",
   "status": "proved",
   "theorems": [
    "C92_sequence",
    "C92_zeros",
    "C92_select_past",
    "C92_ones_refuted",
    "C92_rank_end_refuted"
   ],
   "note": "all histories of set; violations with witnesses"
  },
  {
   "property": "C93",
   "status": "proved",
   "theorems": [
    "C93_size",
    "C93_fft",
    "C93_inverse"
   ],
   "note": "Complex numbers idealised as an arbitrary ring with exact roots of unity; the rounding of double, cos and sin is not modelled."
  },
  {
   "property": "C94",
   "status": "proved",
   "theorems": [
    "C94_product",
    "C94_read_refuted"
   ],
   "note": "Exact arithmetic in place of double; the call of convolution in the shortcut is a parameter and is never reached."
  },
  {
   "property": "C95",
   "status": "proved",
   "theorems": [
    "C95_coprime",
    "C95_build_refuted",
    "C95_query_refuted"
   ],
   "note": "Positive statement for is_coprime; the class itself is refuted for all inputs."
  }
 ]
}