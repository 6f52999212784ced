{
 "claims": [
  {
   "property": "C01",
   "status": "proved",
   "theorems": [
    "C01_segtree_refines_array",
    "C01_segtree_new_refines_array",
    "C01_segtree_default_refines_array",
    "C01_segtree_from_too_long"
   ],
   "note": ""
  },
  {
   "property": "C02",
   "status": "proved",
   "theorems": [
    "C02_segtree_max_right"
   ],
   "note": ""
  },
  {
   "property": "C03",
   "status": "proved",
   "theorems": [
    "C03_segtree_min_left"
   ],
   "note": ""
  },
  {
   "property": "C04",
   "status": "proved",
   "theorems": [
    "C04_lazy_refines_array",
    "C04_lazy_new_refines_array",
    "C04_lazy_default_refines_array",
    "C04_lazy_from_too_long"
   ],
   "note": ""
  },
  {
   "property": "C05",
   "status": "proved",
   "theorems": [
    "C05_lazy_searches",
    "C05_lazy_new_searches"
   ],
   "note": ""
  },
  {
   "property": "C06",
   "status": "proved",
   "theorems": [
    "C06_fenwick_refines_array",
    "C06_fenwick_new_refines_array",
    "C06_fenwick_sum"
   ],
   "note": ""
  },
  {
   "property": "C07",
   "status": "proved",
   "theorems": [
    "C07_partition_point",
    "C07_partition_point_boundary",
    "C07_search",
    "C07_partition_point_empty_panics"
   ],
   "note": ""
  },
  {
   "property": "C08",
   "status": "proved",
   "theorems": [
    "C08_sparse_table",
    "C08_sparse_table_empty_panics"
   ],
   "note": ""
  },
  {
   "property": "C09",
   "status": "partial",
   "theorems": [
    "C09_sparse_out_of_range_rejected_refuted",
    "C09_sparse_out_of_range_partial"
   ],
   "note": "REFUTED as stated: get(3,6) on a 5-element table returns a value. Positive: for every l<r the exact panic condition and the exact value otherwise (blocks that do not fit count as init)."
  },
  {
   "property": "C10",
   "status": "proved",
   "theorems": [
    "C10_find_canonical",
    "C10_panics"
   ],
   "note": ""
  },
  {
   "property": "C11",
   "status": "partial",
   "theorems": [
    "C11_join_merges_refuted",
    "C11_join_merges_partial",
    "C11_join_any_partial",
    "C11_join_moves_partial"
   ],
   "note": "REFUTED as stated: join(0,1);join(0,2) separates 0 from 1. Positive: exact merge when x is a representative; return value and x~y afterwards for every x. For every x, the exact shape of the result: a subset of the class of x containing x moves over to the class of y, and nothing else changes (C11_join_moves_partial). Also find after the join, for every vertex."
  },
  {
   "property": "C12",
   "status": "partial",
   "theorems": [
    "C12_size_refuted",
    "C12_size_partial"
   ],
   "note": "REFUTED as stated. Positive: exact when every join of the history was applied to two representatives."
  },
  {
   "property": "C13",
   "status": "proved",
   "theorems": [
    "C13_groups",
    "C13_groups_exact"
   ],
   "note": ""
  },
  {
   "property": "C14",
   "status": "proved",
   "theorems": [
    "C14_min_heap"
   ],
   "note": ""
  },
  {
   "property": "C15",
   "status": "proved",
   "theorems": [
    "C15_kmp"
   ],
   "note": ""
  },
  {
   "property": "C16",
   "status": "proved",
   "theorems": [
    "C16_z_function"
   ],
   "note": ""
  },
  {
   "property": "C17",
   "status": "proved",
   "theorems": [
    "C17_find_all",
    "C17_insert_panics",
    "C17_from_find_all"
   ],
   "note": ""
  },
  {
   "property": "C18",
   "status": "proved",
   "theorems": [
    "C18_find_cnt",
    "C18_from_find_cnt"
   ],
   "note": ""
  },
  {
   "property": "C19",
   "status": "partial",
   "theorems": [
    "C19_find_partial",
    "C19_find_sound_partial",
    "C19_find_complete_refuted"
   ],
   "note": "REFUTED second half (patterns abc, b; text ab): C19_find_complete_refuted. Proved: the first half, and exactly what find returns (index of the longest suffix that is a prefix of an inserted string)."
  },
  {
   "property": "C20",
   "status": "proved",
   "theorems": [
    "C20_is_ancestor",
    "C20_panics"
   ],
   "note": ""
  },
  {
   "property": "C21",
   "status": "proved",
   "theorems": [
    "C21_lca"
   ],
   "note": ""
  },
  {
   "property": "C22",
   "status": "proved",
   "theorems": [
    "C22_dis"
   ],
   "note": ""
  },
  {
   "property": "C23",
   "status": "proved",
   "theorems": [
    "C23_matching",
    "C23_stored_matching",
    "C23_any_history"
   ],
   "note": ""
  },
  {
   "property": "C24",
   "status": "proved",
   "theorems": [
    "C24_dinic",
    "C24_max_flow",
    "C24_overflow",
    "C24_bad_args",
    "C24_any_history",
    "C24_negative"
   ],
   "note": ""
  },
  {
   "property": "C25",
   "status": "proved",
   "theorems": [
    "C25_scc",
    "C25_panics"
   ],
   "note": ""
  },
  {
   "property": "C26",
   "status": "proved",
   "theorems": [
    "C26_reverse_topological"
   ],
   "note": ""
  },
  {
   "property": "C27",
   "status": "proved",
   "theorems": [
    "C27_dijkstra",
    "C27_bad_source",
    "C27_panics"
   ],
   "note": ""
  },
  {
   "property": "C28",
   "status": "partial",
   "theorems": [
    "C28_path_prod_partial",
    "C28_path_prod_refuted"
   ],
   "note": "REFUTED as stated: on the path 0-1-2 with a non-commutative operation path_prod(2,0) multiplies from 0 to 2. Positive: the product along the path for commutative operations; for every monoid the product of the path's values piece by piece: at most 2 log2 n + 1 pieces, each taken downwards along the visiting order, deepest top first (by_pieces in C30_history)."
  },
  {
   "property": "C29",
   "status": "proved",
   "theorems": [
    "C29_apply_path"
   ],
   "note": ""
  },
  {
   "property": "C30",
   "status": "proved",
   "theorems": [
    "C30_history",
    "C30_constructors_panic"
   ],
   "note": ""
  },
  {
   "property": "C31",
   "status": "proved",
   "theorems": [
    "C31_gcd",
    "C31_gcd_overflow"
   ],
   "note": ""
  },
  {
   "property": "C32",
   "status": "partial",
   "theorems": [
    "C32_lcm_refuted",
    "C32_lcm_partial",
    "C32_lcm_any_partial"
   ],
   "note": "REFUTED as stated: lcm(65536,65536) overflows i32 although the result fits. Positive: exact whenever a*b fits; lcm(0,0) panics; for any signs, up to sign the least common multiple, and a panic exactly when the product overflows or both are 0 (C32_lcm_any_partial)."
  },
  {
   "property": "C33",
   "status": "proved",
   "theorems": [
    "C33_ex_gcd",
    "C33_ex_gcd_overflow"
   ],
   "note": ""
  },
  {
   "property": "C34",
   "status": "partial",
   "theorems": [
    "C34_ex_crt_refuted",
    "C34_ex_crt_partial",
    "C34_ex_crt_total_partial",
    "C34_ex_crt_any_partial",
    "C34_lengths_partial"
   ],
   "note": "REFUTED for negative a[i]. Positive: for non-negative a[i] every returned answer is exact, and none is lost to overflow when i64 has room for each coefficient times the lcm of the moduli before it plus |b[i]|, and for twice the lcm of all moduli. Vectors of different lengths: C34_lengths_partial. For every sign of a and m the returned pair still describes exactly the solutions, without the normal form 0<=x<l (C34_ex_crt_any_partial)."
  },
  {
   "property": "C35",
   "status": "proved",
   "theorems": [
    "C35_safe_mod"
   ],
   "note": ""
  },
  {
   "property": "C36",
   "status": "proved",
   "theorems": [
    "C36_barrett_mul"
   ],
   "note": ""
  },
  {
   "property": "C37",
   "status": "proved",
   "theorems": [
    "C37_pow_mod",
    "C37_pow_mod_negative_diverges"
   ],
   "note": ""
  },
  {
   "property": "C38",
   "status": "proved",
   "theorems": [
    "C38_is_prime_strong_tests",
    "C38_is_prime"
   ],
   "note": "C38_is_prime is the full claim: for every i32 the answer is exactly primality. It uses Coq's primitive 63-bit integers (standard-library primitives and their specification axioms). C38_is_prime_strong_tests, axiom-free, gives termination, absence of panics and the three-test criterion."
  },
  {
   "property": "C39",
   "status": "proved",
   "theorems": [
    "C39_inv_gcd"
   ],
   "note": ""
  },
  {
   "property": "C40",
   "status": "proved",
   "theorems": [
    "C40_primitive_root"
   ],
   "note": ""
  },
  {
   "property": "C41",
   "status": "proved",
   "theorems": [
    "C41_factorial"
   ],
   "note": ""
  },
  {
   "property": "C42",
   "status": "proved",
   "theorems": [
    "C42_static_ring",
    "C42_large_modulus"
   ],
   "note": ""
  },
  {
   "property": "C43",
   "status": "proved",
   "theorems": [
    "C43_new"
   ],
   "note": ""
  },
  {
   "property": "C44",
   "status": "partial",
   "theorems": [
    "C44_pow_refuted",
    "C44_pow_partial"
   ],
   "note": "REFUTED as stated: modulo 1 the zeroth power is stored as 1. Positive: exact for m>=2 or n>0, static and dynamic."
  },
  {
   "property": "C45",
   "status": "partial",
   "theorems": [
    "C45_inv_refuted",
    "C45_large_value",
    "C45_inv_partial",
    "C45_wrong_hint"
   ],
   "note": "REFUTED for moduli >= 2^31 with the prime hint (debug conversion to i32 panics). Positive: exact on the Fermat path for primes below 2^31, on the gcd path for every u32 modulus, and for DynamicModInt; panics otherwise. C45_wrong_hint: a prime hint on a non-prime value makes every inv() panic (debug build). In a release build the restriction disappears (C60). C45_large_value: for every VALUE >= 2^31 with the hint every inv() panics."
  },
  {
   "property": "C46",
   "status": "proved",
   "theorems": [
    "C46_dynamic",
    "C46_set_modulus_zero"
   ],
   "note": ""
  },
  {
   "property": "C47",
   "status": "partial",
   "theorems": [
    "C47_atomic_refuted",
    "C47_atomic_partial"
   ],
   "note": "REFUTED as stated: a product between the two stores gives 11 for 2*3 with moduli 7 and 5. Positive: exact on every interleaving where both loads fall on the same side of their stores."
  },
  {
   "property": "C48",
   "status": "proved",
   "theorems": [
    "C48_sum_product"
   ],
   "note": ""
  },
  {
   "property": "C49",
   "status": "proved",
   "theorems": [
    "C49_lg",
    "C49_lg_zero",
    "C49_ceil_lg"
   ],
   "note": ""
  },
  {
   "property": "C50",
   "status": "proved",
   "theorems": [
    "C50_max_min",
    "C50_primitive",
    "C50_additive_unsigned",
    "C50_bracketing_matters",
    "C50_segtree_max"
   ],
   "note": ""
  },
  {
   "property": "C51",
   "status": "proved",
   "theorems": [
    "C51_reads",
    "C51_parse",
    "C51_typed",
    "C51_bytes_utf8",
    "C51_bytes_ascii"
   ],
   "note": ""
  },
  {
   "property": "C52",
   "status": "proved",
   "theorems": [
    "C52_call",
    "C52_fixed_point"
   ],
   "note": "The aliasing of &mut through UnsafeCell (undefined behaviour in Rust's terms) is not modelled: the captured state is threaded through nested calls."
  },
  {
   "property": "C53",
   "status": "partial",
   "theorems": [
    "C53_into_sorted_vec_refuted",
    "C53_into_sorted_vec_partial"
   ],
   "note": "REFUTED as stated: Reverse makes the vector non-increasing. Positive: permutation of the bag in non-increasing order."
  },
  {
   "property": "C54",
   "status": "partial",
   "theorems": [
    "C54_join_total_refuted",
    "C54_join_total_partial",
    "C54_few_joins_partial"
   ],
   "note": "REFUTED as stated: sizes overflow usize after 184 joins on 4 elements. Positive: no panic when joins get representatives, and none in any history before 91 joins have merged two sets. In a release build sizes wrap and nothing panics (C61)."
  },
  {
   "property": "C55",
   "status": "proved",
   "theorems": [
    "C55_tables"
   ],
   "note": ""
  },
  {
   "property": "C56",
   "status": "proved",
   "theorems": [
    "C56_few_ranges"
   ],
   "note": ""
  },
  {
   "property": "C57",
   "status": "proved",
   "theorems": [
    "C57_second_build"
   ],
   "note": ""
  },
  {
   "property": "C58",
   "status": "proved",
   "theorems": [
    "C58_from_str",
    "C58_display"
   ],
   "note": ""
  },
  {
   "property": "C59",
   "status": "proved",
   "theorems": [
    "C59_predefined"
   ],
   "note": ""
  },
  {
   "property": "C60",
   "status": "proved",
   "theorems": [
    "C60_inv_release"
   ],
   "note": ""
  },
  {
   "property": "C61",
   "status": "proved",
   "theorems": [
    "C61_union_find_release"
   ],
   "note": ""
  },
  {
   "property": "C62",
   "status": "proved",
   "theorems": [
    "C62_union_find_refines"
   ],
   "note": ""
  },
  {
   "property": "C63",
   "status": "partial",
   "theorems": [
    "C63_queries_refuted",
    "C63_queries_partial",
    "C63_queries_reps_partial"
   ],
   "note": "REFUTED as stated: join(0,1);join(1,2);[find(0)];join(1,3);is_same(0,1) depends on the find(0), because join(1,3) relinks a vertex that is not a representative. Positive: up to the next join no answer changes, in every reachable state; if joins get representatives the call can be left out of any history."
  },
  {
   "property": "C64",
   "status": "proved",
   "theorems": [
    "C64_segtree_checked",
    "C64_segtree_searches",
    "C64_segtree_never_wrong",
    "C64_segtree_searches_never_wrong",
    "C64_segtree_unsigned_sums",
    "C64_segtree_sums",
    "C64_segtree_products",
    "C64_total_operation"
   ],
   "note": ""
  },
  {
   "property": "C65",
   "status": "proved",
   "theorems": [
    "C65_fenwick_checked",
    "C65_partition_point_checked",
    "C65_search_checked",
    "C65_fenwick_never_wrong",
    "C65_fenwick_integers",
    "C65_fenwick_unsigned_pref"
   ],
   "note": ""
  },
  {
   "property": "C66",
   "status": "proved",
   "theorems": [
    "C66_lazy_never_wrong",
    "C66_lazy_constructors",
    "C66_lazy_never_wrong_array",
    "C66_lazy_checked",
    "C66_lazy_checked_array",
    "C66_lazy_unsigned_sums"
   ],
   "note": ""
  },
  {
   "property": "C67",
   "status": "proved",
   "theorems": [
    "C67_alone",
    "C67_threads",
    "C67_undisturbed"
   ],
   "note": "Model at the granularity of single atomic accesses (ConcModel.v), proved to do alone what the model of C46 does (C67_alone); every interleaving of threads that do not set the modulus gives each thread its own answers (C67_threads); operations during which nobody stores are unaffected by the other threads (C67_undisturbed)."
  },
  {
   "property": "C68",
   "status": "proved",
   "theorems": [
    "C68_sparse_checked",
    "C68_sparse_never_wrong"
   ],
   "note": "Same code with the closure in the res monad (SparseChkModel.v); positive form under range products the closure can compute, and never-wrong form for any closure that computes the operation or panics."
  },
  {
   "property": "C69",
   "status": "proved",
   "theorems": [
    "C69_debug"
   ],
   "note": ""
  },
  {
   "property": "C70",
   "status": "proved",
   "theorems": [
    "C70_eq_hash"
   ],
   "note": ""
  },
  {
   "property": "C71",
   "status": "proved",
   "theorems": [
    "C71_component"
   ],
   "note": ""
  },
  {
   "property": "C72",
   "status": "proved",
   "theorems": [
    "C72_history"
   ],
   "note": ""
  },
  {
   "property": "C73",
   "status": "proved",
   "theorems": [
    "C73_history",
    "C73_lawful",
    "C73_past_end"
   ],
   "note": "C73_history is the whole statement. C73_past_end is the last sentence: over f64 max_right returns 15 on 13 elements."
  },
  {
   "property": "C74",
   "status": "proved",
   "theorems": [
    "C74_laws",
    "C74_segtree",
    "C74_segtree_searches",
    "C74_fenwick",
    "C74_lazy_sums",
    "C74_dev_release"
   ],
   "note": ""
  },
  {
   "property": "C75",
   "status": "proved",
   "theorems": [
    "C75_ex_gcd",
    "C75_lcm",
    "C75_lcm_any",
    "C75_ex_crt",
    "C75_ex_crt_wrong",
    "C75_modint_add"
   ],
   "note": "C75_ex_crt_wrong is the clause that the release ex_crt can return an x that solves nothing."
  },
  {
   "property": "C76",
   "status": "proved",
   "theorems": [
    "C76_same_code",
    "C76_kmp",
    "C76_z_function",
    "C76_comparisons",
    "C76_floats"
   ],
   "note": ""
  },
  {
   "property": "C77",
   "status": "proved",
   "theorems": [
    "C77_partition_point",
    "C77_max_right",
    "C77_min_left",
    "C77_same_code",
    "C77_calls",
    "C77_lazy_unwind",
    "C77_lazy_same_code",
    "C77_beyond_end"
   ],
   "note": ""
  },
  {
   "property": "C78",
   "status": "proved",
   "theorems": [
    "C78_same_code",
    "C78_rejected",
    "C78_no_trace",
    "C78_find",
    "C78_find_sees"
   ],
   "note": ""
  },
  {
   "property": "C79",
   "status": "proved",
   "theorems": [
    "C79_same_code",
    "C79_segtree",
    "C79_settled",
    "C79_fenwick",
    "C79_refused",
    "C79_disagree"
   ],
   "note": ""
  },
  {
   "property": "C80",
   "status": "proved",
   "theorems": [
    "C80_dinic",
    "C80_max_flow",
    "C80_dinic_same",
    "C80_dijkstra",
    "C80_bad_source",
    "C80_dijkstra_same"
   ],
   "note": ""
  },
  {
   "property": "C81",
   "status": "proved",
   "theorems": [
    "C81_same_code",
    "C81_lazy",
    "C81_settled",
    "C81_refused",
    "C81_disagree",
    "C81_mapping_panics"
   ],
   "note": ""
  },
  {
   "property": "C82",
   "status": "proved",
   "theorems": [
    "C82_same_code",
    "C82_matching"
   ],
   "note": ""
  },
  {
   "property": "C83",
   "status": "proved",
   "theorems": [
    "C83_same_code_input",
    "C83_input",
    "C83_same_code_uf",
    "C83_union_find",
    "C83_union_find_any"
   ],
   "note": ""
  },
  {
   "property": "C84",
   "status": "proved",
   "theorems": [
    "C84_same_code",
    "C84_dinic",
    "C84_half_edge",
    "C84_half_edge_wrong"
   ],
   "note": ""
  },
  {
   "property": "C85",
   "status": "proved",
   "theorems": [
    "C85_same_code",
    "C85_segtree",
    "C85_lazy",
    "C85_lazy_constructors",
    "C85_fenwick",
    "C85_sparse"
   ],
   "note": ""
  },
  {
   "property": "C86",
   "status": "proved",
   "theorems": [
    "C86_reroot",
    "C86_forest",
    "C86_restarted_timer"
   ],
   "note": ""
  },
  {
   "property": "C87",
   "status": "proved",
   "theorems": [
    "C87_laws",
    "C87_segtree",
    "C87_lazy"
   ],
   "note": ""
  },
  {
   "property": "C88",
   "status": "proved",
   "theorems": [
    "C88_same_run",
    "C88_work",
    "C88_bounds"
   ],
   "note": ""
  },
  {
   "property": "C89",
   "status": "proved",
   "theorems": [
    "C89_matching",
    "C89_scc",
    "C89_scc_exact",
    "C89_dinic",
    "C89_matching_answers",
    "C89_scc_answers",
    "C89_dinic_answers"
   ],
   "note": ""
  },
  {
   "property": "C90",
   "status": "proved",
   "theorems": [
    "C90_never_wrong",
    "C90_same_code",
    "C90_hld"
   ],
   "note": ""
  },
  {
   "property": "C91",
   "status": "proved",
   "theorems": [
    "C91_insert",
    "C91_searches",
    "C91_build",
    "C91_from"
   ],
   "note": ""
  },
  {
   "property": "C92",
   "status": "proved",
   "theorems": [
    "C92_from",
    "C92_lca",
    "C92_hld"
   ],
   "note": ""
  },
  {
   "property": "C93",
   "status": "proved",
   "theorems": [
    "C93_from",
    "C93_hld"
   ],
   "note": ""
  },
  {
   "property": "C94",
   "status": "proved",
   "theorems": [
    "C94_find",
    "C94_groups",
    "C94_total",
    "C94_find_linear",
    "C94_logarithm_needed"
   ],
   "note": ""
  },
  {
   "property": "C95",
   "status": "proved",
   "theorems": [
    "C95_scc",
    "C95_scc_all",
    "C95_scc_overflow",
    "C95_scc_needs",
    "C95_matching",
    "C95_matching_needs",
    "C95_dinic",
    "C95_dinic_overflow",
    "C95_dinic_needs"
   ],
   "note": ""
  },
  {
   "property": "C96",
   "status": "proved",
   "theorems": [
    "C96_lazy",
    "C96_hld",
    "C96_lawful",
    "C96_past_end"
   ],
   "note": ""
  },
  {
   "property": "C97",
   "status": "proved",
   "theorems": [
    "C97_fenwick",
    "C97_fenwick_lawful",
    "C97_sparse",
    "C97_sparse_lawful"
   ],
   "note": ""
  },
  {
   "property": "C98",
   "status": "proved",
   "theorems": [
    "C98_euclid",
    "C98_euclid_worst",
    "C98_inv_gcd",
    "C98_pow",
    "C98_is_prime",
    "C98_primitive_root",
    "C98_ex_crt"
   ],
   "note": ""
  },
  {
   "property": "C99",
   "status": "proved",
   "theorems": [
    "C99_references",
    "C99_aliased"
   ],
   "note": "Only references to the closure made by call are counted, not the reference to the RecursiveFunction handed to the closure."
  },
  {
   "property": "C100",
   "status": "proved",
   "theorems": [
    "C100_aho",
    "C100_aho_panics",
    "C100_aho_from",
    "C100_aho_dev",
    "C100_lg",
    "C100_ceil_lg",
    "C100_partition_point",
    "C100_sparse",
    "C100_lift"
   ],
   "note": ""
  },
  {
   "property": "C101",
   "status": "proved",
   "theorems": [
    "C101_mul",
    "C101_mul_large",
    "C101_mul_one",
    "C101_add",
    "C101_sub",
    "C101_pow",
    "C101_inv",
    "C101_div",
    "C101_expr",
    "C101_stale",
    "C101_product",
    "C101_equal"
   ],
   "note": ""
  },
  {
   "property": "C102",
   "status": "proved",
   "theorems": [
    "C102_same_code",
    "C102_history",
    "C102_settled",
    "C102_refused",
    "C102_mid_path"
   ],
   "note": ""
  },
  {
   "property": "C103",
   "status": "proved",
   "theorems": [
    "C103_cover",
    "C103_deficiency",
    "C103_hall",
    "C103_independent",
    "C103_flow"
   ],
   "note": ""
  },
  {
   "property": "C104",
   "status": "proved",
   "theorems": [
    "C104_agree"
   ],
   "note": ""
  },
  {
   "property": "C105",
   "status": "proved",
   "theorems": [
    "C105_de",
    "C105_single",
    "C105_empty",
    "C105_release",
    "C105_same_state"
   ],
   "note": ""
  },
  {
   "property": "C106",
   "status": "proved",
   "theorems": [
    "C106_dfs",
    "C106_euler",
    "C106_segtree"
   ],
   "note": ""
  },
  {
   "property": "C107",
   "status": "proved",
   "theorems": [
    "C107_lca_split",
    "C107_members",
    "C107_counts",
    "C107_subtrees"
   ],
   "note": ""
  },
  {
   "property": "C108",
   "status": "proved",
   "theorems": [
    "C108_any_dep",
    "C108_own_dep",
    "C108_weighted",
    "C108_hld_data"
   ],
   "note": ""
  },
  {
   "property": "C109",
   "status": "proved",
   "theorems": [
    "C109_components",
    "C109_panics",
    "C109_scc",
    "C109_dijkstra"
   ],
   "note": ""
  },
  {
   "property": "C110",
   "status": "proved",
   "theorems": [
    "C110_kruskal"
   ],
   "note": ""
  },
  {
   "property": "C111",
   "status": "proved",
   "theorems": [
    "C111_paths",
    "C111_panics",
    "C111_unit",
    "C111_all_pairs"
   ],
   "note": ""
  },
  {
   "property": "C112",
   "status": "proved",
   "theorems": [
    "C112_lazy_segtree",
    "C112_fenwick_segtree",
    "C112_search",
    "C112_differences",
    "C112_sparse_segtree"
   ],
   "note": ""
  },
  {
   "property": "C113",
   "status": "proved",
   "theorems": [
    "C113_two_sat",
    "C113_two_sat_panics",
    "C113_topo_sort"
   ],
   "note": ""
  },
  {
   "property": "C114",
   "status": "proved",
   "theorems": [
    "C114_paths",
    "C114_menger"
   ],
   "note": ""
  },
  {
   "property": "C115",
   "status": "proved",
   "theorems": [
    "C115_triangle",
    "C115_bellman",
    "C115_reverse",
    "C115_symmetric",
    "C115_more_edges",
    "C115_edge_set"
   ],
   "note": ""
  },
  {
   "property": "C116",
   "status": "proved",
   "theorems": [
    "C116_outcome",
    "C116_order",
    "C116_parallel",
    "C116_useless",
    "C116_renamed",
    "C116_turned",
    "C116_add_edge",
    "C116_scaled",
    "C116_triangle"
   ],
   "note": ""
  },
  {
   "property": "C117",
   "status": "proved",
   "theorems": [
    "C117_inverse",
    "C117_gcd",
    "C117_discrete_log",
    "C117_crt",
    "C117_choose"
   ],
   "note": ""
  },
  {
   "property": "C118",
   "status": "proved",
   "theorems": [
    "C118_multiset",
    "C118_inversions",
    "C118_increasing"
   ],
   "note": ""
  },
  {
   "property": "C119",
   "status": "proved",
   "theorems": [
    "C119_count",
    "C119_same_edges",
    "C119_reverse",
    "C119_renamed",
    "C119_more_edges",
    "C119_add_edge",
    "C119_beside",
    "C119_downward",
    "C119_condense"
   ],
   "note": ""
  },
  {
   "property": "C120",
   "status": "proved",
   "theorems": [
    "C120_min_heap",
    "C120_any_order",
    "C120_contract"
   ],
   "note": ""
  },
  {
   "property": "C121",
   "status": "proved",
   "theorems": [
    "C121_calls",
    "C121_history",
    "C121_dijkstra"
   ],
   "note": ""
  },
  {
   "property": "C122",
   "status": "proved",
   "theorems": [
    "C122_metric",
    "C122_on_path",
    "C122_median",
    "C122_other_root",
    "C122_diameter",
    "C122_path_kth"
   ],
   "note": ""
  },
  {
   "property": "C123",
   "status": "proved",
   "theorems": [
    "C123_same_edges",
    "C123_incremental",
    "C123_swapped",
    "C123_renamed",
    "C123_union",
    "C123_one_vertex",
    "C123_stays",
    "C123_again"
   ],
   "note": ""
  },
  {
   "property": "C124",
   "status": "proved",
   "theorems": [
    "C124_late",
    "C124_prefix",
    "C124_again"
   ],
   "note": ""
  },
  {
   "property": "C125",
   "status": "proved",
   "theorems": [
    "C125_lower",
    "C125_higher"
   ],
   "note": ""
  },
  {
   "property": "C126",
   "status": "proved",
   "theorems": [
    "C126_fifo",
    "C126_cost",
    "C126_bfs",
    "C126_flow",
    "C126_build"
   ],
   "note": ""
  },
  {
   "property": "C127",
   "status": "proved",
   "theorems": [
    "C127_debug",
    "C127_inj",
    "C127_debug_alt"
   ],
   "note": ""
  },
  {
   "property": "C128",
   "status": "proved",
   "theorems": [
    "C128_nodes",
    "C128_tree"
   ],
   "note": ""
  },
  {
   "property": "C129",
   "status": "proved",
   "theorems": [
    "C129_two_colour"
   ],
   "note": ""
  },
  {
   "property": "C130",
   "status": "proved",
   "theorems": [
    "C130_circulation",
    "C130_hoffman",
    "C130_flow"
   ],
   "note": ""
  },
  {
   "property": "C131",
   "status": "proved",
   "theorems": [
    "C131_segtree",
    "C131_lazy",
    "C131_fenwick",
    "C131_sparse",
    "C131_union_find",
    "C131_lifting",
    "C131_hld",
    "C131_dinic",
    "C131_matching",
    "C131_aho",
    "C131_dijkstra"
   ],
   "note": ""
  },
  {
   "property": "C132",
   "status": "proved",
   "theorems": [
    "C132_range_add"
   ],
   "note": ""
  },
  {
   "property": "C133",
   "status": "proved",
   "theorems": [
    "C133_best",
    "C133_closure"
   ],
   "note": ""
  },
  {
   "property": "C134",
   "status": "proved",
   "theorems": [
    "C134_path_cover",
    "C134_antichain"
   ],
   "note": ""
  },
  {
   "property": "C135",
   "status": "proved",
   "theorems": [
    "C135_lca"
   ],
   "note": ""
  },
  {
   "property": "C136",
   "status": "proved",
   "theorems": [
    "C136_exact",
    "C136_lca",
    "C136_complete",
    "C136_from",
    "C136_renumber"
   ],
   "note": ""
  },
  {
   "property": "C137",
   "status": "proved",
   "theorems": [
    "C137_pos",
    "C137_shift"
   ],
   "note": ""
  },
  {
   "property": "C138",
   "status": "proved",
   "theorems": [
    "C138_bag",
    "C138_same",
    "C138_push",
    "C138_pop"
   ],
   "note": ""
  },
  {
   "property": "C139",
   "status": "proved",
   "theorems": [
    "C139_same",
    "C139_left",
    "C139_others",
    "C139_reroot"
   ],
   "note": ""
  },
  {
   "property": "C140",
   "status": "proved",
   "theorems": [
    "C140_sort",
    "C140_top_k",
    "C140_merge",
    "C140_medians"
   ],
   "note": ""
  },
  {
   "property": "C141",
   "status": "proved",
   "theorems": [
    "C141_prim",
    "C141_kruskal",
    "C141_panics"
   ],
   "note": ""
  },
  {
   "property": "C142",
   "status": "proved",
   "theorems": [
    "C142_path_sum"
   ],
   "note": ""
  },
  {
   "property": "C143",
   "status": "proved",
   "theorems": [
    "C143_longest",
    "C143_shortest",
    "C143_prefixes",
    "C143_rotation",
    "C143_distinct"
   ],
   "note": ""
  },
  {
   "property": "C144",
   "status": "proved",
   "theorems": [
    "C144_rsa",
    "C144_exchange",
    "C144_seal",
    "C144_is_power",
    "C144_root",
    "C144_sqrt"
   ],
   "note": ""
  },
  {
   "property": "C145",
   "status": "proved",
   "theorems": [
    "C145_huffman",
    "C145_empty"
   ],
   "note": ""
  },
  {
   "property": "C146",
   "status": "proved",
   "theorems": [
    "C146_tree_add"
   ],
   "note": ""
  },
  {
   "property": "C147",
   "status": "proved",
   "theorems": [
    "C147_steiner"
   ],
   "note": ""
  },
  {
   "property": "C148",
   "status": "proved",
   "theorems": [
    "C148_choose_perm",
    "C148_counting"
   ],
   "note": ""
  },
  {
   "property": "C149",
   "status": "proved",
   "theorems": [
    "C149_sieve"
   ],
   "note": ""
  },
  {
   "property": "C150",
   "status": "proved",
   "theorems": [
    "C150_code",
    "C150_rank"
   ],
   "note": ""
  },
  {
   "property": "C151",
   "status": "proved",
   "theorems": [
    "C151_bfs",
    "C151_tight",
    "C151_flow",
    "C151_build",
    "C151_inserts"
   ],
   "note": ""
  },
  {
   "property": "C152",
   "status": "proved",
   "theorems": [
    "C152_scc",
    "C152_tight",
    "C152_needs"
   ],
   "note": ""
  },
  {
   "property": "C153",
   "status": "proved",
   "theorems": [
    "C153_distinct"
   ],
   "note": ""
  },
  {
   "property": "C154",
   "status": "proved",
   "theorems": [
    "C154_order",
    "C154_only"
   ],
   "note": ""
  },
  {
   "property": "C155",
   "status": "proved",
   "theorems": [
    "C155_bfs",
    "C155_flow",
    "C155_tight",
    "C155_build",
    "C155_inserts"
   ],
   "note": ""
  },
  {
   "property": "C156",
   "status": "proved",
   "theorems": [
    "C156_spans",
    "C156_identity"
   ],
   "note": ""
  },
  {
   "property": "C157",
   "status": "proved",
   "theorems": [
    "C157_light"
   ],
   "note": ""
  }
 ]
}