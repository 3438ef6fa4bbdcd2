{
 "claims": [
  {
   "property": "C01",
   "status": "proved",
   "theorems": [
    "C01_linear_counts_every_item",
    "C01_linear_never_panics"
   ],
   "note": "Any arithmetic, NaN included; totality for NaN-free data and q in [0,1]."
  },
  {
   "property": "C02",
   "status": "proved",
   "theorems": [
    "C02_quantile_is_mid_rank",
    "C02_quantile_is_mid_rank_exact",
    "C02_quantile_in_unit_interval",
    "C02_quantile_monotone",
    "C02_quantile_history_independent"
   ],
   "note": "Correctly rounded mid-rank fraction for every arithmetic satisfying FloatLaws (f64, f32, exact); unbounded in exact arithmetic."
  },
  {
   "property": "C03",
   "status": "proved",
   "theorems": [
    "C03_value_is_order_statistic",
    "C03_value_monotone",
    "C03_order_statistic_unique"
   ],
   "note": "Every arithmetic satisfying FloatLaws; item count up to 2^53 (f64), 2^24 (f32)."
  },
  {
   "property": "C04",
   "status": "proved",
   "theorems": [
    "C04_buffering_transparent",
    "C04_buffered_counts",
    "C04_buffered_linear_same_answers"
   ],
   "note": "Any inner digest, any capacity >= 1, coin for coin; count for any capacity given a correctly counting inner digest."
  },
  {
   "property": "C05",
   "status": "partial",
   "theorems": [
    "C05_any_capacity_refuted",
    "C05_any_capacity_partial"
   ],
   "note": "Refuted: capacity 0 makes add_buffer panic (slice::chunks(0)); single-item add proved to work."
  },
  {
   "property": "C06",
   "status": "proved",
   "theorems": [
    "C06_built",
    "C06_add_digest",
    "C06_multi_forwards_and_averages",
    "C06_multi_adds_no_panic"
   ],
   "note": "Any members, any history; members run on separate random streams."
  },
  {
   "property": "C07",
   "status": "partial",
   "theorems": [
    "C07_multi_count_refuted",
    "C07_multi_count_partial"
   ],
   "note": "Refuted with two members and one item; proved instead: count = members x items."
  },
  {
   "property": "C08",
   "status": "proved",
   "theorems": [
    "C08_sym_mirrors_and_selects",
    "C08_sym_counts",
    "C08_sym_linear_value_is_item",
    "C08_sym_linear_rank_error"
   ],
   "note": "Forwarding for any member digest; value and rank error over reference digests (position formula for f64/f32, error <= 1 in exact arithmetic)."
  },
  {
   "property": "C09",
   "status": "proved",
   "theorems": [
    "C09_chunks_delivered",
    "C09_add_no_panic",
    "C09_history_count_and_extremes",
    "C09_empty_buffer_panics",
    "C09_no_digests_drops_items"
   ],
   "note": "Any members, any history, every schedule; buffers and digest counts below 2^53 (the f64 chunk-size computation is verified). Empty buffer panics; zero digests drop items."
  },
  {
   "property": "C10",
   "status": "partial",
   "theorems": [
    "C10_usable_for_every_count_refuted",
    "C10_quantile_in_unit_interval_partial",
    "C10_linear_members_partial",
    "C10_multiples_fill_every_member"
   ],
   "note": "Refuted: 5 items over 4 digests give NaN and a panic. Proved: [0,1] whenever all members are non-empty, for every schedule; multiples of the digest count fill every member."
  },
  {
   "property": "C11",
   "status": "proved",
   "theorems": [
    "C11_search_terminates_and_brackets",
    "C11_linear_members"
   ],
   "note": "Exact arithmetic; any members with non-NaN estimates; 22 estimates at most; instance with reference members has no residual hypothesis."
  },
  {
   "property": "C12",
   "status": "partial",
   "theorems": [
    "C12_schedule_independent_refuted",
    "C12_schedule_independent_partial"
   ],
   "note": "Refuted in f64 with two reduction trees; proved for all trees in exact arithmetic."
  },
  {
   "property": "C13",
   "status": "proved",
   "theorems": [
    "C13_count",
    "C13_count_f64",
    "C13_count_exact"
   ],
   "note": "Any closures, any sort. f64 up to 2^53 items (whenever the calls return); f64 with |items| <= 2^900: always, up to 2^52 items; exact arithmetic up to 2^64."
  },
  {
   "property": "C14",
   "status": "proved",
   "theorems": [
    "C14_weighted_sum"
   ],
   "note": "Exact arithmetic, any closures, all histories."
  },
  {
   "property": "C15",
   "status": "proved",
   "theorems": [
    "C15_shape"
   ],
   "note": "Exact arithmetic, any closures, all histories."
  },
  {
   "property": "C16",
   "status": "partial",
   "theorems": [
    "C16_extremes_f64_refuted",
    "C16_cover",
    "C16_query_ends",
    "C16_extremes_exact_partial"
   ],
   "note": "Refuted in f64 (0.1 three times drifts above the maximum). Proved: extremes cover the data and are what the queries at 0 and 1 return, in any arithmetic; equal to the true extremes in exact arithmetic."
  },
  {
   "property": "C17",
   "status": "proved",
   "theorems": [
    "C17_range_f64",
    "C17_range_f32",
    "C17_no_panic",
    "C17_range",
    "C17_nan_query_panics"
   ],
   "note": "No panic for any state with non-NaN means in any arithmetic; in [0,1] for every history in exact arithmetic, f64 (|items| <= 2^900, up to 2^52 items) and f32 (2^100, 2^23); exactly 0 and 1 beyond the ends in exact arithmetic. A NaN query panics (shown)."
  },
  {
   "property": "C18",
   "status": "partial",
   "theorems": [
    "C18_monotone_refuted",
    "C18_monotone_partial"
   ],
   "note": "Refuted with k0, cf 3. Proved where the end centroids are well-behaved, for all histories in exact arithmetic."
  },
  {
   "property": "C19",
   "status": "proved",
   "theorems": [
    "C19_no_panic_f32",
    "C19_no_panic",
    "C19_no_panic_f64",
    "C19_no_panic_exact"
   ],
   "note": "f64 with |items| <= 2^900 and up to 2^52 items; f32 with 2^100 and 2^23; exact arithmetic up to 2^64; any closures."
  },
  {
   "property": "C20",
   "status": "partial",
   "theorems": [
    "C20_range_refuted",
    "C20_nan_refuted",
    "C20_range_partial"
   ],
   "note": "Refuted: median of four tens is 9, of two tens NaN. Proved outside the last-centroid branch, and the branch's answer is bounded to within 1 of the maximum."
  },
  {
   "property": "C21",
   "status": "partial",
   "theorems": [
    "C21_monotone_refuted",
    "C21_monotone_partial"
   ],
   "note": "Refuted (same branch as C20). Proved outside it."
  },
  {
   "property": "C22",
   "status": "proved",
   "theorems": [
    "C22_unit_steps",
    "C22_width_fresh",
    "C22_width",
    "C22_shipped"
   ],
   "note": "Exact arithmetic, all histories, any scale pair with unit_steps (every increasing function with a right inverse; discharged for the six shipped pairs)."
  },
  {
   "property": "C23",
   "status": "partial",
   "theorems": [
    "C23_size_k0",
    "C23_size_k2",
    "C23_size_k3",
    "C23_size_k2_span",
    "C23_size_k3_span",
    "C23_size_k2_asym_span",
    "C23_size_k2n_span",
    "C23_size_k1_refuted",
    "C23_size_k1_exact"
   ],
   "note": "k0, k2, k3 (and k2_asym, k2n by span) bounded for every history. Refuted for k1: compression factor 3 gives m+1 centroids for 4m items."
  },
  {
   "property": "C24",
   "status": "proved",
   "theorems": [
    "C24_order"
   ],
   "note": "Any arithmetic; two configurations whose sorts differ; no_twins excludes -0/+0 mixtures."
  },
  {
   "property": "C25",
   "status": "proved",
   "theorems": [
    "C25_weight",
    "C25_exact"
   ],
   "note": "Any arithmetic with whole weights up to the exact-integer limit; exact arithmetic with any positive weights, for every sequence of add_buffer and add_cluster calls."
  },
  {
   "property": "C26",
   "status": "partial",
   "theorems": [
    "C26_sorted_refuted",
    "C26_sorted_partial",
    "C26_buffer_sorts"
   ],
   "note": "Refuted when two centroids share a mean (f64, k0). Proved for one cluster into strictly ascending centroids, and that the next add_buffer restores order."
  },
  {
   "property": "C27",
   "status": "partial",
   "theorems": [
    "C27_bounds",
    "C27_too_many_refuted",
    "C27_misses_tie_refuted",
    "C27_nearest_partial"
   ],
   "note": "Bounds proved. Exactness refuted both ways (a centroid nine times further included; a tie left out). Proved for sorted centroids: a nearest one is in the range and nothing in it is hidden behind another mean."
  },
  {
   "property": "C28",
   "status": "partial",
   "theorems": [
    "C28_panics_refuted",
    "C28_weight_partial",
    "C28_exact_partial"
   ],
   "note": "No-panic refuted (the same value twice). Whenever it returns: weight for any arithmetic and every shuffle, weighted sum and extremes in exact arithmetic, mixed with add_buffer and add_cluster calls."
  },
  {
   "property": "C29",
   "status": "proved",
   "theorems": [
    "C29_count",
    "C29_exact"
   ],
   "note": "Any arithmetic with count up to the exact-integer limit; exact arithmetic: never panics, flush conserves mass and sum."
  },
  {
   "property": "C30",
   "status": "partial",
   "theorems": [
    "C30_extremes_refuted",
    "C30_extremes_partial"
   ],
   "note": "Refuted: the second flush forgets the first extremes once they are merged. Proved: answers stay within the data, enclose the flushed batch and are exact at the first flush."
  },
  {
   "property": "C31",
   "status": "proved",
   "theorems": [
    "C31_k0",
    "C31_k1",
    "C31_k2",
    "C31_k2_asym",
    "C31_k2n",
    "C31_k3"
   ],
   "note": "Exact reals; all six pairs."
  },
  {
   "property": "C32",
   "status": "proved",
   "theorems": [
    "C32_k0",
    "C32_k1",
    "C32_k2",
    "C32_k2_asym",
    "C32_k2n",
    "C32_k3",
    "C32_k2_threshold",
    "C32_threshold"
   ],
   "note": "Exact reals; all six; k2 shown decreasing below the threshold, threshold characterised as cf < 10^6 n."
  },
  {
   "property": "C33",
   "status": "partial",
   "theorems": [
    "C33_forward_k0",
    "C33_forward_k2",
    "C33_forward_k2_asym",
    "C33_forward_k2n",
    "C33_forward_k3",
    "C33_forward_k1_partial",
    "C33_k1_refuted"
   ],
   "note": "Refuted for k1 at every compression factor above 1. Proved for the other five pairs and for k1 before the angle wraps."
  },
  {
   "property": "C34",
   "status": "proved",
   "theorems": [
    "C34_map",
    "C34_duplicate_panics",
    "C34_nan_panics"
   ],
   "note": "Any arithmetic; every history of fresh inserts and present deletes. Duplicate and NaN keys shown to panic."
  },
  {
   "property": "C35",
   "status": "partial",
   "theorems": [
    "C35_stale_refuted",
    "C35_too_little_refuted",
    "C35_inserted_partial",
    "C35_inserted_exact_partial"
   ],
   "note": "Refuted both ways once a key has been deleted. Proved for trees built by insertions in any order (any arithmetic with whole weights; exact with any weights)."
  },
  {
   "property": "C36",
   "status": "partial",
   "theorems": [
    "C36_size_refuted"
   ],
   "note": "Contents unchanged, but the size drops by one for every absent key (underflow panic on the empty tree): proved for every history."
  },
  {
   "property": "C37",
   "status": "proved",
   "theorems": [
    "C37_nearest",
    "C37_nearest_any"
   ],
   "note": "Exact arithmetic; for any arithmetic in terms of the computed distances when none overflows."
  },
  {
   "property": "C38",
   "status": "proved",
   "theorems": [
    "C38_within",
    "C38_digest"
   ],
   "note": "Every k >= 1, every mix of add/add_buffer/add_buffer_custom with the Default method, all coins, NaN-free items; log2().ceil() assumed exact on input_length/k, input_length/k < 2^32. Also through the Digest interface with queries interleaved (value queries: k even, or levels bounded)."
  },
  {
   "property": "C39",
   "status": "partial",
   "theorems": [
    "C39_refuted",
    "C39_beyond_refuted"
   ],
   "note": "Refuted: new(1,1) panics on the sixth item for all coins; in general no default-mode run survives buffer_size + k*2^(buffer_size/k+1) items."
  },
  {
   "property": "C40",
   "status": "partial",
   "theorems": [
    "C40_odd_refuted",
    "C40_even_weight_partial",
    "C40_even_quantile_partial"
   ],
   "note": "Refuted for odd k (quantile 1.5 after two items). Proved for even k: exact weight in all modes, quantile in [0,1], exactly 1 above and 0 below all items."
  },
  {
   "property": "C41",
   "status": "proved",
   "theorems": [
    "C41_smallest"
   ],
   "note": "Half the bottom buffer is protected, all coins, default compaction within input_length or fast compaction for any length."
  },
  {
   "property": "C42",
   "status": "proved",
   "theorems": [
    "C42_unbiased"
   ],
   "note": "Exact expectation over fair coins, default method, both fast and normal sections."
  },
  {
   "property": "C43",
   "status": "proved",
   "theorems": [
    "C43_counters",
    "C43_even",
    "C43_any"
   ],
   "note": "Counter bound for all k; explicit bounds for even k (h*N/k) and any k."
  },
  {
   "property": "C44",
   "status": "proved",
   "theorems": [
    "C44_counters",
    "C44_even",
    "C44_tail"
   ],
   "note": "MSE bounded by the expected sum of 4^level*compactions; for even k MSE <= 2N^2/(k*buffer_size), with the Chebyshev tail."
  },
  {
   "property": "C45",
   "status": "partial",
   "theorems": [
    "C45_even_partial",
    "C45_levels_refuted"
   ],
   "note": "Proved for even k (at most 2^53 items for f64). Refuted for odd k with fast compaction: 33 levels make est_value_at_quantile panic (shift overflow at i32)."
  },
  {
   "property": "C46",
   "status": "partial",
   "theorems": [
    "C46_buffers",
    "C46_levels_even",
    "C46_levels_any",
    "C46_fast_odd_refuted"
   ],
   "note": "Buffers below buffer_size for all k; levels logarithmic for even k in all modes and for any k without fast compaction; refuted for odd k with fast compaction (one level per item)."
  },
  {
   "property": "C47",
   "status": "partial",
   "theorems": [
    "C47_add_buffer_fast",
    "C47_add_buffer_fast2",
    "C47_fast",
    "C47_average",
    "C47_average_value",
    "C47_average_weight",
    "C47_overflow_refuted"
   ],
   "note": "Fast compaction never panics; averaging stays within bounds whose doubles are representable, weight <= count. Refuted at the top of the f64 range (average of MAX with itself is infinite)."
  },
  {
   "property": "C48",
   "status": "partial",
   "theorems": [
    "C48_as_usize",
    "C48_as_u32",
    "C48_within_partial",
    "C48_digest_partial",
    "C48_k1_refuted",
    "C48_k1_rank_refuted",
    "C48_k2_refuted",
    "C48_large_k_refuted",
    "C48_k0_refuted"
   ],
   "note": "Proved for 4 <= k <= 2^24 (at most min_sec k * (2^32-1) items, or fast compaction; for k < 8 rank queries up to k * 2^28 items). False for k = 0 (add_buffer never returns), k = 1 and k = 2 (panic in add_buffer's assertion; k = 1 also in interpolate_rank) and every k > 715827872 (u32 overflow at the first insertion). Open: k = 3 (needs 2^23 compactions of one level) and 2^24 < k <= 715827872."
  },
  {
   "property": "C49",
   "status": "partial",
   "theorems": [
    "C49_size",
    "C49_capacity_partial",
    "C49_k1_refuted",
    "C49_k2_refuted"
   ],
   "note": "sketch_size is exact for every k. Below capacity after every call for 4 <= k <= 2^24; refuted for k = 1 and k = 2."
  },
  {
   "property": "C50",
   "status": "proved",
   "theorems": [
    "C50_unbiased"
   ],
   "note": "For 4 <= k <= 2^24, both compaction modes, Default method."
  },
  {
   "property": "C51",
   "status": "partial",
   "theorems": [
    "C51_smallest",
    "C51_k1_refuted"
   ],
   "note": "The smallest 3k items are exact for 4 <= k <= 2^24; refuted for k = 1, so the property as stated for every k is partial."
  },
  {
   "property": "C52",
   "status": "proved",
   "theorems": [
    "C52_between"
   ],
   "note": "Any float format satisfying the laws, all weights."
  },
  {
   "property": "C53",
   "status": "partial",
   "theorems": [
    "C53_result_partial",
    "C53_terminates_exact_partial",
    "C53_terminates_f64_partial",
    "C53_terminates_f32_partial",
    "C53_threshold",
    "C53_all_fail",
    "C53_no_tests",
    "C53_passed_refuted",
    "C53_terminates_refuted"
   ],
   "note": "What the result is and isn't known to satisfy for all test behaviours; termination in exact arithmetic, and for f64/f32 if epsilon >= 2^-49/2^-20 of max_param; exact optimum for threshold tests. Refuted: the returned parameter need not have passed (all tests fail: max_param is returned untested), and f64 searches with tiny positive epsilon never end."
  },
  {
   "property": "C54",
   "status": "proved",
   "theorems": [
    "C54_add",
    "C54_comm",
    "C54_assoc",
    "C54_sum"
   ],
   "note": "Exact arithmetic."
  },
  {
   "property": "C55",
   "status": "partial",
   "theorems": [
    "C55_tdigest",
    "C55_buffered",
    "C55_par_tdigest",
    "C55_rc",
    "C55_sym",
    "C55_sym_refuted",
    "C55_parallel",
    "C55_parallel_refuted",
    "C55_rc2",
    "C55_rc2_refuted"
   ],
   "note": "TDigest, ParTDigest, BufferedDigest and RCSketch count exactly; SymDigest ignores the memory of its halves, ParallelDigest counts every inner struct twice, RCSketch2 counts 16 instead of 12 bytes per level counter (refuted, with the exact difference proved)."
  },
  {
   "property": "C56",
   "status": "proved",
   "theorems": [
    "C56_tree_sorted"
   ],
   "note": "Any arithmetic, any digest, any shuffle."
  },
  {
   "property": "C57",
   "status": "proved",
   "theorems": [
    "C57_counters",
    "C57_error",
    "C57_levels"
   ],
   "note": ""
  },
  {
   "property": "C58",
   "status": "proved",
   "theorems": [
    "C58_explicit",
    "C58_variance"
   ],
   "note": "In terms of the expected number of compactions of each level."
  },
  {
   "property": "C59",
   "status": "partial",
   "theorems": [
    "C59_quantile_refuted"
   ],
   "note": "Refuted: 121/120 and 119/120 at the largest of 120 items for k = 8."
  },
  {
   "property": "C60",
   "status": "proved",
   "theorems": [
    "C60_held",
    "C60_value",
    "C60_average"
   ],
   "note": "est_value for up to k * 2^20 items; averaging if the bounds and their doubles are exact floats."
  },
  {
   "property": "C61",
   "status": "proved",
   "theorems": [
    "C61_sample"
   ],
   "note": ""
  },
  {
   "property": "C62",
   "status": "partial",
   "theorems": [
    "C62_length",
    "C62_sorted",
    "C62_exact_partial",
    "C62_f64",
    "C62_f32_refuted",
    "C62_centroids"
   ],
   "note": "Exact for f64 and any i32 size; refuted for f32 beyond 2^24 + 1 elements."
  },
  {
   "property": "C63",
   "status": "proved",
   "theorems": [
    "C63_blocks"
   ],
   "note": "As long as size + 1 <= 2^53 (f64), 2^24 (f32)."
  },
  {
   "property": "C64",
   "status": "proved",
   "theorems": [
    "C64_worst",
    "C64_mean_square",
    "C64_relative",
    "C64_simple",
    "C64_tail"
   ],
   "note": "Default compaction, up to the declared number of items; k odd or even."
  },
  {
   "property": "C65",
   "status": "proved",
   "theorems": [
    "C65_weight",
    "C65_k0",
    "C65_k1",
    "C65_k2",
    "C65_k3",
    "C65_k2n",
    "C65_k2_asym",
    "C65_k2_relative",
    "C65_k3_relative",
    "C65_k2n_relative",
    "C65_k2_asym_relative"
   ],
   "note": "One add_buffer into an empty digest; exact arithmetic."
  },
  {
   "property": "C66",
   "status": "partial",
   "theorems": [
    "C66_refuted",
    "C66_weight_partial",
    "C66_k0_partial",
    "C66_k1_partial",
    "C66_k2_partial",
    "C66_k3_partial",
    "C66_k2n_partial",
    "C66_k2_asym_partial",
    "C66_k2_relative_partial",
    "C66_k3_relative_partial",
    "C66_k2n_relative_partial",
    "C66_k2_asym_relative_partial"
   ],
   "note": "Fails when the last centroid has weight w > 1 and 1 <= n(1-q) <= w/2 (C66_refuted, f64). Proved elsewhere, for one add_buffer, in exact arithmetic."
  },
  {
   "property": "C67",
   "status": "proved",
   "theorems": [
    "C67_parts"
   ],
   "note": "Exact arithmetic."
  },
  {
   "property": "C68",
   "status": "proved",
   "theorems": [
    "C68_quantile_at",
    "C68_quantile_last",
    "C68_quantile_between",
    "C68_quantile_ends",
    "C68_value_between",
    "C68_value_ends"
   ],
   "note": "Exact arithmetic; the branch of the value query in the upper half of a last centroid heavier than 1 is C20."
  },
  {
   "property": "C69",
   "status": "partial",
   "theorems": [
    "C69_single_centroids_partial",
    "C69_k0_partial",
    "C69_k1_partial",
    "C69_one_item_refuted"
   ],
   "note": "Two or more items for quantiles (one item answers 1/2, C69_one_item_refuted); exact arithmetic."
  },
  {
   "property": "C70",
   "status": "proved",
   "theorems": [
    "C70_cap",
    "C70_k0",
    "C70_k1",
    "C70_k2",
    "C70_k3",
    "C70_k2_asym",
    "C70_k2n"
   ],
   "note": "Exact arithmetic; for k2n, whose steps can shrink as items arrive, the cap is the largest reached so far (C70_k2n)."
  },
  {
   "property": "C71",
   "status": "proved",
   "theorems": [
    "C71_parallel_f64",
    "C71_parallel_f32",
    "C71_huge_values_panic"
   ],
   "note": "f64 with |items| <= 2^900 and up to 2^52 items, f32 with 2^100 and 2^23. Without the bound it panics (C71_huge_values_panic)."
  },
  {
   "property": "C72",
   "status": "proved",
   "theorems": [
    "C72_schedule"
   ],
   "note": "Any arithmetic."
  },
  {
   "property": "C73",
   "status": "partial",
   "theorems": [
    "C73_span_refuted",
    "C73_step_partial",
    "C73_linear_partial"
   ],
   "note": "One unit of scale is refuted (C73_span_refuted). Within the growth limit the test it makes is characterised in full where the means are strictly ascending, and for repeated means except for which cluster is joined; with k0 the weight is bounded."
  },
  {
   "property": "C74",
   "status": "partial",
   "theorems": [
    "C74_span_refuted",
    "C74_test_partial"
   ],
   "note": "One unit of scale is refuted (C74_span_refuted). The characterisation is for k0, within the growth limit, when the call returns (C28: it panics on repeated means)."
  },
  {
   "property": "C75",
   "status": "proved",
   "theorems": [
    "C75_terms",
    "C75_any",
    "C75_k0",
    "C75_k1",
    "C75_k2",
    "C75_k3",
    "C75_k2_asym",
    "C75_k2n",
    "C75_calls_matter"
   ],
   "note": "Exact arithmetic. C75_calls_matter: an f64 history on which three weights without the factor b are not enough."
  },
  {
   "property": "C76",
   "status": "partial",
   "theorems": [
    "C76_refuted",
    "C76_any_partial",
    "C76_k0_partial",
    "C76_k1_partial",
    "C76_k2_partial",
    "C76_k3_partial",
    "C76_k2_asym_partial",
    "C76_k2n_partial"
   ],
   "note": "Fails when the last centroid has weight w > 1 and 1 <= n(1-q) <= w/2 (C76_refuted, f64). Proved elsewhere, in exact arithmetic."
  },
  {
   "property": "C77",
   "status": "proved",
   "theorems": [
    "C77_terms",
    "C77_one_delivery",
    "C77_any",
    "C77_k0",
    "C77_k1",
    "C77_k2",
    "C77_k3",
    "C77_k2_asym"
   ],
   "note": "Exact arithmetic; k2n is not covered (its steps need not grow with the number of items)."
  },
  {
   "property": "C78",
   "status": "partial",
   "theorems": [
    "C78_refuted",
    "C78_any_partial",
    "C78_k0_partial",
    "C78_k1_partial",
    "C78_k2_partial",
    "C78_k3_partial",
    "C78_k2_asym_partial"
   ],
   "note": "Fails when the last centroid has weight w > 1 and 1 <= n(1-q) <= w/2 (C78_refuted, f64). Proved elsewhere, in exact arithmetic."
  },
  {
   "property": "C79",
   "status": "proved",
   "theorems": [
    "C79_worst",
    "C79_smallest",
    "C79_relative",
    "C79_tail_low",
    "C79_tail_high"
   ],
   "note": "Odd k: see C45_levels_refuted; C43_any bounds the ranks there."
  },
  {
   "property": "C80",
   "status": "proved",
   "theorems": [
    "C80_worst",
    "C80_smallest",
    "C80_tail_high",
    "C80_tail_low"
   ],
   "note": "Weights are not conserved (C59), hence the doubled error above N - E."
  },
  {
   "property": "C81",
   "status": "proved",
   "theorems": [
    "C81_linear",
    "C81_tdigest",
    "C81_scales",
    "C81_rank",
    "C81_value",
    "C81_buffered_tdigest"
   ],
   "note": "Exact arithmetic. With capacity 0 add_buffer panics, hence capacity >= 1."
  },
  {
   "property": "C82",
   "status": "proved",
   "theorems": [
    "C82_multi_rank",
    "C82_multi_value",
    "C82_sym_rank",
    "C82_sym_value",
    "C82_multi_tdigest",
    "C82_sym_tdigest",
    "C82_sym_linear"
   ],
   "note": "Exact arithmetic."
  },
  {
   "property": "C83",
   "status": "proved",
   "theorems": [
    "C83_members",
    "C83_linear",
    "C83_tdigest"
   ],
   "note": "Exact arithmetic. A member left empty panics or spoils the answer (C10), hence the first full buffer."
  },
  {
   "property": "C84",
   "status": "proved",
   "theorems": [
    "C84_members",
    "C84_linear",
    "C84_tdigest"
   ],
   "note": "Exact arithmetic."
  },
  {
   "property": "C85",
   "status": "proved",
   "theorems": [
    "C85_runs",
    "C85_value_low",
    "C85_value_high",
    "C85_value_worst",
    "C85_quantile_low",
    "C85_quantile_high",
    "C85_eighths"
   ],
   "note": "At q = 1/2 exactly SymDigest averages both sides, hence the exclusion."
  },
  {
   "property": "C86",
   "status": "proved",
   "theorems": [
    "C86_rc",
    "C86_rc2",
    "C86_deliveries",
    "C86_part",
    "C86_buffered",
    "C86_sym",
    "C86_parallel",
    "C86_parallel_value"
   ],
   "note": "Exact arithmetic."
  },
  {
   "property": "C87",
   "status": "proved",
   "theorems": [
    "C87_rc",
    "C87_rc2",
    "C87_multi",
    "C87_copies",
    "C87_tail"
   ],
   "note": "Exact arithmetic. The coins are fair and independent by the semantics of Flip (DESIGN 3)."
  },
  {
   "property": "C88",
   "status": "partial",
   "theorems": [
    "C88_conv",
    "C88_sampled",
    "C88_uniform",
    "C88_tan",
    "C88_exp",
    "C88_exp_panics",
    "C88_centroids",
    "C88_random_weight",
    "C88_below_refuted",
    "C88_weight_refuted"
   ],
   "note": "False in two places: as f32 a uniform value can be 1001 itself (C88_below_refuted), and a random weight can be 0, after which a TDigest holds a NaN centroid and the next insertion panics (C88_weight_refuted). The rest is proved with the closed range [0, 1001]. The distributions (rand, rand_distr) and tan are oracles."
  },
  {
   "property": "C89",
   "status": "proved",
   "theorems": [
    "C89_rank",
    "C89_all",
    "C89_relative",
    "C89_relative9",
    "C89_rank2",
    "C89_all2",
    "C89_rc",
    "C89_rc2",
    "C89_multi",
    "C89_copies",
    "C89_tail"
   ],
   "note": ""
  },
  {
   "property": "C90",
   "status": "proved",
   "theorems": [
    "C90_values",
    "C90_values2"
   ],
   "note": ""
  },
  {
   "property": "C91",
   "status": "proved",
   "theorems": [
    "C91_rank",
    "C91_rank2",
    "C91_value",
    "C91_value2",
    "C91_distribution"
   ],
   "note": ""
  },
  {
   "property": "C92",
   "status": "partial",
   "theorems": [
    "C92_rank",
    "C92_rank_always",
    "C92_value",
    "C92_unit_tests",
    "C92_unit_test_values",
    "C92_rc2_refuted"
   ],
   "note": "RCSketch: proved for all coins (C92_unit_tests, C92_unit_test_values; the lower end of the 0.001 quantile is C79_smallest). RCSketch2: refuted by the coins all true; an exhaustive enumeration outside Coq puts the probability that the rank of 500 is within the tolerance at about 0.79 (not proved)."
  },
  {
   "property": "C93",
   "status": "proved",
   "theorems": [
    "C93_between",
    "C93_ends",
    "C93_monotone",
    "C93_same_mean_nan"
   ],
   "note": ""
  },
  {
   "property": "C94",
   "status": "proved",
   "theorems": [
    "C94_buffered",
    "C94_parallel",
    "C94_parallel_bound"
   ],
   "note": ""
  },
  {
   "property": "C95",
   "status": "proved",
   "theorems": [
    "C95_mse",
    "C95_low",
    "C95_high",
    "C95_relative"
   ],
   "note": ""
  },
  {
   "property": "C96",
   "status": "proved",
   "theorems": [
    "C96_buffered",
    "C96_parallel",
    "C96_parallel_tail",
    "C96_low",
    "C96_high",
    "C96_relative"
   ],
   "note": ""
  },
  {
   "property": "C97",
   "status": "proved",
   "theorems": [
    "C97_linear",
    "C97_rc",
    "C97_t_f32",
    "C97_t_f64",
    "C97_t_count_f32",
    "C97_t_count_f64",
    "C97_rc_count",
    "C97_values_from_quantiles",
    "C97_absolute",
    "C97_relative_zero",
    "C97_relative",
    "C97_self"
   ],
   "note": ""
  },
  {
   "property": "C98",
   "status": "partial",
   "theorems": [
    "C98_quantile_range",
    "C98_monotone_refuted",
    "C98_monotone_partial",
    "C98_value_refuted",
    "C98_value_partial"
   ],
   "note": "Quantile range proved. Monotonicity of both queries and the range of value queries are false of the code (witnesses); proved, for every history, outside the exceptional branches named in the theorems. Exact arithmetic (rounded: C71)."
  },
  {
   "property": "C99",
   "status": "proved",
   "theorems": [
    "C99_floor",
    "C99_same",
    "C99_rc_values",
    "C99_rc_quantiles",
    "C99_t_values_f32",
    "C99_t_quantiles_f32",
    "C99_t_values_f64",
    "C99_t_quantiles_f64",
    "C99_required_pass",
    "C99_required_linear_f64",
    "C99_required_linear_f32",
    "C99_required_rc"
   ],
   "note": ""
  }
 ]
}