{"id": "C01", "title": "Reference digest counts every item", "statement": "After any interleaving of add, add_buffer and queries that does not panic, LinearDigest::count() equals the number of items supplied, and the multiset of stored values equals the multiset supplied (queries may reorder but never lose or duplicate).", "quantifier": "all histories of add/add_buffer/est_quantile_at_value/est_value_at_quantile on a LinearDigest, f32/f64 values including NaN", "why_tests_cant": "Unit tests try a handful of fixed datasets; the claim is over unbounded histories where queries (which sort in place) interleave with adds.", "anchors": ["src/util/linear_digest.rs: LinearDigest::{add,add_buffer,est_value_at_quantile,count}"]}
{"id": "C02", "title": "Reference quantile is the exact mid-rank fraction", "statement": "On non-empty non-NaN data LinearDigest::est_quantile_at_value(v) is (#items < v)/n, plus half of #items == v over n when at least two items equal v; it lies in [0,1], is non-decreasing in v and depends only on the multiset of items supplied, not on order or earlier queries.", "quantifier": "all datasets, all histories producing them, all query values (exact arithmetic; range and history-independence also for IEEE floats)", "why_tests_cant": "Needs all datasets, all permutations and all pairs of query points.", "anchors": ["src/util/linear_digest.rs: est_quantile_at_value"]}
{"id": "C03", "title": "Reference value query is the right order statistic", "statement": "On a non-empty NaN-free dataset of n items and any q in [0,1], LinearDigest::est_value_at_quantile(q) never panics and returns the item at sorted position min(round(q*n), n-1): a member of the dataset with at most that many items strictly below it and more than that many items at or below it. It is non-decreasing in q.", "quantifier": "all datasets, all q in [0,1], exact reals and IEEE floats (rounded product)", "why_tests_cant": "Quantifies over all datasets and over all float q, including products that round.", "anchors": ["src/util/linear_digest.rs: est_value_at_quantile"]}
{"id": "C04", "title": "Buffering is transparent", "statement": "For any inner digest, any capacity >= 1 and any history, a BufferedDigest delivers to the inner digest exactly the supplied items in the supplied order (split in batches: capacity+1 to 2*capacity items when the buffer overflows, at most capacity items just before a query), reports count = items supplied, never holds more than `capacity` items between calls, and a query is answered by an inner digest that has seen all items. With a LinearDigest inside, every answer equals the answer of a bare LinearDigest given the same history.", "quantifier": "all inner digests implementing the trait, all capacities >= 1, all histories", "why_tests_cant": "Arbitrary inner implementation and unbounded histories.", "anchors": ["src/buffered_digest.rs: BufferedDigest::{add,add_buffer,flush,est_quantile_at_value,est_value_at_quantile,count}"]}
{"id": "C05", "title": "Any buffer capacity is usable", "statement": "BufferedDigest::add_buffer and add work for every capacity, including 0.", "quantifier": "all capacities", "why_tests_cant": "Boundary configuration; tests only use large capacities.", "anchors": ["src/buffered_digest.rs: add_buffer (chunks(self.capacity))"]}
{"id": "C06", "title": "MultiDigest forwards everything and averages", "statement": "After any history every member digest of a MultiDigest is in exactly the state it would be in had it alone received that history, and each query returns the arithmetic mean of the members' answers. This includes members added with add_digest, which joins the new member to all earlier ones.", "quantifier": "all member lists, all histories", "why_tests_cant": "Arbitrary members and histories.", "anchors": ["src/multi_digest.rs: MultiDigest::{new,add_digest,add,add_buffer,est_quantile_at_value,est_value_at_quantile}"]}
{"id": "C07", "title": "MultiDigest count is the number of elements seen", "statement": "MultiDigest::count() returns the number of elements the digest has seen (trait documentation).", "quantifier": "all member lists, all histories", "why_tests_cant": "Needs every number of members.", "anchors": ["src/multi_digest.rs: count", "src/traits.rs: Digest::count"]}
{"id": "C08", "title": "SymDigest mirrors the data and picks the right side", "statement": "SymDigest sends x to the low digest and -x to the high digest; est_value_at_quantile answers from the low digest for q < 1/2, from the mirrored high digest for q > 1/2 and from their mean at 1/2; with exact (linear) members the value returned for q != 1/2 is an item supplied and its rank error is at most one position; count equals the number of items.", "quantifier": "all histories, all q in [0,1], all member digests", "why_tests_cant": "All data, all q, all member implementations.", "anchors": ["src/sym_digest.rs: SymDigest::{add,add_buffer,est_quantile_at_value,est_value_at_quantile,count}"]}
{"id": "C09", "title": "Parallel add loses nothing", "statement": "ParallelDigest::add_buffer with d >= 1 digests splits a non-empty buffer into consecutive chunks, each delivered to a different digest, whose concatenation is the buffer; count() grows by the buffer length and min/max are the extremes of all items seen.", "quantifier": "all buffers of length < 2^53 (chunk size computed in f64), all d >= 1, all inner digests", "why_tests_cant": "The chunk size goes through f64 division and ceil; dropping items depends on rounding for every (len, d) pair.", "anchors": ["src/parallel_digest.rs: add_buffer", "PD: count"]}
{"id": "C10", "title": "Parallel queries are usable for every item count", "statement": "For every non-empty ParallelDigest (any number of items >= 1, any number of digests), est_quantile_at_value returns a number in [0,1] and est_value_at_quantile(q) does not panic.", "quantifier": "all item counts and digest counts", "why_tests_cant": "Depends on the arithmetic relation between item count and digest count.", "anchors": ["src/parallel_digest.rs: est_quantile_at_value, est_value_at_quantile"]}
{"id": "C11", "title": "Parallel value search terminates and brackets", "statement": "When the combined quantile estimate is non-NaN, ParallelDigest::est_value_at_quantile stops after at most 21 bisection steps, returns a value in [min,max], and the returned value v has estimated quantile >= target unless v is the upper end of the final bracket; the bracket is narrower than 1e-6*(|min|+|max|).", "quantifier": "all inner digests, all q, all data (exact arithmetic)", "why_tests_cant": "Loop termination for all inputs.", "anchors": ["src/parallel_digest.rs: est_value_at_quantile"]}
{"id": "C12", "title": "Parallel quantile does not depend on the schedule", "statement": "The result of ParallelDigest::est_quantile_at_value does not depend on how rayon splits and reduces the per-digest partial ranks.", "quantifier": "all reduction trees (schedules), all digests", "why_tests_cant": "Work-stealing schedules cannot be enumerated by tests.", "anchors": ["src/parallel_digest.rs: est_quantile_at_value (reduce)"]}
{"id": "C13", "title": "t-digest conserves total weight", "statement": "After any history of add/add_buffer calls on NaN-free finite data, for any scale function, TDigest::count()/total_weight() is exactly the number of items supplied.", "quantifier": "all scale functions, all histories of up to 2^53 items in f64 arithmetic with rounding (and unbounded in exact arithmetic)", "why_tests_cant": "Unbounded histories, arbitrary closures, and floating-point accumulation.", "anchors": ["src/t_digest/t_digest.rs: add_centroid_buffer, total_weight, count"]}
{"id": "C14", "title": "t-digest conserves the weighted sum", "statement": "The weighted mean of the centroids equals the mean of all items supplied: merging never shifts mass.", "quantifier": "all scale functions, all histories (exact arithmetic)", "why_tests_cant": "All inputs and merge patterns.", "anchors": ["src/t_digest/t_digest.rs: add_centroid_buffer"]}
{"id": "C15", "title": "t-digest centroids stay sorted, weighted >= 1 and inside [min,max]", "statement": "After every add/add_buffer the centroid list is sorted by mean, every weight is >= 1 and integral, every mean lies between the tracked min and max.", "quantifier": "all scale functions, all histories (exact arithmetic)", "why_tests_cant": "Invariant over unbounded histories.", "anchors": ["src/t_digest/t_digest.rs: add_centroid_buffer"]}
{"id": "C16", "title": "t-digest tracks the true extremes", "statement": "After any history of add/add_buffer the digest's min and max are the smallest and largest item supplied; est_value_at_quantile(0) and (1) return them.", "quantifier": "all scale functions, all histories", "why_tests_cant": "Histories and rounding.", "anchors": ["src/t_digest/t_digest.rs: add_centroid_buffer (min/max)", "src/t_digest/t_digest.rs: est_value_at_quantile"]}
{"id": "C17", "title": "t-digest quantile query never panics and stays in [0,1]", "statement": "On a non-empty digest built by add/add_buffer, est_quantile_at_value(v) for any non-NaN v returns a value in [0,1], 0 below min and 1 above max, and never reaches the 'Illegal state' panic.", "quantifier": "all reachable digests, all non-NaN query values; exact arithmetic, and the range and no-panic parts also in f64 (magnitudes up to 2^900, up to 2^52 items) and f32 (2^100, 2^23); no-panic also with unsorted means", "why_tests_cant": "The panic is reachable only for adversarial centroid layouts.", "anchors": ["src/t_digest/t_digest.rs: est_quantile_at_value"]}
{"id": "C18", "title": "t-digest quantile query is monotone", "statement": "v1 <= v2 implies est_quantile_at_value(v1) <= est_quantile_at_value(v2).", "quantifier": "all reachable digests, all pairs of query values", "why_tests_cant": "All pairs of query points around every centroid.", "anchors": ["src/t_digest/t_digest.rs: est_quantile_at_value"]}
{"id": "C19", "title": "t-digest value query never panics", "statement": "On a non-empty digest built by add/add_buffer, est_value_at_quantile(q) for q in [0,1] never indexes out of bounds or panics.", "quantifier": "all reachable digests, all q in [0,1], exact, f64 and f32 arithmetic", "why_tests_cant": "Index arithmetic driven by accumulated float weights.", "anchors": ["src/t_digest/t_digest.rs: est_value_at_quantile"]}
{"id": "C20", "title": "t-digest value query stays within the data range", "statement": "est_value_at_quantile(q) returns a value between the smallest and largest item supplied.", "quantifier": "all reachable digests, all q in [0,1]", "why_tests_cant": "All centroid weights / data scales.", "anchors": ["src/t_digest/t_digest.rs: est_value_at_quantile"]}
{"id": "C21", "title": "t-digest value query is monotone in q", "statement": "q1 <= q2 implies est_value_at_quantile(q1) <= est_value_at_quantile(q2).", "quantifier": "all reachable digests, all q1 <= q2", "why_tests_cant": "All pairs.", "anchors": ["src/t_digest/t_digest.rs: est_value_at_quantile"]}
{"id": "C22", "title": "t-digest centroid size obeys the scale function", "statement": "After a merge, every centroid of more than one input centroid spans at most one unit of the scale function (k(q_right) - k(q_left) <= 1), for every increasing scale function with a true inverse.", "quantifier": "all increasing scale functions with inverse, all inputs (exact arithmetic)", "why_tests_cant": "This is the accuracy-defining invariant of the structure, over all inputs.", "anchors": ["src/t_digest/t_digest.rs: add_centroid_buffer (get_w_limit)"]}
{"id": "C23", "title": "t-digest has bounded size", "statement": "The number of centroids after any add_buffer is bounded by the compression factor independently of the number of items (k0: <= compress_factor + 1; k2/k3: bounded by twice the scale span; k1: bounded by compress_factor).", "quantifier": "all inputs, all compression factors, each shipped scale function", "why_tests_cant": "Size bound must hold for every n.", "anchors": ["src/t_digest/t_digest.rs: add_centroid_buffer", "src/t_digest/scale_functions.rs: k0,inv_k0,k1,inv_k1,k2,inv_k2,k3,inv_k3"]}
{"id": "C24", "title": "t-digest of a buffer depends only on its multiset", "statement": "add_buffer on a fresh digest gives the same centroids, min and max for every ordering of the buffer and for every valid unstable sort.", "quantifier": "all permutations, all unstable sorts", "why_tests_cant": "Permutations and sort implementation freedom.", "anchors": ["src/t_digest/t_digest.rs: add_buffer, add_centroid_buffer (par_sort_unstable_by)"]}
{"id": "C25", "title": "add_cluster conserves weight and tracks extremes", "statement": "add_cluster(clusters, growth_limit) never loses weight: the total weight grows by the weight of the clusters, for every binary-search implementation and scale function, and min/max cover the clusters' means.", "quantifier": "all cluster lists, digests, growth limits, scale functions", "why_tests_cant": "All histories with periodic internal merges.", "anchors": ["src/t_digest/t_digest.rs: add_cluster, update_limits"]}
{"id": "C26", "title": "add_cluster keeps centroids sorted", "statement": "After add_cluster the centroids are sorted by mean (which its own binary searches and the queries rely on).", "quantifier": "all sorted digests and cluster lists", "why_tests_cant": "Depends on runs of equal means.", "anchors": ["src/t_digest/t_digest.rs: add_cluster, find_closest_centroids"]}
{"id": "C27", "title": "find_closest_centroids returns the nearest centroids", "statement": "The returned index range is non-empty, in bounds, and covers exactly the centroids at minimal distance from the target (documentation).", "quantifier": "all sorted digests, all targets", "why_tests_cant": "All layouts with ties.", "anchors": ["src/t_digest/t_digest.rs: find_closest_centroids"]}
{"id": "C28", "title": "add_cluster_tree conserves weight and accepts repeated values", "statement": "add_cluster_tree adds exactly the clusters' weight and does not panic on NaN-free input, for every shuffle.", "quantifier": "all cluster lists, all shuffles, all digests", "why_tests_cant": "Random shuffles and repeated keys.", "anchors": ["src/t_digest/t_digest.rs: add_cluster_tree"]}
{"id": "C29", "title": "Parallel t-digest counts every item", "statement": "ParTDigest::count() equals the number of items supplied after any history, buffered or not; a flush moves the whole buffer into the digest.", "quantifier": "all histories, capacities, chunk sizes >= 1, scale functions", "why_tests_cant": "Unbounded histories across flushes.", "anchors": ["src/t_digest/par_t_digest.rs: ParTDigest::{add,add_buffer,flush,count}"]}
{"id": "C30", "title": "Parallel t-digest tracks the true extremes", "statement": "After any history ParTDigest's est_value_at_quantile(0) and (1) are the smallest and largest item supplied.", "quantifier": "all histories", "why_tests_cant": "Needs several flushes.", "anchors": ["src/t_digest/par_t_digest.rs: flush (min/max)"]}
{"id": "C31", "title": "Scale functions and inverses cancel", "statement": "inv_k(k(q)) = q for k0, k1, k2, k2_asym, k2n and k3, for every q in (0,1), compression factor > 0 and n for which the scale denominator is non-zero.", "quantifier": "all q, compression factors, n (exact reals)", "why_tests_cant": "Continuum of arguments; unit tests sample 100 points with cf=n=10.", "anchors": ["src/t_digest/scale_functions.rs: all functions"]}
{"id": "C32", "title": "Scale functions are increasing", "statement": "Each scale function is increasing in the quantile for compression factor > 0 and n/compress_factor above the degenerate threshold.", "quantifier": "all q1 < q2 in (0,1), cf, n", "why_tests_cant": "Continuum.", "anchors": ["src/t_digest/scale_functions.rs: all functions"]}
{"id": "C33", "title": "Stepping one scale unit never goes backwards", "statement": "inv_k(k(q)+1) >= q: the size limit computed during a merge is never below the weight already consumed.", "quantifier": "all q in [0,1), all scale function pairs", "why_tests_cant": "Continuum; wrap-around of sin for k1 near q=1.", "anchors": ["src/t_digest/scale_functions.rs: inv_k1", "src/t_digest/t_digest.rs: get_w_limit"]}
{"id": "C34", "title": "KeyedSumTree is a sorted map", "statement": "After any sequence of inserts of fresh keys and deletes of present keys, sorted_vec_key lists exactly the live (key, weight) pairs in increasing key order and size() is their number.", "quantifier": "all operation sequences", "why_tests_cant": "All tree shapes.", "anchors": ["src/util/keyed_sum_tree.rs: insert, delete, rightmost_child, sorted_vec_key, size"]}
{"id": "C35", "title": "KeyedSumTree prefix sums are correct", "statement": "less_than_sum(k) returns the total weight of live keys below k (None only for an empty tree).", "quantifier": "all operation sequences, all keys", "why_tests_cant": "All tree shapes and delete positions.", "anchors": ["src/util/keyed_sum_tree.rs: less_than_sum, insert, delete"]}
{"id": "C36", "title": "KeyedSumTree delete of an absent key changes nothing", "statement": "Deleting a key that is not present leaves contents and size() unchanged.", "quantifier": "all trees, all absent keys", "why_tests_cant": "All trees.", "anchors": ["src/util/keyed_sum_tree.rs: KeyedSumTree::delete"]}
{"id": "C37", "title": "KeyedSumTree closest_keys finds the nearest key", "statement": "closest_keys(t) on a non-empty tree contains a live key nearest to t and only live keys within 0.001 of the minimal distance.", "quantifier": "all trees, all targets", "why_tests_cant": "All tree shapes.", "anchors": ["src/util/keyed_sum_tree.rs: closest_keys"]}
{"id": "C38", "title": "RC sketch never panics and terminates within its declared input length", "statement": "For k >= 1 and any history adding at most input_length items (any mix of add/add_buffer), for every outcome of the random choices, RCSketch neither panics nor loops, and count() is the number of items.", "quantifier": "all k >= 1, input lengths, histories, coin outcomes", "why_tests_cant": "Compaction index arithmetic can underflow; depends on counters, history and randomness.", "anchors": ["src/rc_sketch/rc_sketch.rs: insert_at_rc, insert_at_rc_batch, get_compact_index, compact, calc_buffer_size"]}
{"id": "C39", "title": "RC sketch never panics for any number of items", "statement": "RCSketch accepts more than input_length items without panicking.", "quantifier": "all histories", "why_tests_cant": "Requires exponentially long histories in general.", "anchors": ["src/rc_sketch/rc_sketch.rs: get_compact_index"]}
{"id": "C40", "title": "RC sketch conserves weight", "statement": "The retained items' weights (2^level) always sum to count(): est_quantile_at_value(v) is at most 1, and is exactly 1 for v >= every item.", "quantifier": "all histories, all coins, all k", "why_tests_cant": "All parities of k and of compaction sizes.", "anchors": ["src/rc_sketch/rc_sketch.rs: compact, interpolate_rank, est_quantile_at_value"]}
{"id": "C41", "title": "RC sketch keeps the smallest items exactly", "statement": "For any history within input_length, any order of arrival and any coins, interpolate_rank(v) is exactly the number of items <= v whenever that number is at most the protected prefix of the bottom buffer ((buffer_size/2k - 1)*k for default compaction, buffer_size/2 for fast compaction).", "quantifier": "all histories, orders, coins, v", "why_tests_cant": "Relative-error guarantee at the low end, over all inputs and random choices.", "anchors": ["src/rc_sketch/rc_sketch.rs: get_compact_index, compact, interpolate_rank"]}
{"id": "C42", "title": "RC sketch rank is an unbiased estimator", "statement": "Averaged over the random choices, interpolate_rank(v) equals the exact number of items <= v.", "quantifier": "all histories, all v, expectation over coins", "why_tests_cant": "Statistical statement: sampling can only suggest it.", "anchors": ["src/rc_sketch/rc_sketch.rs: compact (Default), interpolate_rank"]}
{"id": "C43", "title": "RC sketch rank error is bounded by the compactions performed", "statement": "|interpolate_rank(v) - #items <= v| <= sum over levels of 2^level times the number of compactions of that level; with n items within input_length this is bounded by an explicit function of n and k.", "quantifier": "all histories, coins, v", "why_tests_cant": "All inputs and coins.", "anchors": ["src/rc_sketch/rc_sketch.rs: compact, interpolate_rank"]}
{"id": "C44", "title": "RC sketch rank variance is bounded", "statement": "The mean squared error of interpolate_rank(v) over the random choices is at most the sum over levels of 4^level times the maximal number of compactions of that level, giving a Chebyshev tail bound.", "quantifier": "all histories, all v", "why_tests_cant": "Statistical.", "anchors": ["src/rc_sketch/rc_sketch.rs: compact (Default), interpolate_rank"]}
{"id": "C45", "title": "RC sketch queries are consistent", "statement": "est_quantile_at_value is non-decreasing; est_value_at_quantile(q) returns a retained item (an actual input item under default compaction) which is the smallest retained value whose rank exceeds q*count, and is non-decreasing in q; both never panic on a non-empty sketch.", "quantifier": "all histories, coins, queries", "why_tests_cant": "All inputs.", "anchors": ["src/rc_sketch/rc_sketch.rs: est_value_at_quantile, interpolate_rank, sorted_weighted_values"]}
{"id": "C46", "title": "RC sketch space bound", "statement": "Every level holds fewer than buffer_size items between calls and the number of levels is logarithmic in the number of items.", "quantifier": "all histories, coins", "why_tests_cant": "All histories.", "anchors": ["src/rc_sketch/rc_sketch.rs: insert_at_rc, insert_at_rc_batch"]}
{"id": "C47", "title": "RC sketch fast/averaging modes", "statement": "With fast compaction the sketch never panics for any number of items; with AverageNeighbour every retained value stays within [min,max] of the items and the retained weight never exceeds count. add_buffer_fast is add_buffer_custom with fast compaction and the default method, in both sketches.", "quantifier": "all histories through add_buffer_custom, both compaction methods", "why_tests_cant": "All histories.", "anchors": ["src/rc_sketch/rc_sketch.rs: add_buffer_custom, add_buffer_fast, compact"]}
{"id": "C48", "title": "RC sketch 2 never panics", "statement": "RCSketch2 with k >= 8 never panics, terminates and counts correctly, for any history and coins while counters stay in u32 range; any k >= 1 works.", "quantifier": "all k, histories, coins", "why_tests_cant": "Section sizes shrink by sqrt 2 in f32; capacity interplay.", "anchors": ["src/rc_sketch/rc_sketch2.rs: insert, insert_batch, compress, get_compact_index, update_sections"]}
{"id": "C49", "title": "RC sketch 2 bookkeeping is exact", "statement": "sketch_size always equals the number of retained items, and after every add it is below the sketch capacity.", "quantifier": "all histories, coins", "why_tests_cant": "Invariant over unbounded histories.", "anchors": ["src/rc_sketch/rc_sketch2.rs: insert, insert_batch, compress, get_sketch_capacity"]}
{"id": "C50", "title": "RC sketch 2 rank is unbiased", "statement": "Averaged over the random choices RCSketch2::interpolate_rank(v) equals the number of items <= v.", "quantifier": "all histories, v; expectation over coins", "why_tests_cant": "Statistical.", "anchors": ["src/rc_sketch/rc_sketch2.rs: compact_buffer, compress, interpolate_rank"]}
{"id": "C51", "title": "RC sketch 2 keeps the smallest items exactly", "statement": "Ranks up to the protected part of the bottom buffer are exact for all orders and coins.", "quantifier": "all histories, orders, coins", "why_tests_cant": "All inputs.", "anchors": ["src/rc_sketch/rc_sketch2.rs: get_compact_index, compact_buffer"]}
{"id": "C52", "title": "weighted_average is clamped", "statement": "weighted_average(x1,w1,x2,w2) lies between x1 and x2 for all non-NaN x1,x2 and all weights, including zero-sum, negative, infinite and NaN weights, in IEEE arithmetic.", "quantifier": "all floats", "why_tests_cant": "All 2^256 inputs.", "anchors": ["src/util/mod.rs: weighted_average"]}
{"id": "C53", "title": "opt_accuracy_parameter returns a passing parameter", "statement": "The parameter returned passed the test (as its comment claims), within epsilon of a failing one (or of 0), and the search terminates for epsilon > 0.", "quantifier": "all pass/fail behaviours, max_param, epsilon", "why_tests_cant": "Arbitrary test oracles.", "anchors": ["src/util/mod.rs: opt_accuracy_parameter"]}
{"id": "C54", "title": "Centroid addition is a weighted mean", "statement": "Adding two positively weighted centroids adds the weights and yields a mean between the two means with the weighted sum preserved; it is commutative and associative.", "quantifier": "all centroids with positive weight (exact arithmetic)", "why_tests_cant": "Continuum.", "anchors": ["src/t_digest/centroid.rs: Add for Centroid"]}
{"id": "C55", "title": "owned_size counts the owned heap memory", "statement": "owned_size() of wrappers accounts exactly once for every owned inner allocation.", "quantifier": "all wrapper/inner combinations", "why_tests_cant": "Any inner size.", "anchors": ["src/sym_digest.rs: owned_size", "src/parallel_digest.rs: owned_size", "src/buffered_digest.rs: owned_size"]}
{"id": "C56", "title": "add_cluster_tree leaves strictly ascending centroids", "statement": "Whenever add_cluster_tree returns, the centroid means are strictly ascending (hence distinct), whatever the digest held before.", "quantifier": "all digests, cluster lists, growth limits, shuffles, scale functions, float arithmetics", "why_tests_cant": "Quantifies over every shuffle and every prior (even unsorted) digest state and every rounding behaviour.", "anchors": ["src/t_digest/t_digest.rs: add_cluster_tree", "src/util/keyed_sum_tree.rs: sorted_vec_key"]}
{"id": "C57", "title": "RC sketch 2 worst-case rank error", "statement": "For every history of default insertions and all coins, interpolate_rank(v) of RCSketch2 differs from the number of items <= v by at most the compactions weighted by 2^level, hence by at most about (levels * items) / (k/4).", "quantifier": "all k in 8..2^24, histories, v, coins", "why_tests_cant": "Worst case over all coin sequences and unbounded histories.", "anchors": ["src/rc_sketch/rc_sketch2.rs: compact_buffer, compress, interpolate_rank"]}
{"id": "C58", "title": "RC sketch 2 rank variance", "statement": "The mean square error of interpolate_rank(v) over the coins is at most the expected number of compactions weighted by 4^level.", "quantifier": "all k, histories, v; expectation over coins", "why_tests_cant": "Second moment over an exponential coin space.", "anchors": ["src/rc_sketch/rc_sketch2.rs: compact_buffer, compress, interpolate_rank"]}
{"id": "C59", "title": "RC sketch 2 quantiles lie in [0,1]", "statement": "est_quantile_at_value of RCSketch2 is between 0 and 1, and is 1 at or above the largest item.", "quantifier": "all k, histories, coins", "why_tests_cant": "Depends on the parity of every compacted range and on the coins.", "anchors": ["src/rc_sketch/rc_sketch2.rs: est_quantile_at_value, compact_buffer"]}
{"id": "C60", "title": "RC sketch 2 values are inserted items", "statement": "With the default method every held item and every answer of est_value_at_quantile is an inserted item; with averaging it lies between the smallest and largest inserted items.", "quantifier": "all k in 8..2^24, histories, q, coins", "why_tests_cant": "All inputs and coins.", "anchors": ["src/rc_sketch/rc_sketch2.rs: est_value_at_quantile, compact_buffer, sorted_weighted_values"]}
{"id": "C61", "title": "sample_digest_accuracy pairs each digest with the truth of its own dataset", "statement": "It returns test_count errors; the j-th is error_func of an answer of the digest created from dataset j and the answer of a LinearDigest holding exactly dataset j.", "quantifier": "all closures, digests and test counts", "why_tests_cant": "Arbitrary closures.", "anchors": ["src/util/mod.rs: sample_digest_accuracy"]}
{"id": "C62", "title": "gen_asc_vec is 0, 1, .., size-1", "statement": "gen_asc_vec(size) has max(size,0) elements, the i-th equal to i, strictly ascending; gen_asc_centroid_vec gives them weight 1.", "quantifier": "all i32 sizes, both float types", "why_tests_cant": "Sizes up to 2^31.", "anchors": ["src/util/mod.rs: gen_asc_vec", "src/util/mod.rs: gen_asc_centroid_vec"]}
{"id": "C63", "title": "gen_growing_blocks_vec grows in blocks", "statement": "For any random draws the values are integers counted from 1, one per requested element; an element is one more than the previous value a if its draw is at most 0.001 * 0.98^(a-1), and equal to it otherwise.", "quantifier": "all sizes and draws", "why_tests_cant": "All random outcomes.", "anchors": ["src/util/mod.rs: gen_growing_blocks_vec"]}
{"id": "C64", "title": "RCSketch rank error is relative to the rank", "statement": "RCSketch(n, k), default compaction, at most n items (no NaN), R = number of items <= v, b = buffer size. For any h with R(1+1/k)^h <= (b/2) 2^h: on every run |estimated rank of v - R| <= R((1+1/k)^h - 1); the mean square error over the coins is at most R(2^h - 1)/k. Hence, if R(1+1/k)^(k+1) <= (b/2) 2^(k+1), it is at most 6R^2/(k b/2), and P(error >= t) <= 6R^2/(k (b/2) t^2). None of these depends on the number of items above v.", "quantifier": "all k >= 1, n, histories of add/add_buffer with at most n items, values v, coin outcomes", "why_tests_cant": "A distributional bound over all coin sequences and unbounded histories.", "anchors": ["src/rc_sketch/rc_sketch.rs: compact", "src/rc_sketch/rc_sketch.rs: get_compact_index", "src/rc_sketch/rc_sketch.rs: insert_at_rc"]}
{"id": "C65", "title": "TDigest quantile queries are accurate to the centroid weights", "statement": "For a TDigest filled by one add_buffer of n items, n times the answer of estimate_quantile(v) lies between (number of items < v) - 3W/2 and (number of items <= v) + 3W/2, W the largest centroid weight. W <= max(1, n*lambda) with lambda = 2/cf (k0), pi/cf (k1), (ln 10/4)(4 log10(n/cf)+24)/cf (k2), (ln 10/2)(4 log10(n/cf)+21)/cf (k3), and the corresponding values for k2n and k2_asym. For k2, k3 and k2n the error is also relative: with r = 10^((4 log10(n/cf)+a)/cf), the estimated rank is at most r^2 times the true one plus r+1 and vice versa, counted from the bottom and from the top; for k2_asym from the bottom.", "quantifier": "all non-empty finite inputs, all v, all six scale functions with positive compression factor (and positive normaliser), exact arithmetic", "why_tests_cant": "A universal error bound over all inputs, sizes and compression factors.", "anchors": ["src/t_digest/t_digest.rs: add_centroid_buffer", "src/t_digest/t_digest.rs: est_quantile_at_value", "src/t_digest/scale_functions.rs"]}
{"id": "C66", "title": "TDigest value queries are accurate to the centroid weights", "statement": "The same bounds for estimate value at quantile q: the answer x satisfies (number of items < x) - 3W/2 <= n q <= (number of items <= x) + 3W/2, and the same relative bounds for k2, k3, k2n and k2_asym.", "quantifier": "all non-empty finite inputs with fewer than 2^64 items, q in [0,1], all six scale functions", "why_tests_cant": "A universal error bound over all inputs, sizes and compression factors.", "anchors": ["src/t_digest/t_digest.rs: add_centroid_buffer", "src/t_digest/t_digest.rs: est_value_at_quantile", "src/t_digest/scale_functions.rs"]}
{"id": "C67", "title": "Every t-digest centroid is the mean of its own items", "statement": "After any history of add and add_buffer calls the items can be split into non-empty parts, one per centroid, such that each centroid's mean is the average of its part and its weight the size of the part.", "quantifier": "all histories of finite items, any scale function, exact arithmetic", "why_tests_cant": "The parts are not recorded by the code; a universal statement over histories.", "anchors": ["src/t_digest/t_digest.rs: add_centroid_buffer", "src/t_digest/t_digest.rs: add_buffer"]}
{"id": "C68", "title": "TDigest answers are the documented interpolation", "statement": "For any centroid list reached: n * est_quantile_at_value(v) is, at the common mean of some centroids, the weight before them plus half their weight (nothing added for a single item; n - 1/2 at a last centroid alone at its mean and heavier than 1); between two neighbours, on the straight line between the ranks of their centres (a single item counting wholly at its place); 0 and n outside the items; a straight line between the extremes and the outer centroids. est_value_at_quantile(q) is the mean of a centroid within half a rank of its centre, a straight line between neighbours, the extremes at the first and last rank.", "quantifier": "all histories of finite items, any scale function, all v and q, exact arithmetic", "why_tests_cant": "All centroid lists and query points.", "anchors": ["src/t_digest/t_digest.rs: est_quantile_at_value", "src/t_digest/t_digest.rs: est_value_at_quantile"]}
{"id": "C69", "title": "TDigest is exact while nothing is merged", "statement": "While every centroid has weight 1, in particular with fewer than cf items for k0 and fewer than 2cf/pi for k1, est_quantile_at_value(v) is (number of items < v)/n if at most one item equals v and the mid-rank of its copies otherwise, and est_value_at_quantile(q) is the item of rank floor(n q).", "quantifier": "all histories of finite items, all v, q in [0,1], exact arithmetic", "why_tests_cant": "All small data sets and histories.", "anchors": ["src/t_digest/t_digest.rs: add_centroid_buffer", "src/t_digest/t_digest.rs: est_quantile_at_value", "src/t_digest/t_digest.rs: est_value_at_quantile"]}
{"id": "C70", "title": "No centroid outgrows one step of the scale function, whatever the history", "statement": "After any sequence of batches with n items in total, no centroid is heavier than max(1, lambda n), with lambda = 2/cf (k0), pi/cf (k1), (ln 10/4)(4 log10(n/cf)+24)/cf (k2), (ln 10/2)(4 log10(n/cf)+21)/cf (k3), (ln 10/4)(4 log10(n/2cf)+24)/cf (k2_asym).", "quantifier": "all histories of finite items, positive compression factors (and positive normaliser), exact arithmetic", "why_tests_cant": "All histories; repeated merging could let centroids grow without bound.", "anchors": ["src/t_digest/t_digest.rs: add_centroid_buffer", "src/t_digest/scale_functions.rs"]}
{"id": "C71", "title": "ParTDigest answers in rounded arithmetic", "statement": "In f64 and f32, after any sequence of add, add_buffer and queries on a ParTDigest with at least one thread, count() equals the number of items added, est_quantile_at_value(v) for any non-NaN v returns a number between 0 and 1, and est_value_at_quantile(q) for q in [0,1] returns; no call panics. Without the magnitude bound it is false: a digest fed the largest finite numbers of both signs panics on a later call.", "quantifier": "all histories, thread counts >= 1, capacities and scale functions; finite items of magnitude up to 2^900 (f64) or 2^100 (f32), up to 2^52 or 2^23 of them", "why_tests_cant": "Rounding in the interpolation and in the merged extremes; the failing layouts are adversarial.", "anchors": ["src/t_digest/par_t_digest.rs: flush", "src/t_digest/par_t_digest.rs: est_quantile_at_value", "src/t_digest/t_digest.rs: est_quantile_at_value"]}
{"id": "C72", "title": "When a ParTDigest flushes", "statement": "A ParTDigest holds items back until it has more than capacity of them or is queried: after any history that returns, the buffer is exactly the items since the last flush and never longer than the capacity, the inner digest is the result of delivering the earlier batches one after the other, and batches and buffer together are the items added, in order, nothing lost or repeated.", "quantifier": "all histories of add, add_buffer and queries; all thread counts, capacities, creators and arithmetic", "why_tests_cant": "An off-by-one in the flush condition shows only in internal timing; counts stay right.", "anchors": ["src/t_digest/par_t_digest.rs: flush", "src/t_digest/par_t_digest.rs: add_buffer", "src/t_digest/par_t_digest.rs: est_quantile_at_value"]}
{"id": "C73", "title": "add_cluster joins only clusters with room", "statement": "add_cluster joins a new cluster to one of the two neighbours of its mean only if the joint cluster spans less than one unit of scale, choosing the neighbour of lesser mean times weight, and otherwise inserts it in order. False as stated: the target is counted twice in the total weight, so a joint cluster can span more than a unit. What holds: exactly the test with that total; for the linear scale function a joint cluster weighs less than 2W/(cf-2), W being the total weight.", "quantifier": "all centroids, all lists of clusters of positive weight that stay within the growth limit, all scale functions; exact arithmetic", "why_tests_cant": "The size test involves the weight to the left of a mean that is itself moved by the join; cluster layouts are unbounded.", "anchors": ["src/t_digest/t_digest.rs: add_cluster", "src/t_digest/t_digest.rs: k_size", "src/t_digest/t_digest.rs: find_closest_centroids"]}
{"id": "C74", "title": "add_cluster_tree joins only clusters with room", "statement": "add_cluster_tree joins a new cluster to a nearest centroid only if the joint cluster spans less than one unit of scale. False: the joint mean is passed where the weight is expected, so clusters with small means are joined whatever they weigh. What it does with the linear scale function: it joins to the centroid of least mean times weight among those at most 1/1000 further than the nearest one for which |joint mean| * cf < 2 * (total weight), and otherwise inserts.", "quantifier": "all centroids, all lists of clusters of positive weight that stay within the growth limit, all shuffles; linear scale function, exact arithmetic", "why_tests_cant": "Depends on the sign and size of the data, on the shape of the search tree and on stale prefix sums.", "anchors": ["src/t_digest/t_digest.rs: add_cluster_tree", "src/t_digest/t_digest.rs: k_size_from_weights", "src/util/keyed_sum_tree.rs: closest_keys"]}
{"id": "C75", "title": "TDigest quantile queries stay accurate over any number of calls", "statement": "After any history with b insertion calls and n items in total, n times the answer of estimate_quantile(v) lies between (number of items < v) - e and (number of items <= v) + e with e = b(W-1) + max(1, W/2), W = max(1, lambda n) and lambda as in C70 (k0, k1, k2, k3, k2_asym). More finely, the i-th call contributes one less than the weight cap reached by then; in that form it also holds for k2n. The factor b is needed: there are histories of nine calls in which the error exceeds 3W.", "quantifier": "all histories of finite items (additions, batches and queries in any order), all v, all six scale functions with positive compression factor (and positive normaliser), exact arithmetic", "why_tests_cant": "All histories; the error accumulates over repeated merging.", "anchors": ["src/t_digest/t_digest.rs: add_centroid_buffer", "src/t_digest/t_digest.rs: est_quantile_at_value", "src/t_digest/scale_functions.rs"]}
{"id": "C76", "title": "TDigest value queries stay accurate over any number of calls", "statement": "The same bound for the value at quantile q: after any history with b insertion calls the answer x satisfies (number of items < x) - e <= n q <= (number of items <= x) + e, with e as in C75.", "quantifier": "all histories of finite items with fewer than 2^64 items, q in [0,1], all six scale functions", "why_tests_cant": "All histories; the error accumulates over repeated merging.", "anchors": ["src/t_digest/t_digest.rs: add_centroid_buffer", "src/t_digest/t_digest.rs: est_value_at_quantile", "src/t_digest/scale_functions.rs"]}
{"id": "C77", "title": "ParTDigest quantile queries stay accurate over any history", "statement": "After any history with n items in total that reaches the inner digest in d deliveries (C72, counting the one made by the query), n times the answer of estimate_quantile(v) lies between (number of items < v) - e and (number of items <= v) + e with e = d(W-1) + c n + max(1, W/2), W = max(1, lambda(n) n), and c = 0 if lambda(threads)*threads <= 1, otherwise c = lambda(threads); lambda as in C70 (k0, k1, k2, k3, k2_asym). d is 1 if all items fit the buffer and nothing was asked before.", "quantifier": "all histories of finite items (additions, batches and queries in any order), all numbers of threads >= 1, all buffer capacities, all v, five scale functions with positive compression factor (and positive normaliser), exact arithmetic", "why_tests_cant": "All histories, thread counts and capacities; the error accumulates over chunks and flushes.", "anchors": ["src/t_digest/par_t_digest.rs: flush", "src/t_digest/par_t_digest.rs: est_quantile_at_value", "src/t_digest/t_digest.rs: add_centroid_buffer"]}
{"id": "C78", "title": "ParTDigest value queries stay accurate over any history", "statement": "The same bound for the value at quantile q: the answer x satisfies (number of items < x) - e <= n q <= (number of items <= x) + e, with e as in C77.", "quantifier": "all histories of finite items with fewer than 2^64 items, q in [0,1], all numbers of threads >= 1, all capacities, five scale functions", "why_tests_cant": "All histories, thread counts and capacities; the error accumulates over chunks and flushes.", "anchors": ["src/t_digest/par_t_digest.rs: flush", "src/t_digest/par_t_digest.rs: est_value_at_quantile", "src/t_digest/t_digest.rs: add_centroid_buffer"]}
{"id": "C79", "title": "RC sketch value queries are accurate", "statement": "For even k and default compaction, est_value_at_quantile(q) returns an inserted item x with n(<x) - h N/k <= t <= n(<=x) + h N/k, where N is the number of items, t = q*N in float arithmetic, and h any number with N < buffer_size*2^h. If t < buffer_size/2 and t < N the answer is exact: n(<x) <= t < n(<=x). Relative to the rank: n(<x)(2 - (1+1/k)^h) <= t <= n(<=x)(1+1/k)^h for every h with n(<=x)(1+1/k)^h <= (buffer_size/2)*2^h. The probability that x is d ranks too low (n(<=x) + d <= t) or d ranks too high (t + d <= n(<x)) is at most 2N^2/(k*buffer_size*d^2).", "quantifier": "all even k, declared lengths and insertion histories (add, add_buffer, non-fast custom) whose counters and levels fit, without NaN and with N at most the largest exactly counted integer; all q in [0,1], all coins; every float type satisfying the laws (f64 and f32 in particular)", "why_tests_cant": "All inputs and coins, and a probability over all coins.", "anchors": ["src/rc_sketch/rc_sketch.rs: est_value_at_quantile", "src/rc_sketch/rc_sketch.rs: sorted_weighted_values", "src/rc_sketch/rc_sketch.rs: compact_buffer"]}
{"id": "C80", "title": "RC sketch 2 value queries are accurate", "statement": "With E the rank error of C57 and t = q*N in float arithmetic, est_value_at_quantile(q) of an RCSketch2 returns an inserted item x with n(<x) - E <= t <= n(<=x) + 2E, and t <= n(<=x) + E if t <= N - E. If t < 3k and t < N the answer is exact: n(<x) <= t < n(<=x). With V the variance bound of C58, the answer is d ranks too high with probability at most V/d^2 and d ranks too low with probability at most 4V/d^2.", "quantifier": "all k in 4..2^24 and insertion histories (add, add_buffer, non-fast custom) whose counters fit, at most k*2^14 items (k*2^20 for k >= 8), without NaN and with N + E at most the largest exactly counted integer; all q in [0,1], all coins; every float type satisfying the laws", "why_tests_cant": "All inputs and coins; the weights held do not add up to N, so the search can run off the end.", "anchors": ["src/rc_sketch/rc_sketch2.rs: est_value_at_quantile", "src/rc_sketch/rc_sketch2.rs: sorted_weighted_values"]}
{"id": "C81", "title": "Buffering keeps a digest's accuracy", "statement": "If a digest D, started in d, runs through every history of finite items and answers quantile (value) queries with a rank error of at most e(c, q, n) after c insertion calls, q queries and n items, e growing in c and q, then BufferedDigest::new(d, capacity) with capacity >= 1 also runs through every such history and answers within e(n/(capacity+1) + q + 1, q, n). So a buffered TDigest, however its items arrive, has the error of a TDigest that received that many buffers; LinearDigest has rank error 0 for quantiles and 1/2 for values.", "quantifier": "all digests meeting the hypothesis, all capacities >= 1, all histories of finite items with quantiles in [0,1] and no query before the first item; instances: LinearDigest, TDigest with k0, k1, k2, k3, k2_asym and any compression factor; exact arithmetic", "why_tests_cant": "All digests and all histories; relates the flush schedule of the buffer to the error of the digest inside.", "anchors": ["src/buffered_digest.rs: add", "src/buffered_digest.rs: add_buffer", "src/buffered_digest.rs: flush", "src/buffered_digest.rs: est_quantile_at_value"]}
{"id": "C82", "title": "MultiDigest and SymDigest keep their members' accuracy", "statement": "Quantile queries of a MultiDigest have at most the mean of its members' rank errors, and value queries at most a common bound on them; a SymDigest has at most the rank error common to its two digests, for quantile and value queries, and neither panics where the members do not. For members that are TDigests with any compression factors and scale functions the bounds are explicit.", "quantifier": "all non-empty lists of members (of any types) and all digests in SymDigest meeting the hypothesis of C81, all histories of finite items with quantiles in [0,1] and no query before the first item; exact arithmetic", "why_tests_cant": "All members, all histories.", "anchors": ["src/multi_digest.rs: est_quantile_at_value", "src/multi_digest.rs: est_value_at_quantile", "src/sym_digest.rs: est_quantile_at_value", "src/sym_digest.rs: est_value_at_quantile"]}
{"id": "C83", "title": "The quantile error of ParallelDigest is the sum of its members' errors", "statement": "Started with a buffer that fills every member, and never given an empty buffer, a ParallelDigest answers every quantile query, without a panic and whatever the schedule of its threads, with a rank error of at most the sum of its members' rank errors for the items they hold. With m LinearDigests the rank error is 0; with m TDigests it is at most m + (c + 1/2) W after c insertion calls, W being the largest weight the scale function allows for all n items together.", "quantifier": "all digests, schedules and numbers of members m < 2^53, all histories of finite items whose first call is add_buffer with a positive multiple of m items and without empty buffers, fewer than 2^53 items; exact arithmetic (chunk sizes in f64)", "why_tests_cant": "All schedules and histories; members receive different parts of every buffer.", "anchors": ["src/parallel_digest.rs: add_buffer", "src/parallel_digest.rs: est_quantile_at_value"]}
{"id": "C84", "title": "Value queries of ParallelDigest are accurate, even over TDigests", "statement": "Under the conditions of C83, est_value_at_quantile(q) of a ParallelDigest returns a value x between the least item mn and the greatest item mx such that, for some a in [mn, x] with x - a <= 10^-6 (|mn| + |mx|), #(items < a) - E <= n q <= #(items <= x) + E, where E is the error of C83. Only the members' quantile queries are used, so this holds for TDigest members although TDigest's own value queries violate every such bound (C76).", "quantifier": "as C83, and all q in [0,1]", "why_tests_cant": "All schedules, histories and quantiles; the bisection ends by a tolerance.", "anchors": ["src/parallel_digest.rs: est_value_at_quantile", "src/parallel_digest.rs: est_quantile_at_value"]}
{"id": "C85", "title": "A SymDigest of two RCSketches is exact at both ends", "statement": "Take SymDigest::new(RCSketch::new(n, k), RCSketch::new(n, k)) with k even and at most n items. Every history runs without a panic and count is the number N of items. With bs the buffer size: est_value_at_quantile(q) for q < 1/2 with rank q N < bs/2 returns the item at that rank, and for q > 1/2 with (1-q) N < bs/2 the item at that rank from the top, whatever the coins; elsewhere it is off by at most h N / k ranks where N < bs 2^h. est_quantile_at_value(v) returns the true quantile, correctly rounded, when v is in the lowest quarter with at most bs/2 items <= v (and 4 h <= k), and one minus the rounded fraction of items >= v in the highest quarter.", "quantifier": "all n, k even with n/k < 2^32 and sizes exactly representable, all histories with at most n items, no NaN and no query on an empty digest, all coins, q in [0,1] other than 1/2; f64, f32 and exact arithmetic (C85_eighths)", "why_tests_cant": "All inputs, histories and coin sequences; a test sees a few random runs.", "anchors": ["src/sym_digest.rs: est_value_at_quantile", "src/sym_digest.rs: est_quantile_at_value", "src/rc_sketch/rc_sketch.rs: est_value_at_quantile", "src/rc_sketch/rc_sketch.rs: interpolate_rank"]}
{"id": "C86", "title": "RCSketch, RCSketch2 and ParTDigest are accurate inside every wrapper", "statement": "RCSketch (k even, at most n items, n < bs 2^h) runs through every history and answers quantile and value queries with a rank error of at most h/k of the items; RCSketch2 likewise with the share of C57 (twice that for values); ParTDigest answers quantile queries with the error of C77 for at most n/(capacity+1) + q + 1 deliveries. BufferedDigest, SymDigest and ParallelDigest around a digest whose error is a share a of the items have the same share a, for any number of parallel members.", "quantifier": "all parameters, histories of finite items with quantiles in [0,1] and no query before the first item, coins and schedules as in C40, C57, C77, C81, C83; exact arithmetic", "why_tests_cant": "All histories, coins and schedules, and all nestings of wrappers and digests.", "anchors": ["src/rc_sketch/rc_sketch.rs: est_quantile_at_value", "src/rc_sketch/rc_sketch2.rs: est_quantile_at_value", "src/t_digest/par_t_digest.rs: est_quantile_at_value", "src/buffered_digest.rs: add_buffer", "src/parallel_digest.rs: est_quantile_at_value"]}
{"id": "C87", "title": "MultiDigest averages out the randomness of its members", "statement": "After at most n items, est_quantile_at_value(v) of an RCSketch (k even) has, over its coin flips, the true fraction of items <= v as its expectation, and a mean square error of at most 2/(k bs), bs the buffer size, and at most 2 (1+1/k)^h / (k bs/2) times the squared fraction itself (h as in C43); an RCSketch2 likewise with the variance of C58 over N^2. A MultiDigest of such digests is again without bias, and its mean square error is the sum of those of its members over the square of their number, so m equal members divide it by m. The probability of being off by t or more is at most the mean square error over t^2.", "quantifier": "all parameters, all histories of finite items with no query before the first item, all values v, all lists of members (any types), in exact arithmetic; expectation over all coin sequences, fair and independent", "why_tests_cant": "A test can only sample coin sequences; the statement is an exact expectation, for all inputs and members.", "anchors": ["src/multi_digest.rs: est_quantile_at_value", "src/multi_digest.rs: add_buffer", "src/rc_sketch/rc_sketch.rs: est_quantile_at_value", "src/rc_sketch/rc_sketch2.rs: est_quantile_at_value"]}
{"id": "C88", "title": "The random generators return the right number of values, in range", "statement": "gen_uniform_vec(size), gen_uniform_tan_vec(size) and gen_uniform_exp_vec(size, lambda) return max(size, 0) values, the i-th being the i-th sample (its tangent; minus one minus it) rounded to F. Uniform values lie in [0, 1001), exponential ones are at most -1; gen_uniform_exp_vec panics exactly when Exp::new rejects lambda. gen_uniform_centroid_vec gives the same values weight 1; gen_uniform_centroid_random_weight_vec gives means in [0, 1001) and positive weights, safe to insert into a TDigest.", "quantifier": "all sizes (i32), all sequences of samples allowed by the distributions, every float type with a rounding conversion from f64 (f64, f32)", "why_tests_cant": "Samples at the ends of the range have probabilities of about 2^-32 and 2^-52; a test will not see them.", "anchors": ["src/util/mod.rs: gen_uniform_vec", "src/util/mod.rs: gen_uniform_tan_vec", "src/util/mod.rs: gen_uniform_exp_vec", "src/util/mod.rs: gen_uniform_centroid_vec", "src/util/mod.rs: gen_uniform_centroid_random_weight_vec"]}
{"id": "C89", "title": "Large errors of the RC sketches are exponentially unlikely", "statement": "After at most n items inserted by the default method into an RCSketch with even k and buffers of B, a rank is off by t or more with probability at most 2 exp(-t^2 k B / (4 N^2)), N the number of items inserted; all ranks at once with probability at most 2 N exp(...), however many are queried. Relative to the true rank r (any k): 2 exp(-t^2 k (B/2) / (4 (1+1/k)^(2h) r^2)). RCSketch2: the same with the variance of C58. The mean of m such sketches in a MultiDigest has its exponent multiplied by m.", "quantifier": "all histories without NaN, all query values and all t; any float type for ranks, exact arithmetic for quantiles; probability over the coin flips", "why_tests_cant": "Events of probability exp(-35) are never sampled, and the bound is over every order of the items.", "anchors": ["src/rc_sketch/rc_sketch.rs: interpolate_rank", "src/rc_sketch/rc_sketch.rs: compact", "src/rc_sketch/rc_sketch2.rs: interpolate_rank", "src/multi_digest.rs: est_quantile_at_value"]}
{"id": "C90", "title": "All values returned by an RC sketch are accurate at once, with exponentially high probability", "statement": "After N items inserted by the default method into an RCSketch with even k and buffers of B, any number of est_value_at_quantile queries of quantiles in [0,1] return values of which one is off by d ranks or more with probability at most 2 N exp(-d^2 k B / (4 N^2)), whatever the number of queries. RCSketch2: 2 d ranks or more with probability at most 2 N exp(-d^2/(2 V)), V the variance bound of C58.", "quantifier": "all histories without NaN, all lists of quantiles in [0,1], all d; any float type; probability over the coin flips", "why_tests_cant": "Events of probability 10^-9 are never sampled, and the bound is over every order of the items and every set of queries.", "anchors": ["src/rc_sketch/rc_sketch.rs: est_value_at_quantile", "src/rc_sketch/rc_sketch.rs: compact", "src/rc_sketch/rc_sketch2.rs: est_value_at_quantile"]}
{"id": "C91", "title": "The RC sketches use their items only through comparisons", "statement": "With the same coin flips, the rank an RCSketch or RCSketch2 answers for v depends on the items only through which of them are <= v: two histories of the same shape, even in different float types, whose items compare alike with v and w answer the same ranks for v and for w. The values answered commute with every order-preserving map of the items: fed with f(x) instead of x, est_value_at_quantile answers f of what it answered.", "quantifier": "all pairs of histories without NaN (insertions one by one, buffered, fast or not; Default compaction), all v, w, all order-preserving maps f, all coin sequences; any float types", "why_tests_cant": "Quantifies over pairs of histories and over all monotone maps; the averaging variant of compaction breaks it only on some data.", "anchors": ["src/rc_sketch/rc_sketch.rs: compact", "src/rc_sketch/rc_sketch.rs: interpolate_rank", "src/rc_sketch/rc_sketch.rs: est_value_at_quantile", "src/rc_sketch/rc_sketch2.rs: compress"]}
{"id": "C92", "title": "The repository's unit tests of the RC sketches, for all coin flips", "statement": "The assertions of RCSketch's unit tests on 0..999 (ranks of 0, 1, 10, 500, 1000 for k = 8, inserted one by one or as a buffer, ascending or descending; values at 0, 0.001, 0.1, 0.5 and 1 for k = 16) hold for every outcome of the coin flips, and the same assertions for RCSketch2 do too. The first is proved, through a theorem for all histories: the rank of v has the distribution of a sketch of the bits 'item <= v' that flips a coin only where it matters. The second is refuted: with k = 8, coins that all come up true make RCSketch2 answer 468 for 500 and 927 for 1000, outside the tolerances 10 and 30 of its test.", "quantifier": "all coin sequences; the reduction to bits for all histories without NaN, all v, any float type", "why_tests_cant": "The tests draw random coins: a passing run says nothing about the others, and RCSketch2's tests are flaky.", "anchors": ["src/rc_sketch/rc_sketch.rs: mod test", "src/rc_sketch/rc_sketch2.rs: mod test", "src/rc_sketch/rc_sketch.rs: interpolate_rank", "src/rc_sketch/rc_sketch2.rs: interpolate_rank"]}
{"id": "C93", "title": "Quantile interpolation between two centroids", "statement": "TDigest::interpolate_centroids_quantile, in exact arithmetic: for two centroids with means m1 < m2, border quantile q and total weight W, a target between the means gets a quantile between q - w1/(2W) and q + w2/(2W); the means themselves get exactly these two; larger targets get strictly larger quantiles. For two centroids with the same mean the answer for that mean is NaN.", "quantifier": "all finite means, weights, quantiles and targets; exact arithmetic", "why_tests_cant": "The function is private and has no callers and no tests.", "anchors": ["src/t_digest/t_digest.rs: TDigest::interpolate_centroids_quantile"]}
{"id": "C94", "title": "BufferedDigest and ParallelDigest keep quantile estimates unbiased", "statement": "Exact arithmetic. If the quantile estimates of a digest are unbiased (their expectation over the coin flips is the fraction of the items at most the value) with a mean square error of at most a(items, value), then: a BufferedDigest around it is unbiased with the same bound; a ParallelDigest of such digests, filled first with a buffer whose length is a positive multiple of the number of members, and asked any quantile queries in between, is unbiased, and its mean square error is at most the sum over the members of the square of the member's share of the items times a(its items, value). So it is at most the worst bound b of the members, and at most b/m when every buffer spreads evenly over m members. Ten RCSketches with k = 4 for 64 items, given 60 items at once and possibly asked before: mean square error at most 1/640.", "quantifier": "all digests satisfying the hypothesis (in particular RCSketch by C87), all capacities, numbers of members, thread schedules, histories (for ParallelDigest: without value queries) and values", "why_tests_cant": "Expectations over coin flips and all schedules; tests check single runs.", "anchors": ["src/buffered_digest.rs", "src/parallel_digest.rs", "src/rc_sketch/rc_sketch.rs"]}
{"id": "C95", "title": "SymDigest of randomised sketches is accurate relative to the nearer end", "statement": "Exact arithmetic. For a SymDigest of two independent digests whose quantile estimates are unbiased (C87) with mean square errors aL (items, value) and aH (negated items, negated value), after any insertions, with q0 and q1 the fractions of the items below and at most the value: the mean square distance of the answer from [q0, q1] is at most aL + aH. If q0 + q1 < 1, the answer differs from q1 by t or more with probability at most aL/t^2 + (aL + aH)/(1 - q0 - q1)^2; if q0 + q1 > 1, it differs from q0 by t or more with probability at most aH/t^2 + (aL + aH)/(q0 + q1 - 1)^2. So if the sketch has mean square error at most b, and at most c times the square of the fraction, the SymDigest errs by t q1 (resp. t (1 - q0)) or more with probability at most c/t^2 + 2b/(1 - q0 - q1)^2. Two RCSketches with k = 16 for 1024 items: where at most a quarter of the items lies on the nearer side, a relative error of 1/2 has probability at most 1/80.", "quantifier": "all unbiased digests (in particular RCSketch by C87), all histories of insertions and queries, values and error bounds t", "why_tests_cant": "Probabilities over the coin flips of both halves; a test sees single outcomes.", "anchors": ["src/sym_digest.rs: SymDigest::est_quantile_at_value", "src/rc_sketch/rc_sketch.rs"]}
{"id": "C96", "title": "Large errors stay exponentially unlikely inside BufferedDigest, SymDigest and ParallelDigest", "statement": "Exact arithmetic. If the quantile error of a digest is sub-Gaussian over its coin flips (E exp(l error) <= exp(l^2 a/2) for every l, C89), then: a BufferedDigest around it is so with the same a; a ParallelDigest of such digests, filled first with a buffer whose length is a positive multiple of the number of members, is so with the sum of the squared shares times the members' a, hence errs by t or more with probability at most 2 exp(-t^2/2b), and at most 2 exp(-m t^2/2b) when every buffer spreads evenly over the m members; a SymDigest of two of them errs, below the median, by t or more with probability at most 2 exp(-t^2/2aL) + exp(-(1-q0-q1)^2/2(bL+bH)), and symmetrically above it. Two RCSketches with k = 16 for 1024 items: where at most a quarter of the items lies on the nearer side, a relative error of 1/2 has probability at most 3 exp(-64).", "quantifier": "all digests satisfying the hypothesis (in particular RCSketch and RCSketch2 by C89), all capacities, numbers of members, thread schedules, histories (for ParallelDigest: without value queries), values and error bounds t", "why_tests_cant": "Probabilities of rare events over coin flips; tests see single outcomes.", "anchors": ["src/buffered_digest.rs", "src/parallel_digest.rs", "src/sym_digest.rs", "src/rc_sketch/rc_sketch.rs"]}
{"id": "C97", "title": "The example programs plot what they claim", "statement": "examples/demo.rs, for any non-empty dataset without NaN and any quantiles in [0,1]: every line has one point per quantile, in order. The line of the exact digest shows 1000 times the order statistic at position min(round(q n), n-1); the RCSketch line (even k) never panics, whatever the coins, and shows 1000 times items of the dataset; the t-digest line never panics for f32 (up to 2^23 items) and f64 (up to 2^52), for any scale functions and chunk size, though its points may lie outside the range of the data (C20). examples/accuracy.rs: values_from_quantiles returns exactly these order statistics although it asks them one after the other of one digest; absolute_error and relative_error are |m-a| and |m-a|/|a| (|m| when a = 0) up to one rounding per operation; the exact digest measured by sample_digest_accuracy against itself compares equal numbers.", "quantifier": "all float types obeying the laws (f32 and f64 for the t-digest), all datasets, quantiles, parameters, scale functions, chunk sizes and coin flips", "why_tests_cant": "The examples draw pictures of random data that nobody checks; a panic at one quantile or for one coin sequence would rarely show.", "anchors": ["examples/demo.rs", "examples/accuracy.rs", "src/util/mod.rs"]}
{"id": "C98", "title": "ParTDigest answers lie in range and are monotone", "statement": "A ParTDigest never panics and, after any history with at least one item: quantile queries answer numbers in [0,1], 0 below and 1 above all the data; larger values get no smaller quantiles; value queries for q in [0,1] answer numbers between the smallest and the largest item, monotone in q.", "quantifier": "all histories of additions and queries over finite items, all scale functions, thread counts from 1 on, capacities, values and quantiles; exact arithmetic", "why_tests_cant": "The two failures (monotonicity next to a singleton at the end, value queries inside the last centroid) need particular centroid weights; that there are no others is a statement about all histories.", "anchors": ["src/t_digest/par_t_digest.rs", "src/t_digest/t_digest.rs"]}
{"id": "C99", "title": "The accuracy experiments measure what they plot", "statement": "examples/accuracy.rs. The plotted error max(1, 10^6 * relative error) is a number of at least 1 for any two answers, and 1 for a right one. value_error_against_quantile and quantile_error_against_value run without panic for RCSketch and t-digest on any datasets: one point per quantile, the requested number of measurements each, the values asked about being exact order statistics. The test of determine_required_parameter passes for every digest within the tolerances at the items of the dataset, in particular for LinearDigest; but RCSketch fails it (exact arithmetic) on every dataset of at most a million numbers as soon as its buffers hold the first value's rank exactly, because its rank counts the value itself, the exact one does not, and one item of a million is not below the tolerance 10^-6.", "quantifier": "all datasets (non-empty, without NaN; for t-digest of moderate size), quantiles in [0,1], measurement counts, coins, scale functions, chunk sizes; RCSketch value queries: even k", "why_tests_cant": "The experiments draw random datasets and coins, and have no assertions; that RCSketch can never pass the test is a statement about all datasets and parameters.", "anchors": ["examples/accuracy.rs", "src/util/mod.rs", "src/rc_sketch/rc_sketch.rs", "src/t_digest/t_digest.rs"]}
