{
 "C01": "Any arithmetic, NaN included; totality for NaN-free data and q in [0,1].",
 "C02": "Correctly rounded mid-rank fraction for every arithmetic satisfying FloatLaws (f64, f32, exact); unbounded in exact arithmetic.",
 "C03": "Every arithmetic satisfying FloatLaws; item count up to 2^53 (f64), 2^24 (f32).",
 "C04": "Any inner digest, any capacity >= 1, coin for coin; count for any capacity given a correctly counting inner digest.",
 "C05": "Refuted: capacity 0 makes add_buffer panic (slice::chunks(0)); single-item add proved to work.",
 "C06": "Any members, any history; members run on separate random streams.",
 "C07": "Refuted with two members and one item; proved instead: count = members x items.",
 "C08": "Forwarding for any member digest; value and rank error over reference digests (position formula for f64/f32, error <= 1 in exact arithmetic).",
 "C09": "Any members, any history, every schedule; buffers and digest counts below 2^53 (the f64 chunk-size computation is verified). Empty buffer panics; zero digests drop items.",
 "C10": "Refuted: 5 items over 4 digests give NaN and a panic. Proved: [0,1] whenever all members are non-empty, for every schedule; multiples of the digest count fill every member.",
 "C11": "Exact arithmetic; any members with non-NaN estimates; 22 estimates at most; instance with reference members has no residual hypothesis.",
 "C12": "Refuted in f64 with two reduction trees; proved for all trees in exact arithmetic.",
 "C13": "Any closures, any sort. f64 up to 2^53 items (whenever the calls return); f64 with |items| <= 2^900: always, up to 2^52 items; exact arithmetic up to 2^64.",
 "C14": "Exact arithmetic, any closures, all histories.",
 "C15": "Exact arithmetic, any closures, all histories.",
 "C16": "Refuted in f64 (0.1 three times drifts above the maximum). Proved: extremes cover the data and are what the queries at 0 and 1 return, in any arithmetic; equal to the true extremes in exact arithmetic.",
 "C17": "No panic for any state with non-NaN means in any arithmetic; in [0,1] for every history in exact arithmetic, f64 (|items| <= 2^900, up to 2^52 items) and f32 (2^100, 2^23); exactly 0 and 1 beyond the ends in exact arithmetic. A NaN query panics (shown).",
 "C18": "Refuted with k0, cf 3. Proved where the end centroids are well-behaved, for all histories in exact arithmetic.",
 "C19": "f64 with |items| <= 2^900 and up to 2^52 items; f32 with 2^100 and 2^23; exact arithmetic up to 2^64; any closures.",
 "C20": "Refuted: median of four tens is 9, of two tens NaN. Proved outside the last-centroid branch, and the branch's answer is bounded to within 1 of the maximum.",
 "C21": "Refuted (same branch as C20). Proved outside it.",
 "C24": "Any arithmetic; two configurations whose sorts differ; no_twins excludes -0/+0 mixtures.",
 "C22": "Exact arithmetic, all histories, any scale pair with unit_steps (every increasing function with a right inverse; discharged for the six shipped pairs).",
 "C23": "k0, k2, k3 (and k2_asym, k2n by span) bounded for every history. Refuted for k1: compression factor 3 gives m+1 centroids for 4m items.",
 "C31": "Exact reals; all six pairs.",
 "C32": "Exact reals; all six; k2 shown decreasing below the threshold, threshold characterised as cf < 10^6 n.",
 "C33": "Refuted for k1 at every compression factor above 1. Proved for the other five pairs and for k1 before the angle wraps.",
 "C25": "Any arithmetic with whole weights up to the exact-integer limit; exact arithmetic with any positive weights, for every sequence of add_buffer and add_cluster calls.",
 "C26": "Refuted when two centroids share a mean (f64, k0). Proved for one cluster into strictly ascending centroids, and that the next add_buffer restores order.",
 "C27": "Bounds proved. Exactness refuted both ways (a centroid nine times further included; a tie left out). Proved for sorted centroids: a nearest one is in the range and nothing in it is hidden behind another mean.",
 "C29": "Any arithmetic with count up to the exact-integer limit; exact arithmetic: never panics, flush conserves mass and sum.",
 "C30": "Refuted: the second flush forgets the first extremes once they are merged. Proved: answers stay within the data, enclose the flushed batch and are exact at the first flush.",
 "C28": "No-panic refuted (the same value twice). Whenever it returns: weight for any arithmetic and every shuffle, weighted sum and extremes in exact arithmetic, mixed with add_buffer and add_cluster calls.",
 "C34": "Any arithmetic; every history of fresh inserts and present deletes. Duplicate and NaN keys shown to panic.",
 "C35": "Refuted both ways once a key has been deleted. Proved for trees built by insertions in any order (any arithmetic with whole weights; exact with any weights).",
 "C36": "Contents unchanged, but the size drops by one for every absent key (underflow panic on the empty tree): proved for every history.",
 "C37": "Exact arithmetic; for any arithmetic in terms of the computed distances when none overflows.",
 "C56": "Any arithmetic, any digest, any shuffle.",
 "C38": "Every k >= 1, every mix of add/add_buffer/add_buffer_custom with the Default method, all coins, NaN-free items; log2().ceil() assumed exact on input_length/k, input_length/k < 2^32. Also through the Digest interface with queries interleaved (value queries: k even, or levels bounded).",
 "C39": "Refuted: new(1,1) panics on the sixth item for all coins; in general no default-mode run survives buffer_size + k*2^(buffer_size/k+1) items.",
 "C40": "Refuted for odd k (quantile 1.5 after two items). Proved for even k: exact weight in all modes, quantile in [0,1], exactly 1 above and 0 below all items.",
 "C41": "Half the bottom buffer is protected, all coins, default compaction within input_length or fast compaction for any length.",
 "C42": "Exact expectation over fair coins, default method, both fast and normal sections.",
 "C43": "Counter bound for all k; explicit bounds for even k (h*N/k) and any k.",
 "C44": "MSE bounded by the expected sum of 4^level*compactions; for even k MSE <= 2N^2/(k*buffer_size), with the Chebyshev tail.",
 "C45": "Proved for even k (at most 2^53 items for f64). Refuted for odd k with fast compaction: 33 levels make est_value_at_quantile panic (shift overflow at i32).",
 "C46": "Buffers below buffer_size for all k; levels logarithmic for even k in all modes and for any k without fast compaction; refuted for odd k with fast compaction (one level per item).",
 "C47": "Fast compaction never panics; averaging stays within bounds whose doubles are representable, weight <= count. Refuted at the top of the f64 range (average of MAX with itself is infinite).",
 "C48": "Proved for 4 <= k <= 2^24 (at most min_sec k * (2^32-1) items, or fast compaction; for k < 8 rank queries up to k * 2^28 items). False for k = 0 (add_buffer never returns), k = 1 and k = 2 (panic in add_buffer's assertion; k = 1 also in interpolate_rank) and every k > 715827872 (u32 overflow at the first insertion). Open: k = 3 (needs 2^23 compactions of one level) and 2^24 < k <= 715827872.",
 "C49": "sketch_size is exact for every k. Below capacity after every call for 4 <= k <= 2^24; refuted for k = 1 and k = 2.",
 "C50": "For 4 <= k <= 2^24, both compaction modes, Default method.",
 "C51": "The smallest 3k items are exact for 4 <= k <= 2^24; refuted for k = 1, so the property as stated for every k is partial.",
 "C57": "",
 "C58": "In terms of the expected number of compactions of each level.",
 "C59": "Refuted: 121/120 and 119/120 at the largest of 120 items for k = 8.",
 "C60": "est_value for up to k * 2^20 items; averaging if the bounds and their doubles are exact floats.",
 "C52": "Any float format satisfying the laws, all weights.",
 "C53": "What the result is and isn't known to satisfy for all test behaviours; termination in exact arithmetic, and for f64/f32 if epsilon >= 2^-49/2^-20 of max_param; exact optimum for threshold tests. Refuted: the returned parameter need not have passed (all tests fail: max_param is returned untested), and f64 searches with tiny positive epsilon never end.",
 "C54": "Exact arithmetic.",
 "C55": "TDigest, ParTDigest, BufferedDigest and RCSketch count exactly; SymDigest ignores the memory of its halves, ParallelDigest counts every inner struct twice, RCSketch2 counts 16 instead of 12 bytes per level counter (refuted, with the exact difference proved).",
 "C61": "",
 "C62": "Exact for f64 and any i32 size; refuted for f32 beyond 2^24 + 1 elements.",
 "C63": "As long as size + 1 <= 2^53 (f64), 2^24 (f32).",
 "C64": "Default compaction, up to the declared number of items; k odd or even.",
 "C65": "One add_buffer into an empty digest; exact arithmetic.",
 "C66": "Fails when the last centroid has weight w > 1 and 1 <= n(1-q) <= w/2 (C66_refuted, f64). Proved elsewhere, for one add_buffer, in exact arithmetic.",
 "C67": "Exact arithmetic.",
 "C68": "Exact arithmetic; the branch of the value query in the upper half of a last centroid heavier than 1 is C20.",
 "C69": "Two or more items for quantiles (one item answers 1/2, C69_one_item_refuted); exact arithmetic.",
 "C70": "Exact arithmetic; for k2n, whose steps can shrink as items arrive, the cap is the largest reached so far (C70_k2n).",
 "C71": "f64 with |items| <= 2^900 and up to 2^52 items, f32 with 2^100 and 2^23. Without the bound it panics (C71_huge_values_panic).",
 "C72": "Any arithmetic.",
 "C73": "One unit of scale is refuted (C73_span_refuted). Within the growth limit the test it makes is characterised in full where the means are strictly ascending, and for repeated means except for which cluster is joined; with k0 the weight is bounded.",
 "C74": "One unit of scale is refuted (C74_span_refuted). The characterisation is for k0, within the growth limit, when the call returns (C28: it panics on repeated means).",
 "C75": "Exact arithmetic. C75_calls_matter: an f64 history on which three weights without the factor b are not enough.",
 "C76": "Fails when the last centroid has weight w > 1 and 1 <= n(1-q) <= w/2 (C76_refuted, f64). Proved elsewhere, in exact arithmetic.",
 "C77": "Exact arithmetic; k2n is not covered (its steps need not grow with the number of items).",
 "C78": "Fails when the last centroid has weight w > 1 and 1 <= n(1-q) <= w/2 (C78_refuted, f64). Proved elsewhere, in exact arithmetic.",
 "C79": "Odd k: see C45_levels_refuted; C43_any bounds the ranks there.",
 "C80": "Weights are not conserved (C59), hence the doubled error above N - E.",
 "C81": "Exact arithmetic. With capacity 0 add_buffer panics, hence capacity >= 1.",
 "C82": "Exact arithmetic.",
 "C83": "Exact arithmetic. A member left empty panics or spoils the answer (C10), hence the first full buffer.",
 "C84": "Exact arithmetic.",
 "C85": "At q = 1/2 exactly SymDigest averages both sides, hence the exclusion.",
 "C86": "Exact arithmetic.",
 "C87": "Exact arithmetic. The coins are fair and independent by the semantics of Flip (DESIGN 3).",
 "C88": "False in two places: as f32 a uniform value can be 1001 itself (C88_below_refuted), and a random weight can be 0, after which a TDigest holds a NaN centroid and the next insertion panics (C88_weight_refuted). The rest is proved with the closed range [0, 1001]. The distributions (rand, rand_distr) and tan are oracles.",
 "C92": "RCSketch: proved for all coins (C92_unit_tests, C92_unit_test_values; the lower end of the 0.001 quantile is C79_smallest). RCSketch2: refuted by the coins all true; an exhaustive enumeration outside Coq puts the probability that the rank of 500 is within the tolerance at about 0.79 (not proved).",
 "C98": "Quantile range proved. Monotonicity of both queries and the range of value queries are false of the code (witnesses); proved, for every history, outside the exceptional branches named in the theorems. Exact arithmetic (rounded: C71)."
}