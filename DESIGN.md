# Formal model of `approximate-quantiles` in Rocq (Coq 8.16.1)

## 1. Shape of the model

The Rust library is generic in a float type `F: Float` and in a trait `Digest<F>`; the model keeps both
kinds of genericity.

* **Numbers.** `FloatOps F` (file `Floats.v`) is a record of the `num_traits::Float` operations the code uses
  (`partial_cmp`, `+ - * /`, `abs`, conversions, ...). Every model function is written against it, so the same
  definition is instantiated with
  * `f64`/`f32`: Flocq's IEEE-754 `binary_float 53 1024` / `24 128`, round-to-nearest-even, with infinities, signed
    zeros and a single NaN (`IEEE.v`). It computes, so counterexamples are found by `vm_compute` on real float arithmetic;
  * `xr`: exact real arithmetic extended with `+inf`, `-inf` and `NaN` (`XReal.v`). `x/0` is *not* a total junk value:
    it is an infinity or NaN as in IEEE. Theorems about interpolation formulas etc. are proved here ("exact arithmetic").
* **Effects.** `M A` (file `Base.v`) is the tree of all executions: `Ret`, `Panic` (any Rust panic, integer overflow
  included), `Diverge` (fuel exhausted: potential non-termination) and `Flip` (one `Uniform::new(0,2)` sample).
  `always P m` = "for every outcome of the coins, no panic, terminates, and the result satisfies P".
  `expect f m` = expectation of `f` over fair coins.
* **Trait objects.** `Digest F` is a record (state type + five methods in `M`), so `BufferedDigest`, `MultiDigest`,
  `SymDigest`, `ParallelDigest` are functions on such records exactly as the Rust wrappers are generic in `D: Digest<F>`.
* **Unspecified library behaviour** (unstable sort order on ties, `binary_search_by` on duplicates, shuffles, rayon
  reduction trees) is an explicit argument of the model, constrained only by its documented contract and universally
  quantified in the theorems.

`usize`/`u64` are unbounded `nat`/`N` except where the property is about overflow (then the check is written out).
Debug-profile semantics: integer overflow/underflow is a panic. (In the release profile the only reachable underflow,
`get_compact_index`, wraps and `split_off` then panics as well.)

## 2. Properties: plan

| id | model | proof idea |
|----|-------|------------|
| C01-C03 | `LinearDigest` over any `FloatOps` | induction over histories; stable sort is a sorted permutation; order-statistic counting lemmas |
| C04, C05 | `BufferedDigest` over an arbitrary inner `Digest` | simulation: inner state = result of feeding a batching of the items; `chunks 0` panics |
| C06, C07 | `MultiDigest` over a list of heterogeneous digests | pointwise simulation; counterexample for `count` |
| C08 | `SymDigest` | decision-rule equations, order statistics of negated data |
| C09-C12 | `ParallelDigest`, rayon reduction tree explicit | chunk arithmetic incl. a Flocq proof that `ceil(fl(len/d))` is the exact ceiling below 2^53; bisection by fuel with iteration bound; reduction-tree induction; f64 counterexamples |
| C13-C24 | `TDigest` with arbitrary scale closures | loop invariants of the merge; f64 version: all weights are integers <= 2^53 so additions are exact |
| C25-C28 | `add_cluster`, `find_closest_centroids`, `add_cluster_tree` | loop invariants, witnesses by computation |
| C29, C30 | `ParTDigest` | as C13 with a buffer; witness for lost extremes |
| C31-C33 | scale functions over exact reals | real analysis (asin/sin, ln/exp) |
| C34-C37 | `KeyedSumTree` as an inductive tree with stored sums | BST invariants; witnesses |
| C38-C47 | `RCSketch` in the coin tree monad | invariants on buffers, counters, weights; expectation calculus |
| C64 | `RCSketch`, levels annotated with ghost counts (`RCRel.v`, erased by `erase_gfill`) | charge each important compaction to k items at most `v`; Chebyshev |
| C65, C66 | `TDigest`, one `add_buffer`, exact reals | the centroids are averages of consecutive runs of the sorted items (`fresh_groups`); an average never passes the ends of its run, so an interpolated rank is off by at most the runs around it (`near`); widths of one step of each scale function by the mean value theorem |
| C67-C70 | `TDigest`, any history, exact reals | each merge groups whole centroids, so parts are unions of parts (`parts_merge`); the scan of the query passes the centroids below the value (`lq_skip`, `lv_skip`); a group of two or more spans at most one step, a group of one keeps its old cap (`cap_merge`) |
| C75, C76 | `TDigest`, any history, exact reals | regrouping moves less than one group's weight across any value (`regroup`), so the weight below a value drifts by at most W - 1 per call (`drift_merge`); an answer is off the centroids by half a weight (`rq_close`, `rv_close`) |
| C77, C78 | `ParTDigest`, any history, exact reals | the batches of C72, one at a time: each chunk costs at most its own cap (`chunks_drift`), the merge into the inner digest at most W - 1 (`deliver_drift`); answers as for C75 over `tview`, which does not need the extremes to be those of the data |
| C79, C80 | `RCSketch`, `RCSketch2`, value queries | the answer separates the held items at the rank asked for (`value_below`, `value_above`), so its true rank is off by at most the rank errors of C43/C57, C41/C51, C64; tails by Chebyshev at the worst item on the wrong side |
| C81-C84 | `BufferedDigest`, `MultiDigest`, `SymDigest`, `ParallelDigest` over any digest, exact arithmetic | the hypothesis is one record (`rank_accurate`: runs, and rank error after every history) on the digest inside; its instances are `LinearDigest` and `TDigest` (from C75); `ParallelDigest` for every rayon schedule, its members' histories reconstructed from the chunks |
| C85, C86 | `SymDigest` over two `RCSketch`es; `RCSketch`, `RCSketch2`, `ParTDigest` as members of the wrappers | C85 for any float format in which eighths up to 2 are exact (proved of f64, f32 and exact arithmetic), for every coin sequence; C86 in exact arithmetic, instances of the record of C81 |
| C87 | `MultiDigest` over `RCSketch`, `RCSketch2` and any other digest | expectation and mean square error over the coin flips, exact arithmetic; independence of the members comes from the sequencing of `Flip`s (Fubini for `expect`) |
| C88 | the random generators | any float type with a rounding conversion from f64 (proved of f64, f32); samples are any sequence within the range documented for the distribution |
| C89 | exponential tails of the RC sketches' errors | ranks: any `FloatLaws` type; quantiles and MultiDigest: exact arithmetic; from a bound on the moment generating function of the error, coin by coin |
| C90 | exponential tails of the values returned by the RC sketches, all queries at once | any `FloatLaws` type; from C89's union bound over the items |
| C91 | RC sketches use items only through comparisons | any `FloatLaws` types, also two different ones; lock-step runs with the same coins |
| C92 | unit tests of the RC sketches for all coins | `f64`, real parameters; the reduction to bits for any `FloatLaws` type; RCSketch2's test refuted |
| C93 | `interpolate_centroids_quantile` | exact arithmetic |
| C94 | BufferedDigest, ParallelDigest keep quantile estimates unbiased | exact arithmetic; the sketches' coins independent |
| C95 | SymDigest of unbiased sketches: mean square error, relative accuracy at both ends | exact arithmetic; coins independent |
| C96 | exponential tail bounds through BufferedDigest, ParallelDigest, SymDigest | exact arithmetic; coins independent |
| C97 | the example programs: points of demo.rs, helpers of accuracy.rs | dataset handed in; plotting not modelled; k even for the RCSketch line |
| C98 | ParTDigest: quantiles in [0,1]; range and monotonicity where they hold, counterexamples where not | exact arithmetic; exceptions as for TDigest (C18, C20, C21) |
| C99 | measurements and tests of examples/accuracy.rs | datasets handed in; plotting not modelled; the failure of RCSketch in exact arithmetic |
| C71, C17 and C19 in IEEE | `TDigest`, `ParTDigest`, f64 and f32 | centroids and extremes stay bounded (`sound`, also through the flush); the interpolation d * x / y with x <= y is rounded to at most d + 1/2 (`mild_rounding`, from Flocq's error bound and the exactness of half integers), so dividing by the count stays in [0,1] |
| C72 | `ParTDigest::{add, add_buffer, flush}` | a separate account of which items are held and which batches were delivered (`held`, `batches`), matched step by step |
| C73 | `add_cluster`, `k_size`, `find_closest_centroids`, exact | one step is one of: joined to the left neighbour, to the right one, or inserted (`place`); k0 makes the size test linear in the weight |
| C74 | `add_cluster_tree`, `KeyedSumTree`, exact, k0 | with k0 the prefix sum cancels, so the stale sums of C35 do not matter as long as they are numbers (`finite_tree`) |
| C48-C51 | `RCSketch2` with binary32 section sizes | same, plus Flocq bounds on section sizes |
| C52 | `weighted_average` over any lawful float incl. IEEE | order laws only |
| C53 | `opt_accuracy_parameter` with an oracle for the pass ratio | bisection invariant; witness |
| C54 | `Centroid::add` | field arithmetic |
| C55 | `owned_size` as arithmetic on declared sizes/capacities | witnesses |

Where the full statement is false of the code, the theorem is `..._refuted` (with a concrete witness) and the part that
does hold is `..._partial`.

## 3. Trusted base

### 3.1 Logic

* The Coq 8.16.1 kernel (including `vm_compute`, which the computed witnesses use) and Flocq 4 as definitions and checked
  proofs.
* No axiom is declared in this development: no `Axiom`, `Parameter`, `Admitted`, section-less `Variable`, functor or module
  type. Axioms of the standard library reach the theorems through the real numbers:
  * `ClassicalDedekindReals.sig_forall_dec`, `ClassicalDedekindReals.sig_not_dec`: decidability used to build R;
  * `FunctionalExtensionality.functional_extensionality_dep`;
  * `Classical_Prop.classic` (from Flocq's and the library's real analysis).
* `vcheck` and `coqchk` also list the abstract fields of two sealed modules of the standard library
  (`Rdefinitions.RbaseSymbolsImpl`, `Rdefinitions.RinvImpl`: R and its operations, which have definitions behind the seal) and of
  `ssrunder.Under_rel`.

What `Print Assumptions` lists below each property theorem (table written by `tools/assumptions.py`):

<!-- assumptions -->
* **closed under the global context (no axioms)**: C01_linear_counts_every_item, C02_quantile_history_independent, C04_buffered_counts, C05_any_capacity_partial, C05_any_capacity_refuted, C06_built, C08_sym_counts, C27_bounds, C55_buffered, C55_par_tdigest, C55_parallel, C55_parallel_refuted, C55_rc, C55_rc2, C55_rc2_refuted, C55_sym, C55_sym_refuted, C55_tdigest, C61_sample, C62_centroids, C62_length, C77_one_delivery, C86_deliveries.
* **`functional_extensionality_dep`**: C04_buffered_linear_same_answers, C04_buffering_transparent, C06_add_digest, C06_multi_adds_no_panic, C06_multi_forwards_and_averages, C07_multi_count_partial, C08_sym_mirrors_and_selects, C47_add_buffer_fast, C72_schedule.
* **`functional_extensionality_dep`, `sig_forall_dec`**: C01_linear_never_panics, C02_quantile_in_unit_interval, C02_quantile_is_mid_rank, C02_quantile_is_mid_rank_exact, C02_quantile_monotone, C03_order_statistic_unique, C03_value_is_order_statistic, C03_value_monotone, C07_multi_count_refuted, C08_sym_linear_rank_error, C08_sym_linear_value_is_item, C10_linear_members_partial, C10_quantile_in_unit_interval_partial, C11_linear_members, C11_search_terminates_and_brackets, C12_schedule_independent_partial, C13_count, C13_count_exact, C14_weighted_sum, C15_shape, C16_cover, C16_extremes_exact_partial, C16_query_ends, C17_no_panic, C17_range, C18_monotone_partial, C19_no_panic, C19_no_panic_exact, C20_range_partial, C21_monotone_partial, C22_unit_steps, C22_width, C22_width_fresh, C23_size_k0, C24_order, C25_exact, C25_weight, C26_buffer_sorts, C26_sorted_partial, C27_nearest_partial, C28_exact_partial, C28_weight_partial, C29_count, C29_exact, C30_extremes_partial, C31_k0, C32_k0, C33_forward_k0, C34_duplicate_panics, C34_map, C34_nan_panics, C35_inserted_exact_partial, C35_inserted_partial, C36_size_refuted, C37_nearest, C37_nearest_any, C38_digest, C38_within, C39_beyond_refuted, C40_even_quantile_partial, C40_even_weight_partial, C41_smallest, C42_unbiased, C43_any, C43_counters, C43_even, C44_counters, C44_even, C44_tail, C45_even_partial, C46_buffers, C46_levels_any, C46_levels_even, C47_average, C47_average_value, C47_average_weight, C47_fast, C52_between, C54_add, C54_assoc, C54_comm, C54_sum, C56_tree_sorted, C62_exact_partial, C62_sorted, C64_mean_square, C64_relative, C64_worst, C65_k0, C65_weight, C66_k0_partial, C66_weight_partial, C67_parts, C68_quantile_at, C68_quantile_between, C68_quantile_ends, C68_quantile_last, C68_value_between, C68_value_ends, C69_k0_partial, C69_single_centroids_partial, C70_cap, C70_k0, C73_linear_partial, C73_step_partial, C74_test_partial, C75_any, C75_k0, C75_terms, C76_any_partial, C76_k0_partial, C77_any, C77_k0, C77_terms, C78_any_partial, C78_k0_partial, C79_relative, C79_smallest, C79_tail_high, C79_tail_low, C79_worst, C81_buffered_tdigest, C81_linear, C81_rank, C81_tdigest, C81_value, C82_multi_rank, C82_multi_tdigest, C82_multi_value, C82_sym_linear, C82_sym_rank, C82_sym_tdigest, C82_sym_value, C85_quantile_high, C85_quantile_low, C85_runs, C85_value_high, C85_value_low, C85_value_worst, C86_buffered, C86_part, C86_rc, C86_sym, C87_copies, C87_multi, C87_rc, C87_tail, C91_rank, C91_value, C92_rank, C92_rank_always, C92_value, C93_between, C93_ends, C93_monotone, C93_same_mean_nan, C94_buffered, C95_high, C95_low, C95_mse, C95_relative, C97_absolute, C97_linear, C97_rc, C97_rc_count, C97_relative, C97_relative_zero, C97_self, C97_values_from_quantiles, C98_monotone_partial, C98_quantile_range, C98_value_partial, C99_floor, C99_rc_quantiles, C99_rc_values, C99_required_pass, C99_required_rc, C99_same.
* **`functional_extensionality_dep`, `sig_forall_dec`, `sig_not_dec`**: C89_multi, C96_buffered.
* **`classic`, `functional_extensionality_dep`, `sig_forall_dec`, `sig_not_dec`**: C09_add_no_panic, C09_chunks_delivered, C09_empty_buffer_panics, C09_history_count_and_extremes, C09_no_digests_drops_items, C10_multiples_fill_every_member, C10_usable_for_every_count_refuted, C12_schedule_independent_refuted, C13_count_f64, C16_extremes_f64_refuted, C17_nan_query_panics, C17_range_f32, C17_range_f64, C18_monotone_refuted, C19_no_panic_f32, C19_no_panic_f64, C20_nan_refuted, C20_range_refuted, C21_monotone_refuted, C22_shipped, C23_size_k1_exact, C23_size_k1_refuted, C23_size_k2, C23_size_k2_asym_span, C23_size_k2_span, C23_size_k2n_span, C23_size_k3, C23_size_k3_span, C26_sorted_refuted, C27_misses_tie_refuted, C27_too_many_refuted, C28_panics_refuted, C30_extremes_refuted, C31_k1, C31_k2, C31_k2_asym, C31_k2n, C31_k3, C32_k1, C32_k2, C32_k2_asym, C32_k2_threshold, C32_k2n, C32_k3, C32_threshold, C33_forward_k1_partial, C33_forward_k2, C33_forward_k2_asym, C33_forward_k2n, C33_forward_k3, C33_k1_refuted, C35_stale_refuted, C35_too_little_refuted, C39_refuted, C40_odd_refuted, C45_levels_refuted, C46_fast_odd_refuted, C47_add_buffer_fast2, C47_overflow_refuted, C48_as_u32, C48_as_usize, C48_digest_partial, C48_k0_refuted, C48_k1_rank_refuted, C48_k1_refuted, C48_k2_refuted, C48_large_k_refuted, C48_within_partial, C49_capacity_partial, C49_k1_refuted, C49_k2_refuted, C49_size, C50_unbiased, C51_k1_refuted, C51_smallest, C53_all_fail, C53_no_tests, C53_passed_refuted, C53_result_partial, C53_terminates_exact_partial, C53_terminates_f32_partial, C53_terminates_f64_partial, C53_terminates_refuted, C53_threshold, C57_counters, C57_error, C57_levels, C58_explicit, C58_variance, C59_quantile_refuted, C60_average, C60_held, C60_value, C62_f32_refuted, C62_f64, C63_blocks, C64_simple, C64_tail, C65_k1, C65_k2, C65_k2_asym, C65_k2_asym_relative, C65_k2_relative, C65_k2n, C65_k2n_relative, C65_k3, C65_k3_relative, C66_k1_partial, C66_k2_asym_partial, C66_k2_asym_relative_partial, C66_k2_partial, C66_k2_relative_partial, C66_k2n_partial, C66_k2n_relative_partial, C66_k3_partial, C66_k3_relative_partial, C66_refuted, C69_k1_partial, C69_one_item_refuted, C70_k1, C70_k2, C70_k2_asym, C70_k2n, C70_k3, C71_huge_values_panic, C71_parallel_f32, C71_parallel_f64, C73_span_refuted, C74_span_refuted, C75_calls_matter, C75_k1, C75_k2, C75_k2_asym, C75_k2n, C75_k3, C76_k1_partial, C76_k2_asym_partial, C76_k2_partial, C76_k2n_partial, C76_k3_partial, C76_refuted, C77_k1, C77_k2, C77_k2_asym, C77_k3, C78_k1_partial, C78_k2_asym_partial, C78_k2_partial, C78_k3_partial, C78_refuted, C80_smallest, C80_tail_high, C80_tail_low, C80_worst, C81_scales, C83_linear, C83_members, C83_tdigest, C84_linear, C84_members, C84_tdigest, C85_eighths, C86_parallel, C86_parallel_value, C86_rc2, C87_rc2, C88_below_refuted, C88_centroids, C88_conv, C88_exp, C88_exp_panics, C88_random_weight, C88_sampled, C88_tan, C88_uniform, C88_weight_refuted, C89_all, C89_all2, C89_copies, C89_rank, C89_rank2, C89_rc, C89_rc2, C89_relative, C89_relative9, C89_tail, C90_values, C90_values2, C91_distribution, C91_rank2, C91_value2, C92_rc2_refuted, C92_unit_test_values, C92_unit_tests, C94_parallel, C94_parallel_bound, C96_high, C96_low, C96_parallel, C96_parallel_tail, C96_relative, C97_t_count_f32, C97_t_count_f64, C97_t_f32, C97_t_f64, C98_monotone_refuted, C98_value_refuted, C99_required_linear_f32, C99_required_linear_f64, C99_t_quantiles_f32, C99_t_quantiles_f64, C99_t_values_f32, C99_t_values_f64.
<!-- end assumptions -->

### 3.2 What is modelled

| source | model | not modelled, or simplified |
|---|---|---|
| `traits.rs` | `Digest.v` (`Digest`), `Util.v` (`OwnedSize`) | `MergableDigest` has no implementation |
| `util/linear_digest.rs` | `Digest.v` | |
| `buffered_digest.rs` | `Digest.v` | |
| `multi_digest.rs` | `Digest.v` | |
| `sym_digest.rs` | `Digest.v` | |
| `parallel_digest.rs` | `Digest.v` | rayon's reduction is any tree (one oracle per call); a chunk size above the length is cut down to it |
| `t_digest/centroid.rs` | `TDigest.v` (`cen_add`) | |
| `t_digest/t_digest.rs` | `TDigest.v`, `KeyedSumTree.v` (`add_cluster_tree`), `InterpQ.v` (the private, unused `interpolate_centroids_quantile`, 630-645) | unstable parallel sort and `binary_search_by` are oracles under the contract `lib_ok`; a binary search over means with a NaN panics |
| `t_digest/par_t_digest.rs` | `TDigest.v` | the creator closure returns a fixed digest sharing the configuration |
| `t_digest/scale_functions.rs` | `ScaleFunctions.v` | generic in the transcendental functions; the theorems use real `log10`, `pow`, `asin`, `sin`, pi; `powf` only for exponent 2 or a base above 1 |
| `util/keyed_sum_tree.rs` | `KeyedSumTree.v` | the `shuffle` is an oracle (any permutation) |
| `rc_sketch/rc_sketch.rs` | `RCSketch.v` | `log2().ceil()` is an oracle; the two vectors (buffers, counters) are one list of pairs and a call at level `i` works on the suffix from `i` on; `usize` ranks are unbounded; recursion has fuel, shown sufficient |
| `rc_sketch/rc_sketch2.rs` | `RC2.v` | section sizes in IEEE binary32 with Flocq's square root; `powi(2, i)` is the exact power of two; index overflow beyond 2^64 is folded into the `split_off` panic; the sum of capacities is unbounded; queries shared with `RCSketch.v` |
| `util/mod.rs` | `TDigest.v` (`weighted_average`), `Util.v`, `Gens.v` (`gen_uniform_*`) | samples of `rand`/`rand_distr` distributions, `f64::tan` and `Exp::new` are oracles; `println!` dropped; the three closures of `opt_accuracy_parameter` are one oracle for each test |
| `examples/demo.rs`; `absolute_error`, `relative_error`, `values_from_quantiles` of `examples/accuracy.rs` | `Demo.v` | the dataset is a parameter (the program draws it at random); `plot_line_graph` and `owned_size` labels are not modelled |
| `value_error_against_quantile`, `quantile_error_against_value`, the test function of `determine_required_parameter` in `examples/accuracy.rs` | `AccuracyEx.v` | the datasets are parameters; the RCSketch and t-digest lines only; the remaining plots of `accuracy.rs` and everything drawn are not modelled |
| `benches/`, the rest of `examples/` | none | they only call the above |

### 3.3 Assumptions on the environment

* Rust's `f32`/`f64` arithmetic is IEEE-754 with round to nearest even; `num_traits` conversions round to nearest; `f32`/`f64`
  `max`/`min` ignore a NaN argument. The sign and payload of a NaN are not represented.
* Integer overflow panics (debug profile). Counters `u64` and lengths are unbounded integers.
* The iterator `sum::<f64>` adds from 0.0 left to right.
* Random bits (`Uniform::new(0, 2)`) are independent and fair; every statement with `always` holds for all bit strings, only
  `expect`/`prob` statements use the distribution.
* Allocation never fails; memory is unbounded.

### 3.4 Laws instead of bits

Theorems "for any `FloatLaws`" hold for both IEEE formats and for exact arithmetic: the laws (monotone rounding, exactness of
small integers and halves, NaN propagation) are proved for `xr`, `f64` and `f32` in `XReal.v` and `IEEE.v`. Theorems "in exact
arithmetic" are about `xr` only and say nothing about rounding; where rounding changes the outcome there is a `_refuted` theorem
in `f64` beside them.

### 3.5 Checking the theorems themselves

Beside each group of theorems there is an example with a concrete, non-trivial input. `seeded/LOG.jsonl` records the deliberate
errors put into copies of the model: which definition, which edit, which theorems stopped being provable, and which theorems
were tightened because they did not.
