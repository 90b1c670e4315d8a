# Formal model of chungg/traquer in Rocq

`/repo/src` is a Rust library of pure functions (technical indicators) from
slices of prices to lazy iterators of `f64`. This directory holds a model of all
of them in Rocq, the properties a user relies on (`properties.jsonl`) and their
proofs. `MANIFEST.json` (generated from `tools/claims.txt`) maps each property to
theorem names; the table at the end of this file does the same in short.

## 1. The model

One Gallina function per Rust function, in the order of the source, each with a
comment citing file and lines.

| file | models |
|---|---|
| `Base.v` | the fragment of `core`/`alloc`/`itertools` used: `windows`, `scan`, `zip`/`izip!`, slices, `chunks`, checked integer arithmetic, panics |
| `Num.v` | `FOps F`, the interface of the `f64` operations used, and the functions derived from them (`max`, `min`, `clamp`, `signum`, `powi`, `sum`) |
| `Smooth.v` | `smooth.rs` |
| `Distribution.v`, `Regression.v` | `statistic/distribution.rs`, `statistic/regression.rs` |
| `Correlation.v` | `correlation.rs` |
| `Volume.v`, `Volatility.v`, `Trend.v`, `Momentum.v` | the files of the same names |
| `B64.v` | the instance `B64 m` of `FOps`: IEEE-754 binary64 from Flocq's `BinarySingleNaN` |
| `Lazy.v` | the iterators that can panic after the call, value by value |
| `XReal.v` | the instance `XR` of `FOps`: exact extended reals (`Fin r`, `Inf b`, `NaN`) |

The model of a function is what calling it and collecting the iterator to the end
gives: `Ok l` or `Panic`. Each function is written once, over an arbitrary `FOps F`.
The model of the binary64 instance is executable; it reproduces 195 of the expected
vectors of `/repo/tests` bit for bit (`tools/conformance`, a test and not a proof).

### Choices and simplifications

* **Collected iterators.** The model of a function is its drained iterator: a panic of
  the second item is a `Panic` of the whole call. The fifteen functions in which a panic
  can happen after the call has returned are modelled a second time in `Lazy.v`, value by
  value; `LazyFacts.v` shows that draining those streams gives the first model. In all
  other functions every panic happens in the call (slices, `windows(0)`, `window - 1` and
  eagerly collected intermediate series).
* **Overflow checks on.** `usize` subtraction below 0 and overflow of products or
  of accumulated integers is a `Panic`, as in a debug build or with
  `overflow-checks = true`. `Release.v` and `ReleaseB.v` model `pwma`, the two entropies, `hoeffd`, `kurtosis`, `skew`, `ewma` and `alma`
  once more as built without the checks (C90): their products and counters are the
  ones that leave the range on windows a user may choose. A sum of a window and a small constant (`w + 1`) is
  assumed not to overflow.
* **Inputs are `f64`.** The generic parameter `T: ToPrimitive` is taken after
  `to_f64().unwrap()`, which is total for every primitive number. Five functions
  (`median quantile rank srcc hoeffd`) compare elements of `T` before converting
  them: Typed.v models them for an arbitrary `T`, and TypedFacts.v shows when that
  equals the `f64` version.
* **One NaN.** Payloads and the sign of NaN are not modelled; `signum` of NaN is NaN.
* **libm.** `ln exp log2 log10 cos atan powf` are fields of a record `m : libm`;
  theorems about binary64 quantify over every `m`. So does the start value of
  `Iterator::sum` (`0.0` or `-0.0`, depending on the version of `std`).
* **`f64::max/min` on zeros of opposite sign** may return either; the model returns
  the first argument.
* **Sorting and hashing.** `sort_by` and `sort_unstable_by` appear as an arbitrary
  function that returns a sorted permutation when there is one (`Rank.v`,
  `Dcor.v`); the iteration order of the `HashMap` in `mic` is an arbitrary
  permutation. Theorems quantify over them.
* **Memory exhaustion** and time are not modelled.
* **Loops.** The two unbounded loops take fuel: the selection loop, which is proved
  never to run out (`quickselect_total`), and the size loop of `hurst`, whose model
  returns `None` while it is still running. (It never ends for `min_win = Some(0)`.)

### Not modelled

`/repo/benches`, `/repo/examples`, `/repo/tests`, `size_hint` and `Debug` of the
iterators, the accuracy of libm.

## 2. Levels of theorems

* **(a) every arithmetic**: for every `FOps F`, hence bit for bit for binary64.
  Panic domains and lengths (`<fn>_outcome`), warm-up (`<fn>_warm`), causality
  (`<fn>_causal`), locality (`<fn>_windowed`), values in terms of the operations
  (`<fn>_values`).
* **(a') every arithmetic with the NaN laws of IEEE-754** (class `FNan`, `NaN.v`,
  instances for `B64 m` and `XR`).
* **(a'') every arithmetic in which negation commutes with the operations up to the
  sign of a zero** (class `FSym`, `Mirror.v`, instances for `B64 m`, where two values
  are alike if they are equal or both zero, and for `XR`, where they are equal):
  prices turned upside down (`<fn>_mirror`, `MirVals.v`).
* **(b) exact arithmetic** (`XR`): textbook mathematics (`<fn>_real`, `_range`,
  `_inside`, `_nonneg`), two runs in different units compared (`<fn>_scale`, by a
  relation between values with the dimension price^p * volume^q: `Scale.v`,
  `ScaleRel.v`) or moved by an amount (`<fn>_shift`, `Shift*.v`), or started later
  (`<fn>_forgets`, `Forget.v`), and how far two runs on nearly the same
  prices can be apart (`<fn>_stable`, `<fn>_jumps`, `Stable.v`),
  and by how many bars each average lags a straight line of prices (`<fn>_line`, `Line.v`). A theorem at this level says what the code computes when
  rounding is ignored; it does not speak of rounding error.
* **(c) binary64** (`B64 m` for every `m`): ranges and orders that survive rounding,
  error bounds (`<fn>_f64_…`), and witnesses that refute a claim.

Where the code violates what its documentation or a user would expect, the property
is stated as the user would and the theorem refutes it (an explicit input, or a
theorem that the failure happens for every input of a class). The notes in
`MANIFEST.json` say which.

Statements use the vocabulary of `Spec.v` (outcome, alignment, windows, prefixes),
`RSpec.v` (means, variances, weighted means over the reals), `Bars.v` (series given
bar by bar) and definitions written next to the theorem; none of them mentions a
model function other than the one the theorem is about.

**Cases.** For a theorem `T` with hypotheses, `T_case` applies it to concrete quotes
with every hypothesis discharged, so that none holds vacuously: `CasesDirect.v` has
those that need no argument, `Cases.v` those that do, `CasesF64.v` those about
binary64, `CasesScale.v` those about units,
`CasesShift.v` those about moved prices, `CasesMirror.v` those about prices upside
down, `CasesLazy.v` those about iterators that are not drained, `CasesSuper.v` those about sums of series, `CasesAgree.v` those about functions that agree, `CasesAcc.v` those about the accuracy of ratios, `CasesOsc.v` those about bounds in binary64, `CasesGap.v` those about missing bars, `CasesForget.v`, `CasesForgetB.v` and `CasesForgetC.v` those about restarts with a shorter history, `CasesStable.v` those about nearly equal prices, `CasesLine.v` those about a straight line of prices, `CasesRelease.v` and `CasesReleaseB.v` those about builds without overflow checks, `CasesRecB.v` those of `F64RecB.v` about the error of averages of averages and bands, `CasesOrder.v` those about the order of bars, `CasesRelabel.v` those about other scales, `CasesResume.v` those about continued histories, `CasesLimits.v` and `CasesLimitsB.v` those about limits, `CasesTrending.v`, `CasesTrendingB.v`, `CasesF64Trend.v`, `CasesF64TrendB.v`, `CasesF64TrendC.v`, `CasesF64TrendD.v`, `CasesF64TrendE.v`, `CasesF64TrendF.v` and `CasesF64TrendG.v` those about markets that only rise or fall; a few are next to their theorem. Unconditional theorems have none.

## 3. Trusted base

* Coq 8.16.1: its kernel, including `vm_compute` (used by the binary64 witnesses),
  and `coqchk`.
* The libraries used are Coq's standard library and Flocq. Flocq's definition of
  binary64 is part of what the statements mean.
* The reading of the Rust code recorded in the model files, and section 1 above.
* Axioms. `Print Assumptions` on every theorem of `MANIFEST.json` is run by
  `tools/axioms.py`; the outcome for each theorem is in `AXIOMS.txt`. Four axioms
  occur, all of Coq's standard library (real numbers and classical logic):
  * `ClassicalDedekindReals.sig_forall_dec`
  * `ClassicalDedekindReals.sig_not_dec`
  * `FunctionalExtensionality.functional_extensionality_dep`
  * `Classical_Prop.classic`

  Theorems of level (a) and (a') are closed under the global context. No axiom,
  parameter or admitted proof is added.

## 4. Testing the theorems

`seeded/LOG.jsonl` records wrong programs: an edit of the model as a realistic bug
would make it, the claim it breaks, and the theorems that stop proving.
`tools/mutate.py` applies them to a scratch copy and collects the failures.
`tools/genmut.py` draws random one-token edits (an operator, comparison, constant,
index or argument), at most one for each definition; `seeded/batches/` has every batch.

## 5. Findings about the code

What the proofs show that the documentation does not say:

* A series shorter than the warm-up yields the warm-up alone, so the output is then
  longer than the input (C01). `qqe` yields one item more than bars when there are
  exactly `3w + s - 2` of them.
* Panics: every window of 0, averages on series shorter than their seed, `wma` and
  `pwma` weights that overflow, entropies on long flat windows (C22), `mama` on a
  NaN bar (C17); the exact sets are the `_outcome` theorems (C05).
* `alma` applies its weights newest first, so the offset acts in the opposite
  direction (C18), and its warm-up is one item too long.
* `mama` leaves the phase in radians where the published code uses degrees: the gain
  never falls below `fast / pi`, so with the default fast limit every slow limit up to
  0.15 gives the same output (C68).
* The `clamp` of `fisher` and the indexing of `mama` cannot panic on finite prices up to
  2^480 in binary64; one price of 2^520 among small ones makes `mama` panic (C05). The recursive averages stay within a few `window` rounding
  units of the exact average for series of every length (C70).
* In a release build, which does not check overflow, `pwma` with a window of 128 prints
  more than three times a constant price, `sample_entropy` of 34 unchanged prices is
  below -2, and `approx_entropy` of 257 unchanged prices is infinite (C90).
* `krcc` depends on the order of the bars when two bars tie in the second series only: turning
  three bars round doubles it (C91).
* `supertrend` never forgets: after one fall and a flat price, a run with and a run without the
  fall print different bands for ever (C87).
* `kernel` looks at the last 255 bars only; `lrf` with window 1 is NaN everywhere and `fwma`
  with window 1 panics (C80).
* `ad` prints NaN forever after one bar with `high = low` (C62); `kama`, `vma`,
  `frama`, `vidya` after one flat window (C16).
* `krcc` leaves [-1, 1] when `y` has ties where `x` has none (C31); `mic` prints
  `f64::MIN` for windows below 7 (C34); `smape` ranges over 0..200 (C27); `emae`
  divides once too often (C26).
* `obv` counts an unchanged close as a rise (C35).
* `fisher`, `rainbow` and `decay` depend on the unit in which prices are quoted; all
  other functions do not (C71). `kama`, `atr_stop`, `cks`, `decay` and `fisher` start
  from the level 0: moving all prices by an amount does not move (or keep) their
  results, except that `decay` and `fisher` behave on prices that stay above 0 (C75).
* Turned upside down, `obv` (an unchanged close counts as a rise), `ad` with `alt` (an
  unchanged close counts as a fall), `tvi`, `supertrend`, `psar`, `atr_stop` (they
  start in a fixed direction) and `decay` (never below 0) do not give the mirror
  image (C76).
* `zigzag` and the lagging line of `ichimoku` change values already printed (C04).
* `psar` may print a stop above the previous low (C54); `supertrend` may move back
  when the close touches the band (C55); `fbands` is unordered at the start (C42).
* In binary64 `rsi` and `stochastic` can exceed 100 by a rounding error (C47, C48),
  `sma` can leave the range of its window (C08) and `cfo` its range (C49).
* In binary64 also `cmf`, `twiggs`, `srcc`, `tsi` and `tii` leave their bounds by a
  rounding error on ordinary bars, `pcc` and `rsq` print infinity for three prices near
  10^8, and `cmo` forgets small moves after a large one (C82). `mdma` prints a negative
  average after a crash of positive prices, as do the averages that extrapolate (C84).
* One missing bar (NaN) silences every recursive average and running total for good, while
  `smape` counts it as a perfect estimate and `aroon` prints 0 as long as it is the oldest
  bar of the window (C86).

## 6. Properties

<!-- table -->
| id | property | status | theorems | how / at which level |
|---|---|---|---|---|
| C01 | Output is aligned with input (length) | proved | `variance_outcome`, `std_dev_outcome`, `zscore_outcome`, `mad_outcome`, `cv_outcome`, `kurtosis_outcome` and 144 more | Length of every function's output, for every arithmetic; quantile, rank and the rank correlations in binary64, NaN included. A series shorter than the warm-up gives the warm-up alone. |
| C02 | Warm-up prefix is NaN and has the documented length | proved | `ewma_warm`, `sma_warm`, `wma_warm`, `pwma_warm`, `fwma_warm`, `wilder_warm` and 123 more | For every arithmetic; where the NaN of an inner average has to pass through an operation, for every arithmetic with the NaN laws of binary64. |
| C03 | No look-ahead: indicators are causal | proved | `variance_causal`, `std_dev_causal`, `zscore_causal`, `mad_causal`, `cv_causal`, `kurtosis_causal` and 142 more | Output on a prefix is a prefix of the output, for every arithmetic. Displaced lines (alligator, gator): up to the smallest displacement. ichimoku: all lines but the last. The functions that do look ahead are C04. |
| C04 | Indicators that repaint | proved | `zigzag_f64_repaints`, `ichimoku_f64_repaints`, `sample_entropy_f64_repaints`, `approx_entropy_f64_repaints` | Witnesses in binary64. |
| C05 | Exact panic domain | proved | `variance_outcome`, `std_dev_outcome`, `zscore_outcome`, `mad_outcome`, `cv_outcome`, `kurtosis_outcome` and 147 more | Exact panic domain, for every arithmetic; quantile, rank, the rank correlations and mama in binary64, NaN included. mama depends on the data: it panics if and only if, at a bar from 6 on that is not the last, the phasor of its period measurement (specified in MamaExact.v without the code's queues) has no angle, that is im / re is NaN (mama_f64_outcome; atan is assumed to send NaN to NaN and nothing else to NaN). Up to 2^480 that means exactly a NaN or infinite price (mama_f64_outcome_small); a price of 2^1022 always panics (mama_f64_huge_panics). |
| C06 | Simple moving average is the mean of the last window values | proved | `sma_values`, `sma_real` | Value at every bar for every arithmetic, and the mean over the reals. |
| C07 | Averages with non-negative unit weights stay inside the range of their window | proved | `sma_inside`, `wma_inside`, `pwma_inside`, `fwma_inside`, `trima_inside`, `ewma_inside` and 4 more | Exact arithmetic. |
| C08 | sma stays in the range of its window in f64 | proved | `sma_f64_leaves_range`, `sma_f64_error`, `rnd_err`, `rnd_add_err`, `fsum_err` | The range claim is false (witness); the error bound holds for every finite window. |
| C09 | Linear weights of wma | proved | `wma_values`, `wma_real`, `wma_outcome` | Value for every arithmetic; weighted mean over the reals; overflow threshold in the outcome. |
| C10 | Pascal weights of pwma | proved | `pwma_values`, `pwma_real`, `pwma_outcome` | Binomial weights; the exact set of windows without overflow. |
| C11 | Fibonacci weights of fwma | proved | `fwma_values`, `fwma_real`, `fwma_outcome` | Exact arithmetic. |
| C12 | Exponential recurrences | proved | `ewma_values`, `ewma_real`, `wilder_values`, `wilder_real`, `ema_closed_form`, `ema_weights_sum_to_one` | Exact arithmetic. |
| C13 | Higher order exponential averages | proved | `dema_real`, `tema_real`, `t3_real`, `dema_constant`, `tema_constant`, `t3_constant` and 1 more | Exact arithmetic. |
| C14 | Linear regression forecast is the least squares endpoint | proved | `lrf_real`, `lrf_line` | Exact arithmetic. |
| C15 | Compositional averages | proved | `hull_real`, `trima_real`, `zlma_real` | Exact arithmetic. |
| C16 | A flat stretch does not destroy adaptive averages | proved | `kama_flat_forever`, `vma_flat_forever`, `frama_flat_forever`, `vidya_flat_forever`, `vidya_f64_flat` | The claim is false: after one flat window every later value is NaN, for any futures, in exact arithmetic and in binary64 (frama and vidya: exact arithmetic, vidya with a binary64 witness). |
| C17 | mama never panics | proved | `mama_nan_panics`, `mama_finite` | The claim is false for a NaN bar; on finite data and limits in [0,1] mama returns (exact arithmetic). |
| C18 | Gaussian averages weight the right bars | proved | `alma_real`, `alma_weights_reversed`, `kernel_real` | kernel as stated; the documented claim about alma is false: its weights are applied newest first. |
| C19 | ma dispatches to the named average | proved | `ma_dispatch`, `ma_textbook` | Any arithmetic for the dispatch; the textbook value of every mode in exact arithmetic. |
| C20 | Variance and standard deviation | proved | `variance_f64_nonneg`, `std_dev_f64_nonneg`, `mad_f64_nonneg`, `variance_real`, `std_dev_real`, `var_nonneg` and 4 more | Exact arithmetic; sign in binary64. |
| C21 | z-score, mean absolute deviation, coefficient of variation | proved | `zscore_real`, `zscore_affine`, `mad_real`, `mad_nonneg`, `mad_le_sd`, `cv_real` and 2 more | Exact arithmetic. |
| C22 | Approximate and sample entropy do not overflow | proved | `approx_entropy_flat`, `sample_entropy_flat`, `approx_entropy_small`, `sample_entropy_small` | The claim is false: approx_entropy panics on long flat windows, sample_entropy too; short windows never panic. |
| C23 | Skewness and kurtosis | proved | `skew_real`, `kurtosis_real`, `skew_affine`, `kurtosis_affine`, `skew_outcome`, `kurtosis_outcome` | Exact arithmetic. |
| C24 | Order statistics | proved | `quickselect_total`, `quickselect_split`, `quantile_real`, `median_real`, `quantile_inside`, `quantile_f64_total` and 1 more | Exact arithmetic for the values; binary64 for the absence of panics. |
| C25 | Ranking | proved | `rank_min`, `rank_max`, `rank_average`, `rank_dense`, `rank_ordinal`, `rank_empty` | For every arithmetic on comparable data and every admissible sort. |
| C26 | Forecast error metrics | proved | `mse_real`, `rmse_real`, `mae_real`, `mape_real`, `mase_real`, `error_metrics` and 2 more | emae divides once more by the number of bars than the metric it names. |
| C27 | smape stays within its documented range | proved | `smape_real`, `smape_symmetric`, `smape_range`, `smape_range_refuted` | Symmetric, range 0..200; the documented 0..100 is refuted. |
| C28 | mda counts correct directions | proved | `mda_real`, `mda_range` | Exact arithmetic. |
| C29 | Pearson correlation is bounded and symmetric | proved | `pcc_values`, `pcc_real`, `pcc_symmetric`, `pearson_range`, `pearson_sym`, `pearson_affine` and 11 more | Bounds and invariance in exact arithmetic; symmetry for every arithmetic with commutative multiplication, in particular binary64. |
| C30 | beta, perf and rsc | proved | `beta_values`, `beta_real`, `beta_self`, `perf_values`, `perf_real`, `rsc_values` | Exact arithmetic. |
| C31 | Rank correlations | proved | `srcc_real`, `srcc_outcome`, `spearman_range`, `spearman_sym`, `spearman_monotone`, `krcc_real` and 9 more | krcc is Kendall's tau-b whenever y ties only where x ties; otherwise the range claim is refuted. |
| C32 | Hoeffding's D does not overflow | proved | `hoeffd_real`, `hoeffd_outcome` | Exact formula from window 5 while no product overflows; hoeffd_outcome gives the exact panic domain. |
| C33 | Distance correlation | proved | `dcor_real`, `dcor_symmetric`, `dcov2_nonneg`, `dist_corr_range`, `dist_corr_sym`, `dist_corr_self` and 3 more | Symmetry for every arithmetic with commutative multiplication, in particular binary64; the range in exact arithmetic. |
| C34 | Maximal information coefficient | proved | `mic_real`, `mic_score_range`, `mic_small_window`, `mic_range_refuted`, `mutual_nonneg`, `mutual_le` and 1 more | In [0,1] from window 7 on; for windows 1 to 6 every value is f64::MIN, so the claim is refuted there. |
| C35 | On-balance volume | proved | `obv_values`, `obv_real`, `obv_unchanged_refuted`, `obv_f64_exact` | Exact arithmetic: an unchanged close counts as a rise, so the documented claim is refuted. In binary64 integer totals below 2^53 are exact. |
| C36 | Positive / negative volume index | proved | `pvi_values`, `nvi_values`, `vol_index_repeats`, `pvi_real`, `nvi_real` | Any arithmetic, and the compounding formula in exact arithmetic. |
| C37 | Volume-weighted average price | proved | `vwap_values`, `vwap_real`, `vwap_range`, `vwap_outcome`, `vwap_ranged` | Any arithmetic for the session sums; range in exact arithmetic. |
| C38 | Volume-weighted moving average | proved | `vwma_values`, `vwma_real`, `vwma_range`, `vwma_ranged` | Any arithmetic for the formula; range in exact arithmetic. |
| C39 | Money-flow oscillators are bounded | proved | `mfi_values`, `mfi_real`, `mfi_range`, `cmf_values`, `cmf_real`, `cmf_range` and 6 more | Exact arithmetic. |
| C40 | Cumulative volume indicators | proved | `ad_values`, `ad_alt_values`, `ad_real`, `ad_alt_real`, `vpt_values`, `vpt_real` and 11 more | ad, vpt, tvi and bw_mfi in any arithmetic; elder_force, ease and kvo in exact arithmetic. |
| C41 | True range and ATR | proved | `tr_f64`, `tr_bar_f64`, `atr_f64_nonneg`, `wilder_f64_nonneg`, `ewma_f64_nonneg`, `tr_values` and 5 more | Exact arithmetic and binary64. |
| C42 | Bands are ordered | proved | `bbands_f64_ordered`, `keltner_f64_ordered`, `starc_f64_ordered`, `keltner_real`, `starc_real`, `bbands_values` and 8 more | Exact arithmetic and binary64; refuted for fbands, whose bands start at 0, and for donchian when the sum of the bands overflows. |
| C43 | Donchian channel is the rolling extreme | proved | `donchian_values`, `donchian_real`, `highest_spec`, `lowest_spec`, `donchian_contains` | Exact arithmetic. |
| C44 | Heikin-Ashi candles are consistent | proved | `heikin_ashi_values`, `heikin_ashi_real` | The recurrence in any arithmetic, consistency in exact arithmetic. |
| C45 | Typical price and weighted close | proved | `typical_real`, `typical_price_range`, `wcp_values`, `wcp_real`, `wcp_range`, `typical_ranged` and 1 more | Exact arithmetic. |
| C46 | Volatility estimators | proved | `hv_real`, `cc_hv_real`, `gkyz_hv_real`, `gkyz_term_nonneg`, `gri_real`, `chop_real` and 10 more | Exact arithmetic. chop is never negative; gkyz terms are never negative on consistent bars. |
| C47 | RSI is bounded | proved | `rsi_f64_range`, `rsi_f64_bounded`, `rsi_real`, `rsi_range`, `rsi_f64_above_100`, `rsi_ranged` | Exact arithmetic; in binary64 a witness exceeds 100 and the excess is bounded. |
| C48 | Bounded oscillators | proved | `cmo_f64_range`, `ultimate_f64_range`, `stochastic_f64_range`, `wpr_f64_range`, `psych_f64_range`, `aroon_f64_range` and 38 more | Exact arithmetic and binary64; the stochastic overshoot is a binary64 witness. |
| C49 | cfo stays within its documented range | proved | `cfo_f64_leaves_range`, `cfo_real` | The claim is false (binary64 witness). |
| C50 | MACD family identities | proved | `apo_macd`, `macd_real`, `ppo_real`, `macd_f64_swap`, `xval_sub_swap` | apo and macd agree in any arithmetic; the swap in binary64; formulas in exact arithmetic. |
| C51 | Rate-of-change family | proved | `roc_values`, `roc_real`, `disparity_real`, `qstick_real`, `cog_real`, `cog_range` and 15 more | Exact arithmetic. |
| C52 | Accumulative swing index is the running sum of the swing index | proved | `si_values`, `asi_values` | Any arithmetic. |
| C53 | Directional movement | proved | `adx_f64_range`, `wilder_f64_ordered`, `adx_real`, `di_range`, `adx_range`, `dm_exclusive` and 4 more | Exact arithmetic; the range of adx in binary64. |
| C54 | Parabolic SAR stays on the right side | proved | `psar_real`, `psar_side`, `psar_af`, `psar_ep`, `psar_f64_above_previous_low`, `psar_outside` and 1 more | Exact arithmetic: the recurrence, the side of the stop, the acceleration factor and the extreme point. The claim on the previous low is false (witness). |
| C55 | Supertrend and ATR stops ratchet | proved | `supertrend_real`, `supertrend_ratchet`, `atr_stop_real`, `atr_stop_ratchet`, `supertrend_f64_moves_back`, `supertrend_trails` and 1 more | Exact arithmetic; supertrend only ratchets while the close stays strictly beyond the band (witness otherwise). |
| C56 | Aroon uses the most recent extreme | proved | `aroon_real`, `aroon_range`, `latest_high_unique` | Exact arithmetic. |
| C57 | ZigZag marks actual pivots | proved | `zigzag_values`, `zigzag_real`, `zigzag_f64_two_highs`, `zigzag_f64_wide_bar` | Exact arithmetic, bars narrower than the threshold, positive prices; two witnesses show the claim fails otherwise. |
| C58 | Decay never rises above its rule | proved | `decay_values`, `decay_real`, `decay_props`, `decay_follows` | Exact arithmetic. |
| C59 | Channel stops and lines | proved | `chandelier_real`, `cks_real`, `ichimoku_real`, `alligator_real`, `gator_real`, `shinohara_values` and 9 more | Exact arithmetic. |
| C60 | Hash-map order does not influence mic | proved | `mic_order_independent` | Exact arithmetic, every data (NaN and infinities included). |
| C61 | NaN containment | proved | `ewma_nan_forever`, `wilder_nan_forever`, `sma_nan`, `wma_nan`, `pwma_nan`, `fwma_nan` and 66 more | Propagation (which outputs a NaN reaches, forever for the recursive averages) and containment (one changed bar changes only the outputs whose window sees it). |
| C62 | A bar with high = low does not destroy cumulative volume indicators | proved | `ad_flat_bar` | The claim is false: ad_flat_bar proves every later value is NaN. |
| C63 | Locality of the sliding-window functions | proved | `sma_windowed`, `wma_windowed`, `pwma_windowed`, `fwma_windowed`, `lrf_windowed`, `trima_windowed` and 59 more | For every arithmetic, hence bit for bit. |
| C64 | Adaptive averages compute their published recurrences | proved | `kama_real`, `vma_real`, `vidya_real`, `frama_real`, `adaptive_first`, `adaptive_next` | Exact arithmetic. |
| C65 | Adaptive averages do not leave the range of the data seeded with 0 | proved | `kama_gain_unit`, `kama_inside`, `vma_gain_unit`, `vma_inside`, `frama_gain_unit`, `frama_inside` and 2 more | Exact arithmetic. |
| C66 | mdma stays within the range of the prices | proved | `mdma_real`, `mcginley_const`, `mdma_leaves_range` | Formula and constants in exact arithmetic; the range claim is refuted. |
| C67 | Holt-Winters and super-smoother recurrences | proved | `hwma_real`, `hwma_const`, `ssf_real`, `ssf_tri_real`, `ssf2_const`, `ssf3_const` | Exact arithmetic. |
| C68 | mama honours its limits | proved | `mama_real`, `mama_gain`, `mama_slow_ignored`, `mama_period_blind` | Exact arithmetic. The claim is false for the slow limit: the phase is left in radians, so the gain never falls below fast / pi and any slow limit below that has no effect. |
| C69 | Approximate and sample entropy compute the published quantities | proved | `approx_entropy_real`, `sample_entropy_real` | Exact arithmetic, whenever the function returns. |
| C70 | Rounding errors of the recursive averages and the bands around them do not accumulate | proved | `wilder_f64_error`, `ewma_f64_error`, `macd_f64_error`, `dema_f64_error`, `tema_f64_error`, `t3_f64_error` and 7 more | Binary64. The bounds, in units of 2^-53 * M with M the largest magnitude: 8w for wilder, 6(w+1) for ewma, 6(s+l+3) for macd, 30(w+1) for dema, 84(w+1) for tema, 900(w+1) for t3, 24(w+1) for zlma and qstick, 8(w+1) for elder_ray, 60(w+1) for the bands of keltner, 7w for dpo, 20w for atr. bbands (default deviation and average): 40 sqrt(w 2^-53) M for the bands, because the printed deviation is the root of a rounded variance. |
| C71 | The unit of prices and volumes does not matter | proved | `variance_scale`, `abs_scale`, `ewma_scale`, `sma_scale`, `wilder_scale`, `std_dev_scale` and 140 more | Exact arithmetic. rank, srcc, hoeffd: for every sort whose permutation does not depend on the unit (a comparison sort's does not; shown for stable_argsort). mic, frama: all values within the f64 range in both units, because the code seeds extremes with f64::MIN and f64::MAX; cks: the same for its stops. The three *_scale_refuted theorems are the exceptions named in the statement. |
| C72 | The element type does not change the answer | proved | `quantile_f64_int`, `median_f64_int`, `rank_f64_int`, `srcc_f64_int`, `hoeffd_f64_int`, `quantile_typed` and 10 more | Typed.v models the five functions over an arbitrary element type with its own partial_cmp; the general theorems are *_typed. rank, srcc, hoeffd: the two sorts make the same choices on data that compares the same (same_sort), as a comparison sort of positions does. |
| C73 | Rounding errors over a window are small | proved | `sma_f64_near`, `sma_f64_error`, `wma_f64_error`, `pwma_f64_error`, `fwma_f64_error`, `trima_f64_error` and 2 more | Binary64. The bounds, in units of 2^-53 * M: 5w for sma, 8w for wma, pwma and fwma, 6(w+1) for trima. |
| C74 | Higher prices never give a lower average | proved | `sma_f64_monotone`, `wma_f64_monotone`, `pwma_f64_monotone`, `fwma_f64_monotone`, `trima_f64_monotone`, `wilder_f64_monotone` and 3 more | Binary64, including infinities and overflow; le64 x y says that y < x is false. |
| C75 | Adding the same amount to every price | proved | `variance_shift`, `sma_shift`, `ewma_shift`, `wilder_shift`, `wma_shift`, `pwma_shift` and 106 more | Exact arithmetic. 107 functions; volumes, windows and factors stay as they are. vwap and vwma need finite volumes, kernel and alma a finite non-zero sigma, ssf a positive window, quantile a finite q, mic values within the range of f64. |
| C76 | Prices turned upside down | proved | `rsi_mirror`, `wpr_mirror`, `tii_mirror`, `relative_vol_mirror`, `psych_mirror`, `stochastic_mirror` and 96 more | For every arithmetic in which negation commutes with the operations up to the sign of a zero (class FSym); instances for binary64 with any libm and for exact arithmetic. The complements, heikin_ashi, twiggs and ease in exact arithmetic only; twiggs and ease are refuted for binary64. |
| C77 | An iterator that is not drained | proved | `skew_collect`, `quantile_collect`, `median_collect`, `approx_entropy_collect`, `sample_entropy_collect`, `hurst_collect` and 39 more | Every arithmetic. Lazy.v models these iterators as streams of answers to next(); *_collect ties them to the models the other claims are about. srcc and hoeffd: comparable values, any sort. |
| C78 | The average of a sum is the sum of the averages | proved | `sma_super`, `ewma_super`, `wma_super`, `pwma_super`, `fwma_super`, `trima_super` and 22 more | Exact arithmetic (extended reals): rounding breaks it in binary64. Any options; non-finite factors of t3, hwma included. |
| C79 | Functions that print the same quantity agree | proved | `rmse_agrees`, `std_dev_agrees`, `cv_agrees`, `zscore_agrees`, `cci_agrees`, `kdj_agrees` and 15 more | Every arithmetic for those named first (Agree.v), exact arithmetic for the others (AgreeReal.v), on inputs for which both are numbers: non-zero averages for ppo and trix, non-zero closes and volumes that change for pvi and nvi. |
| C80 | A window of one bar leaves a series as it is | proved | `sma_one`, `wma_one`, `pwma_one`, `trima_one`, `ewma_one`, `dema_one` and 7 more | Exact arithmetic. |
| C81 | In f64, ratios of ranges, error measures and weighted prices keep nearly all their digits | proved | `sma_f64_accurate`, `vwma_f64_accurate`, `wcp_f64_accurate`, `typical_f64_accurate`, `bw_mfi_f64_accurate`, `tr_f64_accurate` and 16 more | Binary64 against exact arithmetic on the same inputs; K per function in the statement. |
| C82 | Which bounded indicators stay inside their bounds in f64, and by how much the others leave them | proved | `mfi_f64_range`, `mda_f64_range`, `smape_f64_range`, `tii_f64_range`, `relative_vol_f64_range`, `tsi_f64_range` and 11 more | Binary64. The refutations are concrete inputs, for every libm. |
| C83 | Kendall rank correlation in f64 rounds only twice | proved | `krcc_f64_tau`, `f64_krcc_counts` | Binary64. Ties of the second series that are not ties of the first are excluded: there the code leaves [-1, 1] (krcc_range_refuted). |
| C84 | Which results can never be negative in f64, not even as a negative zero | proved | `sma_f64_unsigned`, `trima_f64_unsigned`, `ewma_f64_unsigned`, `wilder_f64_unsigned`, `wma_f64_unsigned`, `pwma_f64_unsigned` and 38 more | Binary64, signed zeros included. The negative averages are concrete inputs, for every libm. |
| C85 | Volume traded in two places: cumulative indicators add up, ratios mix | proved | `obv_super`, `tvi_super`, `ad_parts`, `vpt_parts`, `elder_force_parts`, `kvo_parts` and 6 more | Exact arithmetic. The mixing theorems are for data that are numbers. |
| C86 | A missing bar: who never recovers and who goes on | proved | `ewma_gap`, `wilder_gap`, `dema_gap`, `tema_gap`, `t3_gap`, `zlma_gap` and 43 more | Every arithmetic in which NaN behaves as IEEE-754 says (binary64 and the exact one); the channel, pivot and smape theorems are for binary64. |
| C87 | How long the past is remembered | proved | `ewma_forgets`, `wilder_forgets`, `dema_forgets`, `tema_forgets`, `zlma_forgets`, `macd_forgets` and 31 more | Exact arithmetic; ewma and wilder also in binary64. kvo in its default mode, the shorter window first; ad in its default mode. |
| C88 | Small changes of the prices | proved | `sma_stable`, `wma_stable`, `pwma_stable`, `fwma_stable`, `trima_stable`, `hull_stable` and 28 more | Exact arithmetic. The default average for bbands and dpo. |
| C89 | The lag of the averages on a straight line of prices | proved | `sma_line`, `wma_line`, `pwma_line`, `trima_line`, `hull_line`, `lrf_line` and 13 more | Exact arithmetic. The default average for bbands and dpo. |
| C90 | What a build without overflow checks returns | proved | `ewma_release_same`, `alma_release_same`, `kurtosis_release_same`, `skew_release_same`, `pwma_release_same`, `approx_entropy_release_same` and 16 more | Release.v and ReleaseB.v model the eight functions with wrapping integers. Values in exact arithmetic; agreement for every arithmetic. The documented values are refuted for the windows named. |
| C91 | The order of the bars inside a window | proved | `sma_order_free`, `variance_order_free`, `std_dev_order_free`, `mad_order_free`, `cv_order_free`, `skew_order_free` and 17 more | Values in exact arithmetic. krcc under the hypothesis that ties in the second series are ties in the first; refuted without it. The claim is refuted in binary64 for sma. |
| C92 | Prices on another scale | proved | `obv_relabel`, `psych_relabel`, `pvi_relabel`, `nvi_relabel`, `mda_relabel`, `aroon_relabel` and 8 more | Exact arithmetic; aroon and rank in every arithmetic. For median with an even window a concrete series shows the failure. |
| C93 | Continuing from a stored result | proved | `mse_resume`, `mae_resume`, `smape_resume`, `mape_resume`, `rmse_resume`, `vwap_resume` and 1 more | Exact arithmetic. mape where no observed value is 0; vwap without resets and with positive volumes. |
| C94 | The range of the prices limits the range of the indicators | proved | `roc_limits`, `ppo_limits`, `disparity_limits`, `coppock_limits`, `pmo_limits`, `cvi_limits` and 28 more | Exact arithmetic. Positive prices for the percentages; kst with its default windows, dpo with its default average. |
| C95 | Markets that only rise or only fall | proved | `cmo_f64_trend`, `psych_f64_trend`, `mfi_f64_trend`, `rsi_f64_trend`, `tsi_f64_trend`, `relative_vol_f64_trend` and 39 more | Exact arithmetic; the _f64_trend theorems are about binary64. atr_stop for prices that are not negative, rates of change for positive ones; kst with its default windows. For psar a concrete market shows the failure. |
<!-- end table -->
