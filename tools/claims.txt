C01 proved | Length of every function's output, for every arithmetic; quantile, rank and the rank correlations in binary64, NaN included. A series shorter than the warm-up gives the warm-up alone.
  *_outcome length_bw_mfi length_pvi length_nvi length_fbands length_wcp length_rsc regression_lengths mama_length zigzag_ok zigzag_empty approx_entropy_panic sample_entropy_panic
C03 proved | Output on a prefix is a prefix of the output, for every arithmetic. Displaced lines (alligator, gator): up to the smallest displacement. ichimoku: all lines but the last. The functions that do look ahead are C04.
  *_causal
C05 proved | Exact panic domain, for every arithmetic; quantile, rank, the rank correlations and mama in binary64, NaN included. mama depends on the data: it panics if and only if, at a bar from 6 on that is not the last, the phasor of its period measurement (specified in MamaExact.v without the code's queues) has no angle, that is im / re is NaN (mama_f64_outcome; atan is assumed to send NaN to NaN and nothing else to NaN). Up to 2^480 that means exactly a NaN or infinite price (mama_f64_outcome_small); a price of 2^1022 always panics (mama_f64_huge_panics).
  *_outcome zigzag_ok zigzag_empty skew_win_panic hurst_win_panic rainbow_at_panic coppock_at_panic krcc_win_panic pascal_row_panic approx_entropy_panic sample_entropy_panic mama_finite mama_nan_panics mama_f64_outcome_small mama_f64_huge_panics clamp_f64_ok
C06 proved | Value at every bar for every arithmetic, and the mean over the reals.
  sma_values sma_real
C07 proved | Exact arithmetic.
  sma_inside wma_inside pwma_inside fwma_inside trima_inside ewma_inside wilder_inside kernel_inside alma_inside inside_constant
C09 proved | Value for every arithmetic; weighted mean over the reals; overflow threshold in the outcome.
  wma_values wma_real wma_outcome
C10 proved | Binomial weights; the exact set of windows without overflow.
  pwma_values pwma_real pwma_outcome
C11 proved |
  fwma_values fwma_real fwma_outcome
C12 proved |
  ewma_values ewma_real wilder_values wilder_real ema_closed_form ema_weights_sum_to_one
C13 proved |
  dema_real tema_real t3_real dema_constant tema_constant t3_constant t3_factor_0
C14 proved | Exact arithmetic.
  lrf_real lrf_line
C15 proved | Exact arithmetic.
  hull_real trima_real zlma_real
C18 proved | kernel as stated; the documented claim about alma is false: its weights are applied newest first.
  alma_real alma_weights_reversed kernel_real
C20 proved | Exact arithmetic; sign in binary64.
  variance_f64_nonneg std_dev_f64_nonneg mad_f64_nonneg variance_real std_dev_real var_nonneg var_zero variance_shift variance_scale std_dev_least
C21 proved | Exact arithmetic.
  zscore_real zscore_affine mad_real mad_nonneg mad_le_sd cv_real mad_least mad_below_std_dev
C23 proved | Exact arithmetic.
  skew_real kurtosis_real skew_affine kurtosis_affine skew_outcome kurtosis_outcome
C24 proved | Exact arithmetic for the values; binary64 for the absence of panics.
  quickselect_total quickselect_split quantile_real median_real quantile_inside quantile_f64_total median_f64_total
C25 proved | For every arithmetic on comparable data and every admissible sort.
  rank_min rank_max rank_average rank_dense rank_ordinal rank_empty
C26 proved | emae divides once more by the number of bars than the metric it names.
  mse_real rmse_real mae_real mape_real mase_real error_metrics emae_real emae_not_published
C27 proved | Symmetric, range 0..200; the documented 0..100 is refuted.
  smape_real smape_symmetric smape_range smape_range_refuted
C28 proved |
  mda_real mda_range
C29 proved | Bounds and invariance in exact arithmetic; symmetry for every arithmetic with commutative multiplication, in particular binary64.
  pcc_values pcc_real pcc_symmetric pearson_range pearson_sym pearson_affine pearson_negate pearson_self rsq_square rsq_real pearson_sq_range pcc_f64_symmetric pcc_ranged rsq_ranged pcc_affine pcc_self pcc_negate
C30 proved |
  beta_values beta_real beta_self perf_values perf_real rsc_values
C31 proved | krcc is Kendall's tau-b whenever y ties only where x ties; otherwise the range claim is refuted.
  srcc_real srcc_outcome spearman_range spearman_sym spearman_monotone krcc_real krcc_real_formula tau_b_range tau_b_sym tau_b_monotone krcc_range_refuted krcc_outcome srcc_ranged krcc_ranged srcc_monotone
C32 proved | Exact formula from window 5 while no product overflows; hoeffd_outcome gives the exact panic domain.
  hoeffd_real hoeffd_outcome
C33 proved | Symmetry for every arithmetic with commutative multiplication, in particular binary64; the range in exact arithmetic.
  dcor_real dcor_symmetric dcov2_nonneg dist_corr_range dist_corr_sym dist_corr_self dcor_f64_symmetric dcor_ranged dcor_self
C34 proved | In [0,1] from window 7 on; for windows 1 to 6 every value is f64::MIN, so the claim is refuted there.
  mic_real mic_score_range mic_small_window mic_range_refuted mutual_nonneg mutual_le mic_ranged
C60 proved | Exact arithmetic, every data (NaN and infinities included).
  mic_order_independent
C35 proved | Exact arithmetic: an unchanged close counts as a rise, so the documented claim is refuted. In binary64 integer totals below 2^53 are exact.
  obv_values obv_real obv_unchanged_refuted obv_f64_exact
C36 proved | Any arithmetic, and the compounding formula in exact arithmetic.
  pvi_values nvi_values vol_index_repeats pvi_real nvi_real
C37 proved | Any arithmetic for the session sums; range in exact arithmetic.
  vwap_values vwap_real vwap_range vwap_outcome vwap_ranged
C38 proved | Any arithmetic for the formula; range in exact arithmetic.
  vwma_values vwma_real vwma_range vwma_ranged
C39 proved | Exact arithmetic.
  mfi_values mfi_real mfi_range cmf_values cmf_real cmf_range twiggs_values twiggs_real twiggs_range mfi_ranged cmf_ranged twiggs_ranged
C40 proved | ad, vpt, tvi and bw_mfi in any arithmetic; elder_force, ease and kvo in exact arithmetic.
  ad_values ad_alt_values ad_real ad_alt_real vpt_values vpt_real tvi_values tvi_real tvi_direction bw_mfi_values bw_mfi_real elder_force_real ease_real kvo_real kvo_force_real tvi_moves tvi_keeps
C62 proved | The claim is false: ad_flat_bar proves every later value is NaN.
  ad_flat_bar
C41 proved | Exact arithmetic and binary64.
  tr_f64 tr_bar_f64 atr_f64_nonneg wilder_f64_nonneg ewma_f64_nonneg tr_values tr_real true_range_ge atr_real atr_nonneg atr_least
C42 proved | Exact arithmetic and binary64; refuted for fbands, whose bands start at 0, and for donchian when the sum of the bands overflows.
  bbands_f64_ordered keltner_f64_ordered starc_f64_ordered keltner_real starc_real bbands_values bbands_real vstd_dev_real bands_ordered donchian_ordered fbands_real fbands_order_refuted donchian_f64_ordered donchian_f64_overflow
C43 proved |
  donchian_values donchian_real highest_spec lowest_spec donchian_contains
C44 proved | The recurrence in any arithmetic, consistency in exact arithmetic.
  heikin_ashi_values heikin_ashi_real
C45 proved |
  typical_real typical_price_range wcp_values wcp_real wcp_range typical_ranged wcp_ranged
C46 proved | Exact arithmetic. chop is never negative; gkyz terms are never negative on consistent bars.
  hv_real cc_hv_real gkyz_hv_real gkyz_term_nonneg gri_real chop_real chop_nonneg range_le_true_ranges vhf_real mass_real cvi_real relative_vol_real relative_vol_range inertia_real chop_least relative_vol_ranged
C47 proved | Exact arithmetic; in binary64 a witness exceeds 100 and the excess is bounded.
  rsi_f64_range rsi_f64_bounded rsi_real rsi_range rsi_f64_above_100 rsi_ranged
C48 proved | Exact arithmetic and binary64; the stochastic overshoot is a binary64 witness.
  cmo_f64_range ultimate_f64_range stochastic_f64_range wpr_f64_range psych_f64_range aroon_f64_range bal_power_f64_range wilder_f64_within ewma_f64_unit wpr_real wpr_range stochastic_real stochastic_range cmo_real cmo_range ultimate_real ultimate_range ultimate_within tsi_real tii_real psych_real psych_range bal_power_real bal_power_range stc_real stc_range fisher_real fisher_bounded aroon_real aroon_range crsi_real crsi_range stochastic_f64_above_100 cmo_ranged wpr_ranged psych_ranged bal_power_ranged stochastic_ranged kdj_ranged ultimate_ranged stc_ranged crsi_ranged fisher_ranged aroon_ranged
C50 proved | apo and macd agree in any arithmetic; the swap in binary64; formulas in exact arithmetic.
  apo_macd macd_real ppo_real macd_f64_swap xval_sub_swap
C51 proved | Exact arithmetic.
  roc_values roc_real disparity_real qstick_real cog_real cog_range cci_real coppock_real kst_real special_k_real pmo_real trix_real derivative_real deli_real pgo_real elder_ray_real relative_vigor_real kdj_real rainbow_real qqe_real cog_ranged
C52 proved | Any arithmetic.
  si_values asi_values
C53 proved | Exact arithmetic; the range of adx in binary64.
  adx_f64_range wilder_f64_ordered adx_real di_range adx_range dm_exclusive vortex_real vortex_nonneg adx_ranged vortex_least
C54 proved | Exact arithmetic: the recurrence, the side of the stop, the acceleration factor and the extreme point. The claim on the previous low is false (witness).
  psar_real psar_side psar_af psar_ep psar_f64_above_previous_low psar_outside psar_ranged
C55 proved | Exact arithmetic; supertrend only ratchets while the close stays strictly beyond the band (witness otherwise).
  supertrend_real supertrend_ratchet atr_stop_real atr_stop_ratchet supertrend_f64_moves_back supertrend_trails atr_stop_trails
C56 proved | Exact arithmetic.
  aroon_real aroon_range latest_high_unique
C57 proved | Exact arithmetic, bars narrower than the threshold, positive prices; two witnesses show the claim fails otherwise.
  zigzag_values zigzag_real zigzag_f64_two_highs zigzag_f64_wide_bar
C58 proved | Exact arithmetic.
  decay_values decay_real decay_props decay_follows
C59 proved | Exact arithmetic.
  chandelier_real cks_real ichimoku_real alligator_real gator_real shinohara_values shinohara_real rwi_real dpo_values dpo_real ulcer_real hurst_sizes_real hurst_win_real hurst_real rescaled_pos
C16 proved | The claim is false: after one flat window every later value is NaN, for any futures, in exact arithmetic and in binary64 (frama and vidya: exact arithmetic, vidya with a binary64 witness).
  kama_flat_forever vma_flat_forever frama_flat_forever vidya_flat_forever vidya_f64_flat
C17 proved | The claim is false for a NaN bar; on finite data and limits in [0,1] mama returns (exact arithmetic).
  mama_nan_panics mama_finite
C22 proved | The claim is false: approx_entropy panics on long flat windows, sample_entropy too; short windows never panic.
  approx_entropy_flat sample_entropy_flat approx_entropy_small sample_entropy_small
C61 proved | Propagation (which outputs a NaN reaches, forever for the recursive averages) and containment (one changed bar changes only the outputs whose window sees it).
  ewma_nan_forever wilder_nan_forever sma_nan wma_nan pwma_nan fwma_nan windowed_contains *_windowed
C63 proved | For every arithmetic, hence bit for bit.
  *_windowed
C02 proved | For every arithmetic; where the NaN of an inner average has to pass through an operation, for every arithmetic with the NaN laws of binary64.
  *_warm tii_warm_f64 tii_warm_any
C64 proved | Exact arithmetic.
  kama_real vma_real vidya_real frama_real adaptive_first adaptive_next
C65 proved | Exact arithmetic.
  kama_gain_unit kama_inside vma_gain_unit vma_inside frama_gain_unit frama_inside adaptive_inside mama_finite
C66 proved | Formula and constants in exact arithmetic; the range claim is refuted.
  mdma_real mcginley_const mdma_leaves_range
C67 proved | Exact arithmetic.
  hwma_real hwma_const ssf_real ssf_tri_real ssf2_const ssf3_const
C04 proved | Witnesses in binary64.
  zigzag_f64_repaints ichimoku_f64_repaints sample_entropy_f64_repaints approx_entropy_f64_repaints
C08 proved | The range claim is false (witness); the error bound holds for every finite window.
  sma_f64_leaves_range sma_f64_error rnd_err rnd_add_err fsum_err
C19 proved | Any arithmetic for the dispatch; the textbook value of every mode in exact arithmetic.
  ma_dispatch ma_textbook
C49 proved | The claim is false (binary64 witness).
  cfo_f64_leaves_range cfo_real
C68 proved | Exact arithmetic. The claim is false for the slow limit: the phase is left in radians, so the gain never falls below fast / pi and any slow limit below that has no effect.
  mama_real mama_gain mama_slow_ignored mama_period_blind
C69 proved | Exact arithmetic, whenever the function returns.
  approx_entropy_real sample_entropy_real
C70 proved | Binary64. The bounds, in units of 2^-53 * M with M the largest magnitude: 8w for wilder, 6(w+1) for ewma, 6(s+l+3) for macd, 30(w+1) for dema, 84(w+1) for tema, 900(w+1) for t3, 24(w+1) for zlma and qstick, 8(w+1) for elder_ray, 60(w+1) for the bands of keltner, 7w for dpo, 20w for atr. bbands (default deviation and average): 40 sqrt(w 2^-53) M for the bands, because the printed deviation is the root of a rounded variance.
  wilder_f64_error ewma_f64_error macd_f64_error dema_f64_error tema_f64_error t3_f64_error zlma_f64_error qstick_f64_error elder_ray_f64_error keltner_f64_error dpo_f64_error bbands_f64_error atr_f64_error
C71 proved | Exact arithmetic. rank, srcc, hoeffd: for every sort whose permutation does not depend on the unit (a comparison sort's does not; shown for stable_argsort). mic, frama: all values within the f64 range in both units, because the code seeds extremes with f64::MIN and f64::MAX; cks: the same for its stops. The three *_scale_refuted theorems are the exceptions named in the statement.
  *_scale *_scale_refuted ad_alt_scale stable_argsort_blind
C72 proved | Typed.v models the five functions over an arbitrary element type with its own partial_cmp; the general theorems are *_typed. rank, srcc, hoeffd: the two sorts make the same choices on data that compares the same (same_sort), as a comparison sort of positions does.
  *_f64_int *_typed quantile_f32 median_f32 rank_f32 srcc_f32 hoeffd_f32 rank_int_refuted
C73 proved | Binary64. The bounds, in units of 2^-53 * M: 5w for sma, 8w for wma, pwma and fwma, 6(w+1) for trima.
  sma_f64_near sma_f64_error wma_f64_error pwma_f64_error fwma_f64_error trima_f64_error variance_f64_error std_dev_f64_error
C74 proved | Binary64, including infinities and overflow; le64 x y says that y < x is false.
  *_f64_monotone
C75 proved | Exact arithmetic. 107 functions; volumes, windows and factors stay as they are. vwap and vwma need finite volumes, kernel and alma a finite non-zero sigma, ssf a positive window, quantile a finite q, mic values within the range of f64.
  *_shift *_shift_refuted
C76 proved | For every arithmetic in which negation commutes with the operations up to the sign of a zero (class FSym); instances for binary64 with any libm and for exact arithmetic. The complements, heikin_ashi, twiggs and ease in exact arithmetic only; twiggs and ease are refuted for binary64.
  *_mirror *_mirror_refuted
C77 proved | Every arithmetic. Lazy.v models these iterators as streams of answers to next(); *_collect ties them to the models the other claims are about. srcc and hoeffd: comparable values, any sort.
  *_collect *_take *_pulls *_take_empty vwap_take_resets pulled_before_panic pulled_prefix
C78 proved | Exact arithmetic (extended reals): rounding breaks it in binary64. Any options; non-finite factors of t3, hwma included.
  *_super *_super_refuted
C79 proved | Every arithmetic for those named first (Agree.v), exact arithmetic for the others (AgreeReal.v), on inputs for which both are numbers: non-zero averages for ppo and trix, non-zero closes and volumes that change for pvi and nvi.
  *_agrees
C80 proved | Exact arithmetic.
  sma_one wma_one pwma_one trima_one ewma_one dema_one tema_one t3_one zlma_one wilder_one hull_one *_one_refuted fwma_one_panics
C81 proved | Binary64 against exact arithmetic on the same inputs; K per function in the statement.
  *_f64_accurate
C82 proved | Binary64. The refutations are concrete inputs, for every libm.
  mfi_f64_range mda_f64_range smape_f64_range tii_f64_range relative_vol_f64_range tsi_f64_range crsi_f64_range ewma_f64_dominated cmf_f64_above_1 twiggs_f64_above_1 tsi_f64_above_100 tii_f64_above_100 pcc_f64_infinite pcc_f64_lower cmo_f64_remembers smape_f64_above_200 srcc_f64_above_1
C83 proved | Binary64. Ties of the second series that are not ties of the first are excluded: there the code leaves [-1, 1] (krcc_range_refuted).
  krcc_f64_tau f64_krcc_counts
C84 proved | Binary64, signed zeros included. The negative averages are concrete inputs, for every libm.
  *_f64_unsigned gkyz_hv_f64_nonneg dema_f64_negative tema_f64_negative hull_f64_negative zlma_f64_negative lrf_f64_negative t3_f64_negative hwma_f64_negative mdma_f64_negative
C85 proved | Exact arithmetic. The mixing theorems are for data that are numbers.
  obv_super tvi_super ad_parts vpt_parts elder_force_parts kvo_parts vwma_mix vwap_mix cmf_mix twiggs_mix mfi_mix vwma_parts_refuted
C86 proved | Every arithmetic in which NaN behaves as IEEE-754 says (binary64 and the exact one); the channel, pivot and smape theorems are for binary64.
  *_gap *_holed
C87 proved | Exact arithmetic; ewma and wilder also in binary64. kvo in its default mode, the shorter window first; ad in its default mode.
  *_forgets *_forgets_never *_remembers
C88 proved | Exact arithmetic. The default average for bbands and dpo.
  *_stable *_jumps
C89 proved | Exact arithmetic. The default average for bbands and dpo.
  sma_line wma_line pwma_line trima_line hull_line lrf_line ewma_line wilder_line dema_line tema_line t3_line zlma_line macd_line dpo_line
  variance_line std_dev_line bbands_line zscore_line donchian_line
C90 proved | Release.v and ReleaseB.v model the eight functions with wrapping integers. Values in exact arithmetic; agreement for every arithmetic. The documented values are refuted for the windows named.
  *_release_same sample_entropy_release_real approx_entropy_release_real hoeffd_release_real hoeffd_release_small pwma_release_total
  sample_entropy_release_negative approx_entropy_release_infinite pwma_release_outside
  ewma_release_zero alma_release_zero kurtosis_release_small skew_release_small kurtosis_release_real kurtosis_release_wrong
C91 proved | Values in exact arithmetic. krcc under the hypothesis that ties in the second series are ties in the first; refuted without it. The claim is refuted in binary64 for sma.
  *_order_free krcc_order_refuted sma_f64_order_refuted
C92 proved | Exact arithmetic; aroon and rank in every arithmetic. For median with an even window a concrete series shows the failure.
  *_relabel median_relabel_refuted
C93 proved | Exact arithmetic. mape where no observed value is 0; vwap without resets and with positive volumes.
  *_resume pooled_dilutes
C94 proved | Exact arithmetic. Positive prices for the percentages; kst with its default windows, dpo with its default average.
  roc_limits ppo_limits disparity_limits coppock_limits pmo_limits cvi_limits trix_limits kst_limits special_k_limits macd_limits dpo_limits
  qstick_limits elder_ray_limits deli_limits dema_limits tema_limits zlma_limits hull_limits heikin_ashi_limits
  std_dev_limits mad_limits bbands_limits atr_limits keltner_limits chandelier_limits cks_limits donchian_limits alligator_limits gator_limits
  ichimoku_limits derivative_limits qqe_limits ulcer_limits supertrend_limits
C95 proved | Exact arithmetic; the _f64_trend theorems are about binary64. atr_stop for prices that are not negative, rates of change for positive ones; kst with its default windows. For psar a concrete market shows the failure.
  *_trend *_follow psar_trend_refuted
