# closed under the global context
BaseFacts.aligned_warm
CorrReal.beta_values
CorrReal.pcc_symmetric
CorrReal.pcc_values
CorrReal.perf_values
CorrReal.rsc_values
CorrReal.rsq_square
Dcor.dcor_symmetric
Dispatch.ma_dispatch
DistShape.approx_entropy_causal
DistShape.approx_entropy_panic
DistShape.approx_entropy_small
DistShape.beta_causal
DistShape.beta_outcome
DistShape.cv_causal
DistShape.cv_outcome
DistShape.dcor_causal
DistShape.dcor_outcome
DistShape.emae_causal
DistShape.emae_outcome
DistShape.entropy_tol_outcome
DistShape.hoeffd_causal
DistShape.krcc_causal
DistShape.krcc_outcome
DistShape.krcc_win_panic
DistShape.kurtosis_causal
DistShape.kurtosis_outcome
DistShape.length_rsc
DistShape.mad_causal
DistShape.mad_outcome
DistShape.mase_causal
DistShape.mase_outcome
DistShape.mda_causal
DistShape.mda_outcome
DistShape.median_causal
DistShape.mic_causal
DistShape.mic_outcome
DistShape.pcc_causal
DistShape.pcc_outcome
DistShape.perf_causal
DistShape.perf_outcome
DistShape.quantile_causal
DistShape.regression_causal
DistShape.regression_lengths
DistShape.rmap_outcome
DistShape.rsc_causal
DistShape.rsq_causal
DistShape.rsq_outcome
DistShape.sample_entropy_causal
DistShape.sample_entropy_panic
DistShape.sample_entropy_small
DistShape.skew_causal
DistShape.skew_outcome
DistShape.skew_win_panic
DistShape.srcc_causal
DistShape.std_dev_causal
DistShape.std_dev_outcome
DistShape.variance_causal
DistShape.variance_outcome
DistShape.zip_i32_outcome
DistShape.zip_windows_causal
DistShape.zip_windows_outcome
DistShape.zscore_causal
DistShape.zscore_outcome
Flat.approx_entropy_flat
Flat.sample_entropy_flat
Local.alma_windowed
Local.approx_entropy_windowed
Local.aroon_windowed
Local.beta_windowed
Local.bw_mfi_windowed
Local.cc_hv_windowed
Local.cci_windowed
Local.cfo_windowed
Local.chop_windowed
Local.cmf_windowed
Local.cog_windowed
Local.coppock_windowed
Local.cv_windowed
Local.dcor_windowed
Local.donchian_windowed
Local.dpo_windowed
Local.ease_windowed
Local.fwma_windowed
Local.gkyz_hv_windowed
Local.gri_windowed
Local.hoeffd_windowed
Local.hull_windowed
Local.hv_windowed
Local.kernel_windowed
Local.krcc_windowed
Local.kurtosis_windowed
Local.lrf_windowed
Local.mad_windowed
Local.median_windowed
Local.mfi_windowed
Local.mic_windowed
Local.pcc_windowed
Local.perf_windowed
Local.psych_windowed
Local.pwma_windowed
Local.quantile_windowed
Local.relative_vigor_windowed
Local.roc_windowed
Local.rsc_windowed
Local.rsq_windowed
Local.rwi_windowed
Local.sample_entropy_windowed
Local.shinohara_windowed
Local.si_windowed
Local.skew_windowed
Local.sma_windowed
Local.srcc_windowed
Local.std_dev_windowed
Local.stochastic_windowed
Local.tii_windowed
Local.tr_windowed
Local.trima_windowed
Local.typical_windowed
Local.ulcer_windowed
Local.ultimate_windowed
Local.variance_windowed
Local.vhf_windowed
Local.vortex_windowed
Local.vstd_dev_windowed
Local.vwma_windowed
Local.wcp_windowed
Local.windowed_contains
Local.wma_windowed
Local.wpr_windowed
Local.zscore_windowed
MomReal.apo_macd
MomReal.asi_values
MomReal.roc_values
MomReal.si_values
MomShape.apo_causal
MomShape.apo_outcome
MomShape.bal_power_causal
MomShape.bal_power_outcome
MomShape.cci_causal
MomShape.cci_outcome
MomShape.cfo_causal
MomShape.cfo_outcome
MomShape.cmo_causal
MomShape.cmo_outcome
MomShape.cog_causal
MomShape.cog_outcome
MomShape.coppock_at_panic
MomShape.coppock_causal
MomShape.coppock_outcome
MomShape.crsi_causal
MomShape.crsi_outcome
MomShape.deli_causal
MomShape.deli_outcome
MomShape.derivative_causal
MomShape.derivative_outcome
MomShape.disparity_causal
MomShape.disparity_outcome
MomShape.elder_ray_causal
MomShape.elder_ray_outcome
MomShape.fisher_causal
MomShape.fisher_outcome
MomShape.gator_outcome
MomShape.hlc_windows_causal
MomShape.hlc_windows_outcome
MomShape.kdj_causal
MomShape.kdj_outcome
MomShape.macd_causal
MomShape.macd_outcome
MomShape.pgo_causal
MomShape.pgo_outcome
MomShape.pmo_causal
MomShape.pmo_outcome
MomShape.ppo_causal
MomShape.ppo_outcome
MomShape.psych_causal
MomShape.psych_outcome
MomShape.qqe_causal
MomShape.qqe_outcome
MomShape.qstick_causal
MomShape.qstick_outcome
MomShape.rainbow_at_panic
MomShape.rainbow_causal
MomShape.rainbow_outcome
MomShape.rainbow_smas_causal
MomShape.relative_vigor_causal
MomShape.relative_vigor_outcome
MomShape.roc_causal
MomShape.roc_outcome
MomShape.rsi_causal
MomShape.rsi_outcome
MomShape.si_causal
MomShape.si_outcome
MomShape.stc_causal
MomShape.stc_outcome
MomShape.stc_raw_causal
MomShape.stc_raw_outcome
MomShape.stoch_causal
MomShape.stoch_outcome
MomShape.stochastic_causal
MomShape.stochastic_outcome
MomShape.tii_causal
MomShape.tii_outcome
MomShape.trix_causal
MomShape.trix_outcome
MomShape.tsi_causal
MomShape.tsi_outcome
MomShape.ultimate_causal
MomShape.ultimate_outcome
MomShape.wpr_causal
MomShape.wpr_outcome
Panics.alligator_causal
Panics.displaced_causal
Panics.gator_causal
Panics.ichimoku_causal
Panics.kst_causal
Panics.mae_causal
Panics.mape_causal
Panics.mse_causal
Panics.rmse_causal
Panics.smape_causal
Panics.zipwin_outcome
Pascal.pascal_row_panic
Pascal.pwma_causal
Pascal.pwma_outcome
Poison.ewma_nan_forever
Poison.frama_flat_forever
Poison.fwma_nan
Poison.kama_flat_forever
Poison.mama_nan_panics
Poison.pwma_nan
Poison.sma_nan
Poison.vma_flat_forever
Poison.wilder_nan_forever
Poison.wma_nan
Prings.kst_default_causal
Prings.kst_default_outcome
Prings.kst_outcome
Prings.special_k_causal
Prings.special_k_outcome
Rank.rank_average
Rank.rank_dense
Rank.rank_empty
Rank.rank_max
Rank.rank_min
Rank.rank_ordinal
RankCorr.hoeffd_outcome
RankCorr.srcc_outcome
Select.quickselect_split
Select.quickselect_total
SmoothReal.win_aligned_warm
SmoothShape.alma_causal
SmoothShape.alma_outcome
SmoothShape.dema_causal
SmoothShape.dema_outcome
SmoothShape.ewma_causal
SmoothShape.ewma_outcome
SmoothShape.frama_causal
SmoothShape.frama_outcome
SmoothShape.fwma_causal
SmoothShape.fwma_outcome
SmoothShape.hull_causal
SmoothShape.hull_outcome
SmoothShape.hwma_causal
SmoothShape.hwma_outcome
SmoothShape.kama_causal
SmoothShape.kama_outcome
SmoothShape.kernel_causal
SmoothShape.kernel_outcome
SmoothShape.lrf_causal
SmoothShape.lrf_outcome
SmoothShape.mama_causal
SmoothShape.mama_length
SmoothShape.mdma_causal
SmoothShape.mdma_outcome
SmoothShape.sma_causal
SmoothShape.sma_outcome
SmoothShape.ssf_causal
SmoothShape.ssf_outcome
SmoothShape.std_dev_raw_causal
SmoothShape.std_dev_raw_outcome
SmoothShape.t3_causal
SmoothShape.t3_outcome
SmoothShape.tema_causal
SmoothShape.tema_outcome
SmoothShape.trima_causal
SmoothShape.trima_outcome
SmoothShape.vidya_causal
SmoothShape.vidya_outcome
SmoothShape.vma_causal
SmoothShape.vma_outcome
SmoothShape.wilder_causal
SmoothShape.wilder_outcome
SmoothShape.wma_causal
SmoothShape.wma_outcome
SmoothShape.wma_weights_outcome
SmoothShape.zlma_causal
SmoothShape.zlma_outcome
SmoothVals.ewma_values
SmoothVals.fwma_values
SmoothVals.pwma_values
SmoothVals.sma_values
SmoothVals.wilder_values
SmoothVals.wma_values
TrendReal.decay_values
TrendReal.dpo_values
TrendReal.shinohara_values
TrendReal.zigzag_values
TrendShape.adx_causal
TrendShape.adx_outcome
TrendShape.alligator_outcome
TrendShape.aroon_causal
TrendShape.aroon_outcome
TrendShape.asi_causal
TrendShape.asi_outcome
TrendShape.atr_stop_causal
TrendShape.atr_stop_outcome
TrendShape.bar_pairs_causal
TrendShape.bar_pairs_outcome
TrendShape.chandelier_causal
TrendShape.chandelier_outcome
TrendShape.cks_causal
TrendShape.cks_outcome
TrendShape.decay_causal
TrendShape.decay_outcome
TrendShape.displaced_outcome
TrendShape.dpo_causal
TrendShape.dpo_outcome
TrendShape.hurst_causal
TrendShape.hurst_outcome
TrendShape.hurst_win_panic
TrendShape.ichimoku_outcome
TrendShape.midpoints_causal
TrendShape.midpoints_outcome
TrendShape.psar_causal
TrendShape.psar_outcome
TrendShape.rwi_causal
TrendShape.rwi_outcome
TrendShape.shinohara_causal
TrendShape.shinohara_outcome
TrendShape.supertrend_causal
TrendShape.supertrend_outcome
TrendShape.swing_causal
TrendShape.swing_outcome
TrendShape.ulcer_causal
TrendShape.ulcer_outcome
TrendShape.vortex_causal
TrendShape.vortex_outcome
TrendShape.zigzag_empty
TrendShape.zigzag_ok
VolShape.ad_causal
VolShape.ad_outcome
VolShape.atr_causal
VolShape.atr_outcome
VolShape.bbands_causal
VolShape.bbands_outcome
VolShape.bw_mfi_causal
VolShape.cc_hv_causal
VolShape.cc_hv_outcome
VolShape.chop_causal
VolShape.chop_outcome
VolShape.cmf_causal
VolShape.cmf_outcome
VolShape.cvi_causal
VolShape.cvi_outcome
VolShape.donchian_causal
VolShape.donchian_outcome
VolShape.ease_causal
VolShape.ease_outcome
VolShape.elder_force_causal
VolShape.elder_force_outcome
VolShape.fbands_causal
VolShape.gkyz_hv_causal
VolShape.gkyz_hv_outcome
VolShape.gri_causal
VolShape.gri_outcome
VolShape.heikin_ashi_causal
VolShape.heikin_ashi_outcome
VolShape.hv_causal
VolShape.hv_outcome
VolShape.inertia_causal
VolShape.inertia_outcome
VolShape.keltner_causal
VolShape.keltner_outcome
VolShape.kvo_causal
VolShape.kvo_outcome
VolShape.length_bw_mfi
VolShape.length_fbands
VolShape.length_nvi
VolShape.length_pvi
VolShape.length_wcp
VolShape.ma_causal
VolShape.ma_outcome
VolShape.mass_causal
VolShape.mass_outcome
VolShape.mfi_causal
VolShape.mfi_outcome
VolShape.nvi_causal
VolShape.obv_causal
VolShape.obv_outcome
VolShape.pvi_causal
VolShape.rel_vol_pairs_causal
VolShape.rel_vol_pairs_outcome
VolShape.relative_vol_causal
VolShape.relative_vol_outcome
VolShape.starc_causal
VolShape.starc_outcome
VolShape.steps3_causal
VolShape.steps3_outcome
VolShape.tail4_causal
VolShape.tail4_outcome
VolShape.tr_causal
VolShape.tr_outcome
VolShape.true_range_causal
VolShape.true_range_outcome
VolShape.tvi_causal
VolShape.tvi_outcome
VolShape.twiggs_causal
VolShape.twiggs_outcome
VolShape.typical_causal
VolShape.typical_outcome
VolShape.vforce_alt_causal
VolShape.vforce_alt_outcome
VolShape.vforce_causal
VolShape.vforce_outcome
VolShape.vhf_causal
VolShape.vhf_outcome
VolShape.vpt_causal
VolShape.vpt_outcome
VolShape.vstd_dev_causal
VolShape.vstd_dev_outcome
VolShape.vwap_causal
VolShape.vwap_outcome
VolShape.vwma_causal
VolShape.vwma_outcome
VolShape.wcp_causal
VolShape.wilder_sum_causal
VolShape.wilder_sum_outcome
VolatReal.bbands_values
VolatReal.donchian_values
VolatReal.heikin_ashi_values
VolatReal.tr_values
VolatReal.wcp_values
VolumeReal.ad_alt_values
VolumeReal.ad_values
VolumeReal.bw_mfi_values
VolumeReal.cmf_values
VolumeReal.mfi_values
VolumeReal.nvi_values
VolumeReal.obv_values
VolumeReal.pvi_values
VolumeReal.tvi_values
VolumeReal.twiggs_values
VolumeReal.vol_index_repeats
VolumeReal.vpt_values
VolumeReal.vwap_values
VolumeReal.vwma_values
Warm.ad_warm
Warm.adx_warm
Warm.alligator_warm
Warm.alma_warm
Warm.apo_warm
Warm.approx_entropy_warm
Warm.aroon_warm
Warm.asi_warm
Warm.atr_stop_warm
Warm.atr_warm
Warm.bal_power_warm
Warm.bbands_warm
Warm.beta_warm
Warm.cc_hv_warm
Warm.cci_warm
Warm.cfo_warm
Warm.chandelier_warm
Warm.chop_warm
Warm.cks_warm
Warm.cmf_warm
Warm.cmo_warm
Warm.cog_warm
Warm.coppock_warm
Warm.crsi_warm
Warm.cv_warm
Warm.cvi_warm
Warm.dcor_warm
Warm.deli_warm
Warm.dema_warm
Warm.derivative_warm
Warm.disparity_warm
Warm.displaced_warm
Warm.donchian_warm
Warm.dpo_warm
Warm.ease_warm
Warm.elder_force_warm
Warm.elder_ray_warm
Warm.ewma_warm
Warm.fbands_warm
Warm.fisher_warm
Warm.frama_warm
Warm.fwma_warm
Warm.gator_warm
Warm.gkyz_hv_warm
Warm.gri_warm
Warm.hoeffd_warm
Warm.hull_warm
Warm.hurst_warm
Warm.hv_warm
Warm.ichimoku_warm
Warm.inertia_warm
Warm.kama_warm
Warm.kdj_j_warm
Warm.kdj_warm
Warm.keltner_warm
Warm.krcc_warm
Warm.kst_warm
Warm.kurtosis_warm
Warm.kvo_warm
Warm.lrf_warm
Warm.macd_warm
Warm.mad_warm
Warm.mama_warm
Warm.mass_warm
Warm.mda_warm
Warm.median_warm
Warm.mfi_warm
Warm.mic_warm
Warm.nvi_warm
Warm.obv_warm
Warm.pcc_warm
Warm.perf_warm
Warm.pgo_warm
Warm.pmo_warm
Warm.ppo_warm
Warm.psar_warm
Warm.psych_warm
Warm.pvi_warm
Warm.pwma_warm
Warm.qqe_warm
Warm.qstick_warm
Warm.quantile_warm
Warm.rainbow_warm
Warm.relative_vigor_warm
Warm.relative_vol_warm
Warm.roc_warm
Warm.rsi_pad_warm
Warm.rsi_warm
Warm.rsq_warm
Warm.rwi_warm
Warm.sample_entropy_warm
Warm.shinohara_warm
Warm.si_warm
Warm.skew_warm
Warm.sma_warm
Warm.special_k_warm
Warm.srcc_warm
Warm.ssf_warm
Warm.starc_warm
Warm.stc_warm
Warm.std_dev_warm
Warm.stoch_warm
Warm.stochastic_warm
Warm.supertrend_warm
Warm.t3_warm
Warm.tema_warm
Warm.tii_warm_any
Warm.tr_warm
Warm.trima_warm
Warm.trix_warm
Warm.tsi_warm
Warm.tvi_warm
Warm.twiggs_warm
Warm.typical_warm
Warm.ulcer_warm
Warm.ultimate_warm
Warm.variance_warm
Warm.vhf_warm
Warm.vidya_warm
Warm.vma_warm
Warm.vortex_warm
Warm.vpt_warm
Warm.vstd_dev_warm
Warm.vwma_warm
Warm.wilder_warm
Warm.wma_warm
Warm.wpr_warm
Warm.zlma_warm
Warm.zscore_warm
# ClassicalDedekindReals.sig_forall_dec
Adaptive.adaptive_first
Adaptive.adaptive_next
# ClassicalDedekindReals.sig_forall_dec, FunctionalExtensionality.functional_extensionality_dep
Adaptive.adaptive_inside
Adaptive.kama_gain_unit
Adaptive.mcginley_const
Adaptive.ssf2_const
Adaptive.ssf3_const
Adaptive.vma_gain_unit
Convex.inside_constant
Dcor.dcov2_nonneg
DistReal.mad_nonneg
DistReal.var_nonneg
DistReal.var_zero
MomReal.bal_power_range
MomReal.cmo_range
MomReal.cog_range
MomReal.crsi_range
MomReal.psych_range
MomReal.rsi_range
MomReal.stc_range
MomReal.stochastic_range
MomReal.ultimate_range
MomReal.ultimate_within
MomReal.wpr_range
SmoothReal.ema_closed_form
SmoothReal.ema_weights_sum_to_one
TrendReal.adx_range
TrendReal.aroon_range
TrendReal.atr_stop_ratchet
TrendReal.decay_props
TrendReal.di_range
TrendReal.dm_exclusive
TrendReal.latest_high_unique
TrendReal.psar_af
TrendReal.psar_ep
TrendReal.psar_side
TrendReal.supertrend_ratchet
TrendReal.vortex_nonneg
VolatReal.atr_nonneg
VolatReal.bands_ordered
VolatReal.donchian_ordered
VolatReal.highest_spec
VolatReal.lowest_spec
VolatReal.range_le_true_ranges
VolatReal.relative_vol_range
VolatReal.true_range_ge
VolatReal.typical_price_range
VolatReal.wcp_range
VolumeReal.cmf_range
VolumeReal.mfi_range
VolumeReal.twiggs_range
VolumeReal.vwap_range
VolumeReal.vwma_range
# ClassicalDedekindReals.sig_forall_dec, ClassicalDedekindReals.sig_not_dec, FunctionalExtensionality.functional_extensionality_dep
CorrReal.pearson_affine
CorrReal.pearson_negate
CorrReal.pearson_range
CorrReal.pearson_self
CorrReal.pearson_sq_range
CorrReal.pearson_sym
Dcor.dist_corr_range
Dcor.dist_corr_self
Dcor.dist_corr_sym
DistReal.mad_le_sd
RankCorr.spearman_monotone
RankCorr.spearman_range
RankCorr.spearman_sym
RankCorr.tau_b_monotone
RankCorr.tau_b_range
RankCorr.tau_b_sym
TrendReal.rescaled_pos
# ClassicalDedekindReals.sig_forall_dec, ClassicalDedekindReals.sig_not_dec, Classical_Prop.classic, FunctionalExtensionality.functional_extensionality_dep
Adaptive.frama_gain_unit
Adaptive.frama_inside
Adaptive.frama_real
Adaptive.hwma_const
Adaptive.hwma_real
Adaptive.kama_inside
Adaptive.kama_real
Adaptive.mama_finite
Adaptive.mdma_leaves_range
Adaptive.mdma_real
Adaptive.ssf_real
Adaptive.ssf_tri_real
Adaptive.vidya_flat_forever
Adaptive.vidya_real
Adaptive.vma_inside
Adaptive.vma_real
Convex.alma_inside
Convex.dema_constant
Convex.ewma_inside
Convex.fwma_inside
Convex.kernel_inside
Convex.pwma_inside
Convex.sma_inside
Convex.t3_constant
Convex.t3_factor_0
Convex.tema_constant
Convex.trima_inside
Convex.wilder_inside
Convex.wma_inside
CorrReal.beta_real
CorrReal.beta_self
CorrReal.pcc_real
CorrReal.perf_real
CorrReal.rsq_real
Dcor.dcor_real
Dispatch.ma_textbook
DistReal.cv_real
DistReal.kurtosis_affine
DistReal.kurtosis_real
DistReal.mad_real
DistReal.skew_affine
DistReal.skew_real
DistReal.std_dev_real
DistReal.variance_real
DistReal.variance_scale
DistReal.variance_shift
DistReal.zscore_affine
DistReal.zscore_real
Extra.emae_not_published
Extra.emae_real
F64Err.dcor_f64_symmetric
F64Err.donchian_f64_ordered
F64Err.fsum_err
F64Err.macd_f64_swap
F64Err.median_f64_total
F64Err.obv_f64_exact
F64Err.pcc_f64_symmetric
F64Err.quantile_f64_total
F64Err.rnd_add_err
F64Err.rnd_err
F64Err.sma_f64_error
F64Err.xval_sub_swap
F64Facts.atr_f64_nonneg
F64Facts.bbands_f64_ordered
F64Facts.ewma_f64_nonneg
F64Facts.keltner_f64_ordered
F64Facts.mad_f64_nonneg
F64Facts.starc_f64_ordered
F64Facts.std_dev_f64_nonneg
F64Facts.tr_bar_f64
F64Facts.tr_f64
F64Facts.variance_f64_nonneg
F64Facts.wilder_f64_nonneg
F64Osc.adx_f64_range
F64Osc.cmo_f64_range
F64Osc.rsi_f64_bounded
F64Osc.rsi_f64_range
F64Osc.stochastic_f64_range
F64Osc.ultimate_f64_range
F64Osc.wilder_f64_ordered
F64Range.aroon_f64_range
F64Range.bal_power_f64_range
F64Range.ewma_f64_unit
F64Range.psych_f64_range
F64Range.wilder_f64_within
F64Range.wpr_f64_range
HurstReal.hurst_real
HurstReal.hurst_sizes_real
Mic.mic_order_independent
Mic.mic_range_refuted
Mic.mic_real
Mic.mic_score_range
Mic.mic_small_window
Mic.mutual_le
Mic.mutual_nonneg
MomReal.bal_power_real
MomReal.cci_real
MomReal.cmo_real
MomReal.cog_real
MomReal.coppock_real
MomReal.crsi_real
MomReal.deli_real
MomReal.derivative_real
MomReal.disparity_real
MomReal.elder_ray_real
MomReal.fisher_bounded
MomReal.fisher_real
MomReal.kdj_real
MomReal.kst_real
MomReal.macd_real
MomReal.pgo_real
MomReal.pmo_real
MomReal.ppo_real
MomReal.psych_real
MomReal.qqe_real
MomReal.qstick_real
MomReal.rainbow_real
MomReal.relative_vigor_real
MomReal.roc_real
MomReal.rsi_real
MomReal.special_k_real
MomReal.stc_real
MomReal.stochastic_real
MomReal.tii_real
MomReal.trix_real
MomReal.tsi_real
MomReal.ultimate_real
MomReal.wpr_real
OrderStat.median_real
OrderStat.quantile_inside
OrderStat.quantile_real
Panics.hoeffd_f64_outcome
Panics.median_f64_outcome
Panics.quantile_f64_outcome
Panics.rank_f64_outcome
Panics.srcc_f64_outcome
RankCorr.hoeffd_real
RankCorr.krcc_range_refuted
RankCorr.krcc_real
RankCorr.krcc_real_formula
RankCorr.srcc_real
Refute.approx_entropy_f64_repaints
Refute.cfo_f64_leaves_range
Refute.donchian_f64_overflow
Refute.ichimoku_f64_repaints
Refute.psar_f64_above_previous_low
Refute.rsi_f64_above_100
Refute.sample_entropy_f64_repaints
Refute.sma_f64_leaves_range
Refute.stochastic_f64_above_100
Refute.supertrend_f64_moves_back
Refute.vidya_f64_flat
Refute.zigzag_f64_repaints
Refute.zigzag_f64_two_highs
Refute.zigzag_f64_wide_bar
RegReal.error_metrics
RegReal.mae_real
RegReal.mape_real
RegReal.mase_real
RegReal.mda_range
RegReal.mda_real
RegReal.mse_real
RegReal.rmse_real
RegReal.smape_range
RegReal.smape_range_refuted
RegReal.smape_real
RegReal.smape_symmetric
SmoothReal.dema_real
SmoothReal.ewma_real
SmoothReal.fwma_real
SmoothReal.hull_real
SmoothReal.pwma_real
SmoothReal.sma_real
SmoothReal.t3_real
SmoothReal.tema_real
SmoothReal.trima_real
SmoothReal.wilder_real
SmoothReal.wma_real
SmoothReal2.alma_real
SmoothReal2.alma_weights_reversed
SmoothReal2.lrf_line
SmoothReal2.lrf_real
SmoothReal2.zlma_real
TrendReal.adx_real
TrendReal.alligator_real
TrendReal.aroon_real
TrendReal.atr_stop_real
TrendReal.chandelier_real
TrendReal.cks_real
TrendReal.decay_real
TrendReal.dpo_real
TrendReal.gator_real
TrendReal.hurst_win_real
TrendReal.ichimoku_real
TrendReal.psar_real
TrendReal.rwi_real
TrendReal.shinohara_real
TrendReal.supertrend_real
TrendReal.ulcer_real
TrendReal.vortex_real
TrendReal.zigzag_real
VolatReal.atr_real
VolatReal.bbands_real
VolatReal.cc_hv_real
VolatReal.chop_nonneg
VolatReal.chop_real
VolatReal.cvi_real
VolatReal.donchian_real
VolatReal.fbands_order_refuted
VolatReal.fbands_real
VolatReal.gkyz_hv_real
VolatReal.gkyz_term_nonneg
VolatReal.gri_real
VolatReal.heikin_ashi_real
VolatReal.hv_real
VolatReal.inertia_real
VolatReal.keltner_real
VolatReal.mass_real
VolatReal.relative_vol_real
VolatReal.starc_real
VolatReal.tr_real
VolatReal.typical_real
VolatReal.vhf_real
VolatReal.wcp_real
VolumeReal.ad_alt_real
VolumeReal.ad_flat_bar
VolumeReal.ad_real
VolumeReal.bw_mfi_real
VolumeReal.cmf_real
VolumeReal.ease_real
VolumeReal.elder_force_real
VolumeReal.kvo_force_real
VolumeReal.kvo_real
VolumeReal.mfi_real
VolumeReal.nvi_real
VolumeReal.obv_real
VolumeReal.obv_unchanged_refuted
VolumeReal.pvi_real
VolumeReal.tvi_direction
VolumeReal.tvi_real
VolumeReal.twiggs_real
VolumeReal.vpt_real
VolumeReal.vwap_real
VolumeReal.vwma_real
Warm.tii_warm
Warm.tii_warm_f64
