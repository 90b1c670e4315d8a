{
 "claims": [
  {
   "property": "C01",
   "status": "proved",
   "theorems": [
    "variance_outcome",
    "std_dev_outcome",
    "zscore_outcome",
    "mad_outcome",
    "cv_outcome",
    "kurtosis_outcome",
    "skew_outcome",
    "mda_outcome",
    "mase_outcome",
    "emae_outcome",
    "pcc_outcome",
    "rsq_outcome",
    "beta_outcome",
    "perf_outcome",
    "dcor_outcome",
    "mic_outcome",
    "krcc_outcome",
    "mama_f64_outcome",
    "fisher_f64_outcome",
    "rsi_outcome",
    "crsi_outcome",
    "macd_outcome",
    "cmo_outcome",
    "cfo_outcome",
    "elder_ray_outcome",
    "wpr_outcome",
    "ppo_outcome",
    "apo_outcome",
    "pmo_outcome",
    "ultimate_outcome",
    "pgo_outcome",
    "si_outcome",
    "trix_outcome",
    "tii_outcome",
    "stochastic_outcome",
    "stc_outcome",
    "relative_vigor_outcome",
    "fisher_outcome",
    "rainbow_outcome",
    "coppock_outcome",
    "roc_outcome",
    "bal_power_outcome",
    "disparity_outcome",
    "qstick_outcome",
    "cog_outcome",
    "psych_outcome",
    "tsi_outcome",
    "derivative_outcome",
    "cci_outcome",
    "deli_outcome",
    "gator_outcome",
    "kdj_outcome",
    "qqe_outcome",
    "quantile_f64_outcome",
    "median_f64_outcome",
    "rank_f64_outcome",
    "srcc_f64_outcome",
    "hoeffd_f64_outcome",
    "pwma_outcome",
    "kst_outcome",
    "kst_default_outcome",
    "special_k_outcome",
    "srcc_outcome",
    "hoeffd_outcome",
    "std_dev_raw_outcome",
    "ewma_outcome",
    "sma_outcome",
    "dema_outcome",
    "tema_outcome",
    "wma_outcome",
    "wilder_outcome",
    "hull_outcome",
    "vidya_outcome",
    "vma_outcome",
    "lrf_outcome",
    "trima_outcome",
    "zlma_outcome",
    "kernel_outcome",
    "kama_outcome",
    "alma_outcome",
    "mdma_outcome",
    "hwma_outcome",
    "fwma_outcome",
    "ssf_outcome",
    "t3_outcome",
    "frama_outcome",
    "asi_outcome",
    "shinohara_outcome",
    "adx_outcome",
    "vortex_outcome",
    "ulcer_outcome",
    "supertrend_outcome",
    "rwi_outcome",
    "psar_outcome",
    "dpo_outcome",
    "aroon_outcome",
    "chandelier_outcome",
    "decay_outcome",
    "cks_outcome",
    "atr_stop_outcome",
    "alligator_outcome",
    "ichimoku_outcome",
    "hurst_outcome",
    "ma_outcome",
    "vforce_outcome",
    "vforce_alt_outcome",
    "kvo_outcome",
    "twiggs_outcome",
    "ad_outcome",
    "elder_force_outcome",
    "mfi_outcome",
    "cmf_outcome",
    "tvi_outcome",
    "ease_outcome",
    "obv_outcome",
    "vwap_outcome",
    "vwma_outcome",
    "vpt_outcome",
    "mass_outcome",
    "gri_outcome",
    "true_range_outcome",
    "tr_outcome",
    "atr_outcome",
    "keltner_outcome",
    "typical_outcome",
    "vstd_dev_outcome",
    "bbands_outcome",
    "donchian_outcome",
    "hv_outcome",
    "starc_outcome",
    "cvi_outcome",
    "relative_vol_outcome",
    "inertia_outcome",
    "chop_outcome",
    "vhf_outcome",
    "heikin_ashi_outcome",
    "cc_hv_outcome",
    "gkyz_hv_outcome",
    "length_bw_mfi",
    "length_pvi",
    "length_nvi",
    "length_fbands",
    "length_wcp",
    "length_rsc",
    "regression_lengths",
    "mama_length",
    "zigzag_ok",
    "zigzag_empty",
    "approx_entropy_panic",
    "sample_entropy_panic"
   ],
   "note": "Length of every function's output, for every arithmetic; quantile, rank and the rank correlations in binary64, NaN included. A series shorter than the warm-up gives the warm-up alone."
  },
  {
   "property": "C02",
   "status": "proved",
   "theorems": [
    "ewma_warm",
    "sma_warm",
    "wma_warm",
    "pwma_warm",
    "fwma_warm",
    "wilder_warm",
    "lrf_warm",
    "vidya_warm",
    "vma_warm",
    "kama_warm",
    "alma_warm",
    "ssf_warm",
    "mama_warm",
    "frama_warm",
    "zlma_warm",
    "variance_warm",
    "std_dev_warm",
    "zscore_warm",
    "mad_warm",
    "cv_warm",
    "approx_entropy_warm",
    "sample_entropy_warm",
    "kurtosis_warm",
    "skew_warm",
    "quantile_warm",
    "median_warm",
    "mda_warm",
    "pcc_warm",
    "beta_warm",
    "srcc_warm",
    "krcc_warm",
    "hoeffd_warm",
    "dcor_warm",
    "mic_warm",
    "twiggs_warm",
    "ad_warm",
    "elder_force_warm",
    "mfi_warm",
    "cmf_warm",
    "tvi_warm",
    "ease_warm",
    "obv_warm",
    "pvi_warm",
    "nvi_warm",
    "vwma_warm",
    "vpt_warm",
    "gri_warm",
    "tr_warm",
    "atr_warm",
    "typical_warm",
    "donchian_warm",
    "fbands_warm",
    "hv_warm",
    "chop_warm",
    "vhf_warm",
    "cc_hv_warm",
    "gkyz_hv_warm",
    "shinohara_warm",
    "vortex_warm",
    "asi_warm",
    "rwi_warm",
    "psar_warm",
    "dpo_warm",
    "aroon_warm",
    "chandelier_warm",
    "cks_warm",
    "atr_stop_warm",
    "hurst_warm",
    "alligator_warm",
    "rsi_pad_warm",
    "cmo_warm",
    "wpr_warm",
    "pmo_warm",
    "ultimate_warm",
    "si_warm",
    "stochastic_warm",
    "kdj_warm",
    "stc_warm",
    "fisher_warm",
    "rainbow_warm",
    "coppock_warm",
    "roc_warm",
    "bal_power_warm",
    "qstick_warm",
    "cog_warm",
    "psych_warm",
    "special_k_warm",
    "kst_warm",
    "cci_warm",
    "qqe_warm",
    "dema_warm",
    "tema_warm",
    "t3_warm",
    "hull_warm",
    "trima_warm",
    "rsq_warm",
    "perf_warm",
    "kvo_warm",
    "mass_warm",
    "keltner_warm",
    "vstd_dev_warm",
    "bbands_warm",
    "starc_warm",
    "cvi_warm",
    "relative_vol_warm",
    "inertia_warm",
    "rsi_warm",
    "crsi_warm",
    "macd_warm",
    "ppo_warm",
    "apo_warm",
    "cfo_warm",
    "elder_ray_warm",
    "pgo_warm",
    "trix_warm",
    "relative_vigor_warm",
    "disparity_warm",
    "tsi_warm",
    "derivative_warm",
    "deli_warm",
    "gator_warm",
    "kdj_j_warm",
    "adx_warm",
    "ulcer_warm",
    "supertrend_warm",
    "ichimoku_warm",
    "tii_warm",
    "tii_warm_f64",
    "tii_warm_any"
   ],
   "note": "For every arithmetic; where the NaN of an inner average has to pass through an operation, for every arithmetic with the NaN laws of binary64."
  },
  {
   "property": "C03",
   "status": "proved",
   "theorems": [
    "variance_causal",
    "std_dev_causal",
    "zscore_causal",
    "mad_causal",
    "cv_causal",
    "kurtosis_causal",
    "skew_causal",
    "regression_causal",
    "mda_causal",
    "emae_causal",
    "mase_causal",
    "pcc_causal",
    "rsq_causal",
    "beta_causal",
    "perf_causal",
    "rsc_causal",
    "dcor_causal",
    "mic_causal",
    "krcc_causal",
    "srcc_causal",
    "hoeffd_causal",
    "approx_entropy_causal",
    "sample_entropy_causal",
    "quantile_causal",
    "median_causal",
    "rsi_causal",
    "crsi_causal",
    "macd_causal",
    "cmo_causal",
    "cfo_causal",
    "elder_ray_causal",
    "wpr_causal",
    "ppo_causal",
    "apo_causal",
    "pmo_causal",
    "ultimate_causal",
    "pgo_causal",
    "si_causal",
    "trix_causal",
    "tii_causal",
    "stochastic_causal",
    "stc_causal",
    "relative_vigor_causal",
    "fisher_causal",
    "rainbow_causal",
    "coppock_causal",
    "roc_causal",
    "bal_power_causal",
    "disparity_causal",
    "qstick_causal",
    "cog_causal",
    "psych_causal",
    "tsi_causal",
    "derivative_causal",
    "cci_causal",
    "deli_causal",
    "kdj_causal",
    "qqe_causal",
    "mse_causal",
    "rmse_causal",
    "mae_causal",
    "mape_causal",
    "smape_causal",
    "kst_causal",
    "alligator_causal",
    "gator_causal",
    "ichimoku_causal",
    "pwma_causal",
    "special_k_causal",
    "kst_default_causal",
    "std_dev_raw_causal",
    "ewma_causal",
    "sma_causal",
    "dema_causal",
    "tema_causal",
    "wma_causal",
    "wilder_causal",
    "hull_causal",
    "vidya_causal",
    "vma_causal",
    "lrf_causal",
    "trima_causal",
    "zlma_causal",
    "kernel_causal",
    "kama_causal",
    "alma_causal",
    "mdma_causal",
    "hwma_causal",
    "fwma_causal",
    "ssf_causal",
    "t3_causal",
    "frama_causal",
    "mama_causal",
    "asi_causal",
    "shinohara_causal",
    "adx_causal",
    "vortex_causal",
    "ulcer_causal",
    "supertrend_causal",
    "rwi_causal",
    "psar_causal",
    "dpo_causal",
    "aroon_causal",
    "chandelier_causal",
    "decay_causal",
    "cks_causal",
    "atr_stop_causal",
    "hurst_causal",
    "ma_causal",
    "vforce_causal",
    "vforce_alt_causal",
    "kvo_causal",
    "twiggs_causal",
    "ad_causal",
    "elder_force_causal",
    "mfi_causal",
    "cmf_causal",
    "tvi_causal",
    "ease_causal",
    "obv_causal",
    "bw_mfi_causal",
    "pvi_causal",
    "nvi_causal",
    "vwap_causal",
    "vwma_causal",
    "vpt_causal",
    "mass_causal",
    "gri_causal",
    "true_range_causal",
    "tr_causal",
    "atr_causal",
    "keltner_causal",
    "typical_causal",
    "vstd_dev_causal",
    "bbands_causal",
    "donchian_causal",
    "fbands_causal",
    "hv_causal",
    "starc_causal",
    "cvi_causal",
    "relative_vol_causal",
    "inertia_causal",
    "chop_causal",
    "vhf_causal",
    "heikin_ashi_causal",
    "wcp_causal",
    "cc_hv_causal",
    "gkyz_hv_causal"
   ],
   "note": "Output on a prefix is a prefix of the output, for every arithmetic. Displaced lines (alligator, gator): up to the smallest displacement. ichimoku: all lines but the last. The functions that do look ahead are C04."
  },
  {
   "property": "C04",
   "status": "proved",
   "theorems": [
    "zigzag_f64_repaints",
    "ichimoku_f64_repaints",
    "sample_entropy_f64_repaints",
    "approx_entropy_f64_repaints"
   ],
   "note": "Witnesses in binary64."
  },
  {
   "property": "C05",
   "status": "proved",
   "theorems": [
    "variance_outcome",
    "std_dev_outcome",
    "zscore_outcome",
    "mad_outcome",
    "cv_outcome",
    "kurtosis_outcome",
    "skew_outcome",
    "mda_outcome",
    "mase_outcome",
    "emae_outcome",
    "pcc_outcome",
    "rsq_outcome",
    "beta_outcome",
    "perf_outcome",
    "dcor_outcome",
    "mic_outcome",
    "krcc_outcome",
    "mama_f64_outcome",
    "fisher_f64_outcome",
    "rsi_outcome",
    "crsi_outcome",
    "macd_outcome",
    "cmo_outcome",
    "cfo_outcome",
    "elder_ray_outcome",
    "wpr_outcome",
    "ppo_outcome",
    "apo_outcome",
    "pmo_outcome",
    "ultimate_outcome",
    "pgo_outcome",
    "si_outcome",
    "trix_outcome",
    "tii_outcome",
    "stochastic_outcome",
    "stc_outcome",
    "relative_vigor_outcome",
    "fisher_outcome",
    "rainbow_outcome",
    "coppock_outcome",
    "roc_outcome",
    "bal_power_outcome",
    "disparity_outcome",
    "qstick_outcome",
    "cog_outcome",
    "psych_outcome",
    "tsi_outcome",
    "derivative_outcome",
    "cci_outcome",
    "deli_outcome",
    "gator_outcome",
    "kdj_outcome",
    "qqe_outcome",
    "quantile_f64_outcome",
    "median_f64_outcome",
    "rank_f64_outcome",
    "srcc_f64_outcome",
    "hoeffd_f64_outcome",
    "pwma_outcome",
    "kst_outcome",
    "kst_default_outcome",
    "special_k_outcome",
    "srcc_outcome",
    "hoeffd_outcome",
    "std_dev_raw_outcome",
    "ewma_outcome",
    "sma_outcome",
    "dema_outcome",
    "tema_outcome",
    "wma_outcome",
    "wilder_outcome",
    "hull_outcome",
    "vidya_outcome",
    "vma_outcome",
    "lrf_outcome",
    "trima_outcome",
    "zlma_outcome",
    "kernel_outcome",
    "kama_outcome",
    "alma_outcome",
    "mdma_outcome",
    "hwma_outcome",
    "fwma_outcome",
    "ssf_outcome",
    "t3_outcome",
    "frama_outcome",
    "asi_outcome",
    "shinohara_outcome",
    "adx_outcome",
    "vortex_outcome",
    "ulcer_outcome",
    "supertrend_outcome",
    "rwi_outcome",
    "psar_outcome",
    "dpo_outcome",
    "aroon_outcome",
    "chandelier_outcome",
    "decay_outcome",
    "cks_outcome",
    "atr_stop_outcome",
    "alligator_outcome",
    "ichimoku_outcome",
    "hurst_outcome",
    "ma_outcome",
    "vforce_outcome",
    "vforce_alt_outcome",
    "kvo_outcome",
    "twiggs_outcome",
    "ad_outcome",
    "elder_force_outcome",
    "mfi_outcome",
    "cmf_outcome",
    "tvi_outcome",
    "ease_outcome",
    "obv_outcome",
    "vwap_outcome",
    "vwma_outcome",
    "vpt_outcome",
    "mass_outcome",
    "gri_outcome",
    "true_range_outcome",
    "tr_outcome",
    "atr_outcome",
    "keltner_outcome",
    "typical_outcome",
    "vstd_dev_outcome",
    "bbands_outcome",
    "donchian_outcome",
    "hv_outcome",
    "starc_outcome",
    "cvi_outcome",
    "relative_vol_outcome",
    "inertia_outcome",
    "chop_outcome",
    "vhf_outcome",
    "heikin_ashi_outcome",
    "cc_hv_outcome",
    "gkyz_hv_outcome",
    "zigzag_ok",
    "zigzag_empty",
    "skew_win_panic",
    "hurst_win_panic",
    "rainbow_at_panic",
    "coppock_at_panic",
    "krcc_win_panic",
    "pascal_row_panic",
    "approx_entropy_panic",
    "sample_entropy_panic",
    "mama_finite",
    "mama_nan_panics",
    "mama_f64_outcome_small",
    "mama_f64_huge_panics",
    "clamp_f64_ok"
   ],
   "note": "Exact panic domain, for every arithmetic; quantile, rank, the rank correlations and mama in binary64, NaN included. mama depends on the data: it panics if and only if, at a bar from 6 on that is not the last, the phasor of its period measurement (specified in MamaExact.v without the code's queues) has no angle, that is im / re is NaN (mama_f64_outcome; atan is assumed to send NaN to NaN and nothing else to NaN). Up to 2^480 that means exactly a NaN or infinite price (mama_f64_outcome_small); a price of 2^1022 always panics (mama_f64_huge_panics)."
  },
  {
   "property": "C06",
   "status": "proved",
   "theorems": [
    "sma_values",
    "sma_real"
   ],
   "note": "Value at every bar for every arithmetic, and the mean over the reals."
  },
  {
   "property": "C07",
   "status": "proved",
   "theorems": [
    "sma_inside",
    "wma_inside",
    "pwma_inside",
    "fwma_inside",
    "trima_inside",
    "ewma_inside",
    "wilder_inside",
    "kernel_inside",
    "alma_inside",
    "inside_constant"
   ],
   "note": "Exact arithmetic."
  },
  {
   "property": "C08",
   "status": "proved",
   "theorems": [
    "sma_f64_leaves_range",
    "sma_f64_error",
    "rnd_err",
    "rnd_add_err",
    "fsum_err"
   ],
   "note": "The range claim is false (witness); the error bound holds for every finite window."
  },
  {
   "property": "C09",
   "status": "proved",
   "theorems": [
    "wma_values",
    "wma_real",
    "wma_outcome"
   ],
   "note": "Value for every arithmetic; weighted mean over the reals; overflow threshold in the outcome."
  },
  {
   "property": "C10",
   "status": "proved",
   "theorems": [
    "pwma_values",
    "pwma_real",
    "pwma_outcome"
   ],
   "note": "Binomial weights; the exact set of windows without overflow."
  },
  {
   "property": "C11",
   "status": "proved",
   "theorems": [
    "fwma_values",
    "fwma_real",
    "fwma_outcome"
   ],
   "note": ""
  },
  {
   "property": "C12",
   "status": "proved",
   "theorems": [
    "ewma_values",
    "ewma_real",
    "wilder_values",
    "wilder_real",
    "ema_closed_form",
    "ema_weights_sum_to_one"
   ],
   "note": ""
  },
  {
   "property": "C13",
   "status": "proved",
   "theorems": [
    "dema_real",
    "tema_real",
    "t3_real",
    "dema_constant",
    "tema_constant",
    "t3_constant",
    "t3_factor_0"
   ],
   "note": ""
  },
  {
   "property": "C14",
   "status": "proved",
   "theorems": [
    "lrf_real",
    "lrf_line"
   ],
   "note": "Exact arithmetic."
  },
  {
   "property": "C15",
   "status": "proved",
   "theorems": [
    "hull_real",
    "trima_real",
    "zlma_real"
   ],
   "note": "Exact arithmetic."
  },
  {
   "property": "C16",
   "status": "proved",
   "theorems": [
    "kama_flat_forever",
    "vma_flat_forever",
    "frama_flat_forever",
    "vidya_flat_forever",
    "vidya_f64_flat"
   ],
   "note": "The claim is false: after one flat window every later value is NaN, for any futures, in exact arithmetic and in binary64 (frama and vidya: exact arithmetic, vidya with a binary64 witness)."
  },
  {
   "property": "C17",
   "status": "proved",
   "theorems": [
    "mama_nan_panics",
    "mama_finite"
   ],
   "note": "The claim is false for a NaN bar; on finite data and limits in [0,1] mama returns (exact arithmetic)."
  },
  {
   "property": "C18",
   "status": "proved",
   "theorems": [
    "alma_real",
    "alma_weights_reversed",
    "kernel_real"
   ],
   "note": "kernel as stated; the documented claim about alma is false: its weights are applied newest first."
  },
  {
   "property": "C19",
   "status": "proved",
   "theorems": [
    "ma_dispatch",
    "ma_textbook"
   ],
   "note": "Any arithmetic for the dispatch; the textbook value of every mode in exact arithmetic."
  },
  {
   "property": "C20",
   "status": "proved",
   "theorems": [
    "variance_f64_nonneg",
    "std_dev_f64_nonneg",
    "mad_f64_nonneg",
    "variance_real",
    "std_dev_real",
    "var_nonneg",
    "var_zero",
    "variance_shift",
    "variance_scale",
    "std_dev_least"
   ],
   "note": "Exact arithmetic; sign in binary64."
  },
  {
   "property": "C21",
   "status": "proved",
   "theorems": [
    "zscore_real",
    "zscore_affine",
    "mad_real",
    "mad_nonneg",
    "mad_le_sd",
    "cv_real",
    "mad_least",
    "mad_below_std_dev"
   ],
   "note": "Exact arithmetic."
  },
  {
   "property": "C22",
   "status": "proved",
   "theorems": [
    "approx_entropy_flat",
    "sample_entropy_flat",
    "approx_entropy_small",
    "sample_entropy_small"
   ],
   "note": "The claim is false: approx_entropy panics on long flat windows, sample_entropy too; short windows never panic."
  },
  {
   "property": "C23",
   "status": "proved",
   "theorems": [
    "skew_real",
    "kurtosis_real",
    "skew_affine",
    "kurtosis_affine",
    "skew_outcome",
    "kurtosis_outcome"
   ],
   "note": "Exact arithmetic."
  },
  {
   "property": "C24",
   "status": "proved",
   "theorems": [
    "quickselect_total",
    "quickselect_split",
    "quantile_real",
    "median_real",
    "quantile_inside",
    "quantile_f64_total",
    "median_f64_total"
   ],
   "note": "Exact arithmetic for the values; binary64 for the absence of panics."
  },
  {
   "property": "C25",
   "status": "proved",
   "theorems": [
    "rank_min",
    "rank_max",
    "rank_average",
    "rank_dense",
    "rank_ordinal",
    "rank_empty"
   ],
   "note": "For every arithmetic on comparable data and every admissible sort."
  },
  {
   "property": "C26",
   "status": "proved",
   "theorems": [
    "mse_real",
    "rmse_real",
    "mae_real",
    "mape_real",
    "mase_real",
    "error_metrics",
    "emae_real",
    "emae_not_published"
   ],
   "note": "emae divides once more by the number of bars than the metric it names."
  },
  {
   "property": "C27",
   "status": "proved",
   "theorems": [
    "smape_real",
    "smape_symmetric",
    "smape_range",
    "smape_range_refuted"
   ],
   "note": "Symmetric, range 0..200; the documented 0..100 is refuted."
  },
  {
   "property": "C28",
   "status": "proved",
   "theorems": [
    "mda_real",
    "mda_range"
   ],
   "note": ""
  },
  {
   "property": "C29",
   "status": "proved",
   "theorems": [
    "pcc_values",
    "pcc_real",
    "pcc_symmetric",
    "pearson_range",
    "pearson_sym",
    "pearson_affine",
    "pearson_negate",
    "pearson_self",
    "rsq_square",
    "rsq_real",
    "pearson_sq_range",
    "pcc_f64_symmetric",
    "pcc_ranged",
    "rsq_ranged",
    "pcc_affine",
    "pcc_self",
    "pcc_negate"
   ],
   "note": "Bounds and invariance in exact arithmetic; symmetry for every arithmetic with commutative multiplication, in particular binary64."
  },
  {
   "property": "C30",
   "status": "proved",
   "theorems": [
    "beta_values",
    "beta_real",
    "beta_self",
    "perf_values",
    "perf_real",
    "rsc_values"
   ],
   "note": ""
  },
  {
   "property": "C31",
   "status": "proved",
   "theorems": [
    "srcc_real",
    "srcc_outcome",
    "spearman_range",
    "spearman_sym",
    "spearman_monotone",
    "krcc_real",
    "krcc_real_formula",
    "tau_b_range",
    "tau_b_sym",
    "tau_b_monotone",
    "krcc_range_refuted",
    "krcc_outcome",
    "srcc_ranged",
    "krcc_ranged",
    "srcc_monotone"
   ],
   "note": "krcc is Kendall's tau-b whenever y ties only where x ties; otherwise the range claim is refuted."
  },
  {
   "property": "C32",
   "status": "proved",
   "theorems": [
    "hoeffd_real",
    "hoeffd_outcome"
   ],
   "note": "Exact formula from window 5 while no product overflows; hoeffd_outcome gives the exact panic domain."
  },
  {
   "property": "C33",
   "status": "proved",
   "theorems": [
    "dcor_real",
    "dcor_symmetric",
    "dcov2_nonneg",
    "dist_corr_range",
    "dist_corr_sym",
    "dist_corr_self",
    "dcor_f64_symmetric",
    "dcor_ranged",
    "dcor_self"
   ],
   "note": "Symmetry for every arithmetic with commutative multiplication, in particular binary64; the range in exact arithmetic."
  },
  {
   "property": "C34",
   "status": "proved",
   "theorems": [
    "mic_real",
    "mic_score_range",
    "mic_small_window",
    "mic_range_refuted",
    "mutual_nonneg",
    "mutual_le",
    "mic_ranged"
   ],
   "note": "In [0,1] from window 7 on; for windows 1 to 6 every value is f64::MIN, so the claim is refuted there."
  },
  {
   "property": "C35",
   "status": "proved",
   "theorems": [
    "obv_values",
    "obv_real",
    "obv_unchanged_refuted",
    "obv_f64_exact"
   ],
   "note": "Exact arithmetic: an unchanged close counts as a rise, so the documented claim is refuted. In binary64 integer totals below 2^53 are exact."
  },
  {
   "property": "C36",
   "status": "proved",
   "theorems": [
    "pvi_values",
    "nvi_values",
    "vol_index_repeats",
    "pvi_real",
    "nvi_real"
   ],
   "note": "Any arithmetic, and the compounding formula in exact arithmetic."
  },
  {
   "property": "C37",
   "status": "proved",
   "theorems": [
    "vwap_values",
    "vwap_real",
    "vwap_range",
    "vwap_outcome",
    "vwap_ranged"
   ],
   "note": "Any arithmetic for the session sums; range in exact arithmetic."
  },
  {
   "property": "C38",
   "status": "proved",
   "theorems": [
    "vwma_values",
    "vwma_real",
    "vwma_range",
    "vwma_ranged"
   ],
   "note": "Any arithmetic for the formula; range in exact arithmetic."
  },
  {
   "property": "C39",
   "status": "proved",
   "theorems": [
    "mfi_values",
    "mfi_real",
    "mfi_range",
    "cmf_values",
    "cmf_real",
    "cmf_range",
    "twiggs_values",
    "twiggs_real",
    "twiggs_range",
    "mfi_ranged",
    "cmf_ranged",
    "twiggs_ranged"
   ],
   "note": "Exact arithmetic."
  },
  {
   "property": "C40",
   "status": "proved",
   "theorems": [
    "ad_values",
    "ad_alt_values",
    "ad_real",
    "ad_alt_real",
    "vpt_values",
    "vpt_real",
    "tvi_values",
    "tvi_real",
    "tvi_direction",
    "bw_mfi_values",
    "bw_mfi_real",
    "elder_force_real",
    "ease_real",
    "kvo_real",
    "kvo_force_real",
    "tvi_moves",
    "tvi_keeps"
   ],
   "note": "ad, vpt, tvi and bw_mfi in any arithmetic; elder_force, ease and kvo in exact arithmetic."
  },
  {
   "property": "C41",
   "status": "proved",
   "theorems": [
    "tr_f64",
    "tr_bar_f64",
    "atr_f64_nonneg",
    "wilder_f64_nonneg",
    "ewma_f64_nonneg",
    "tr_values",
    "tr_real",
    "true_range_ge",
    "atr_real",
    "atr_nonneg",
    "atr_least"
   ],
   "note": "Exact arithmetic and binary64."
  },
  {
   "property": "C42",
   "status": "proved",
   "theorems": [
    "bbands_f64_ordered",
    "keltner_f64_ordered",
    "starc_f64_ordered",
    "keltner_real",
    "starc_real",
    "bbands_values",
    "bbands_real",
    "vstd_dev_real",
    "bands_ordered",
    "donchian_ordered",
    "fbands_real",
    "fbands_order_refuted",
    "donchian_f64_ordered",
    "donchian_f64_overflow"
   ],
   "note": "Exact arithmetic and binary64; refuted for fbands, whose bands start at 0, and for donchian when the sum of the bands overflows."
  },
  {
   "property": "C43",
   "status": "proved",
   "theorems": [
    "donchian_values",
    "donchian_real",
    "highest_spec",
    "lowest_spec",
    "donchian_contains"
   ],
   "note": ""
  },
  {
   "property": "C44",
   "status": "proved",
   "theorems": [
    "heikin_ashi_values",
    "heikin_ashi_real"
   ],
   "note": "The recurrence in any arithmetic, consistency in exact arithmetic."
  },
  {
   "property": "C45",
   "status": "proved",
   "theorems": [
    "typical_real",
    "typical_price_range",
    "wcp_values",
    "wcp_real",
    "wcp_range",
    "typical_ranged",
    "wcp_ranged"
   ],
   "note": ""
  },
  {
   "property": "C46",
   "status": "proved",
   "theorems": [
    "hv_real",
    "cc_hv_real",
    "gkyz_hv_real",
    "gkyz_term_nonneg",
    "gri_real",
    "chop_real",
    "chop_nonneg",
    "range_le_true_ranges",
    "vhf_real",
    "mass_real",
    "cvi_real",
    "relative_vol_real",
    "relative_vol_range",
    "inertia_real",
    "chop_least",
    "relative_vol_ranged"
   ],
   "note": "Exact arithmetic. chop is never negative; gkyz terms are never negative on consistent bars."
  },
  {
   "property": "C47",
   "status": "proved",
   "theorems": [
    "rsi_f64_range",
    "rsi_f64_bounded",
    "rsi_real",
    "rsi_range",
    "rsi_f64_above_100",
    "rsi_ranged"
   ],
   "note": "Exact arithmetic; in binary64 a witness exceeds 100 and the excess is bounded."
  },
  {
   "property": "C48",
   "status": "proved",
   "theorems": [
    "cmo_f64_range",
    "ultimate_f64_range",
    "stochastic_f64_range",
    "wpr_f64_range",
    "psych_f64_range",
    "aroon_f64_range",
    "bal_power_f64_range",
    "wilder_f64_within",
    "ewma_f64_unit",
    "wpr_real",
    "wpr_range",
    "stochastic_real",
    "stochastic_range",
    "cmo_real",
    "cmo_range",
    "ultimate_real",
    "ultimate_range",
    "ultimate_within",
    "tsi_real",
    "tii_real",
    "psych_real",
    "psych_range",
    "bal_power_real",
    "bal_power_range",
    "stc_real",
    "stc_range",
    "fisher_real",
    "fisher_bounded",
    "aroon_real",
    "aroon_range",
    "crsi_real",
    "crsi_range",
    "stochastic_f64_above_100",
    "cmo_ranged",
    "wpr_ranged",
    "psych_ranged",
    "bal_power_ranged",
    "stochastic_ranged",
    "kdj_ranged",
    "ultimate_ranged",
    "stc_ranged",
    "crsi_ranged",
    "fisher_ranged",
    "aroon_ranged"
   ],
   "note": "Exact arithmetic and binary64; the stochastic overshoot is a binary64 witness."
  },
  {
   "property": "C49",
   "status": "proved",
   "theorems": [
    "cfo_f64_leaves_range",
    "cfo_real"
   ],
   "note": "The claim is false (binary64 witness)."
  },
  {
   "property": "C50",
   "status": "proved",
   "theorems": [
    "apo_macd",
    "macd_real",
    "ppo_real",
    "macd_f64_swap",
    "xval_sub_swap"
   ],
   "note": "apo and macd agree in any arithmetic; the swap in binary64; formulas in exact arithmetic."
  },
  {
   "property": "C51",
   "status": "proved",
   "theorems": [
    "roc_values",
    "roc_real",
    "disparity_real",
    "qstick_real",
    "cog_real",
    "cog_range",
    "cci_real",
    "coppock_real",
    "kst_real",
    "special_k_real",
    "pmo_real",
    "trix_real",
    "derivative_real",
    "deli_real",
    "pgo_real",
    "elder_ray_real",
    "relative_vigor_real",
    "kdj_real",
    "rainbow_real",
    "qqe_real",
    "cog_ranged"
   ],
   "note": "Exact arithmetic."
  },
  {
   "property": "C52",
   "status": "proved",
   "theorems": [
    "si_values",
    "asi_values"
   ],
   "note": "Any arithmetic."
  },
  {
   "property": "C53",
   "status": "proved",
   "theorems": [
    "adx_f64_range",
    "wilder_f64_ordered",
    "adx_real",
    "di_range",
    "adx_range",
    "dm_exclusive",
    "vortex_real",
    "vortex_nonneg",
    "adx_ranged",
    "vortex_least"
   ],
   "note": "Exact arithmetic; the range of adx in binary64."
  },
  {
   "property": "C54",
   "status": "proved",
   "theorems": [
    "psar_real",
    "psar_side",
    "psar_af",
    "psar_ep",
    "psar_f64_above_previous_low",
    "psar_outside",
    "psar_ranged"
   ],
   "note": "Exact arithmetic: the recurrence, the side of the stop, the acceleration factor and the extreme point. The claim on the previous low is false (witness)."
  },
  {
   "property": "C55",
   "status": "proved",
   "theorems": [
    "supertrend_real",
    "supertrend_ratchet",
    "atr_stop_real",
    "atr_stop_ratchet",
    "supertrend_f64_moves_back",
    "supertrend_trails",
    "atr_stop_trails"
   ],
   "note": "Exact arithmetic; supertrend only ratchets while the close stays strictly beyond the band (witness otherwise)."
  },
  {
   "property": "C56",
   "status": "proved",
   "theorems": [
    "aroon_real",
    "aroon_range",
    "latest_high_unique"
   ],
   "note": "Exact arithmetic."
  },
  {
   "property": "C57",
   "status": "proved",
   "theorems": [
    "zigzag_values",
    "zigzag_real",
    "zigzag_f64_two_highs",
    "zigzag_f64_wide_bar"
   ],
   "note": "Exact arithmetic, bars narrower than the threshold, positive prices; two witnesses show the claim fails otherwise."
  },
  {
   "property": "C58",
   "status": "proved",
   "theorems": [
    "decay_values",
    "decay_real",
    "decay_props",
    "decay_follows"
   ],
   "note": "Exact arithmetic."
  },
  {
   "property": "C59",
   "status": "proved",
   "theorems": [
    "chandelier_real",
    "cks_real",
    "ichimoku_real",
    "alligator_real",
    "gator_real",
    "shinohara_values",
    "shinohara_real",
    "rwi_real",
    "dpo_values",
    "dpo_real",
    "ulcer_real",
    "hurst_sizes_real",
    "hurst_win_real",
    "hurst_real",
    "rescaled_pos"
   ],
   "note": "Exact arithmetic."
  },
  {
   "property": "C60",
   "status": "proved",
   "theorems": [
    "mic_order_independent"
   ],
   "note": "Exact arithmetic, every data (NaN and infinities included)."
  },
  {
   "property": "C61",
   "status": "proved",
   "theorems": [
    "ewma_nan_forever",
    "wilder_nan_forever",
    "sma_nan",
    "wma_nan",
    "pwma_nan",
    "fwma_nan",
    "windowed_contains",
    "sma_windowed",
    "wma_windowed",
    "pwma_windowed",
    "fwma_windowed",
    "lrf_windowed",
    "trima_windowed",
    "alma_windowed",
    "kernel_windowed",
    "variance_windowed",
    "std_dev_windowed",
    "vstd_dev_windowed",
    "zscore_windowed",
    "mad_windowed",
    "cv_windowed",
    "kurtosis_windowed",
    "roc_windowed",
    "cog_windowed",
    "skew_windowed",
    "quantile_windowed",
    "median_windowed",
    "approx_entropy_windowed",
    "sample_entropy_windowed",
    "pcc_windowed",
    "dcor_windowed",
    "mic_windowed",
    "srcc_windowed",
    "krcc_windowed",
    "hoeffd_windowed",
    "rsq_windowed",
    "rsc_windowed",
    "perf_windowed",
    "beta_windowed",
    "cmf_windowed",
    "vwma_windowed",
    "bw_mfi_windowed",
    "mfi_windowed",
    "ease_windowed",
    "gri_windowed",
    "donchian_windowed",
    "tr_windowed",
    "typical_windowed",
    "wcp_windowed",
    "hv_windowed",
    "cc_hv_windowed",
    "gkyz_hv_windowed",
    "chop_windowed",
    "vhf_windowed",
    "shinohara_windowed",
    "vortex_windowed",
    "rwi_windowed",
    "aroon_windowed",
    "ulcer_windowed",
    "dpo_windowed",
    "si_windowed",
    "cfo_windowed",
    "wpr_windowed",
    "ultimate_windowed",
    "tii_windowed",
    "stochastic_windowed",
    "relative_vigor_windowed",
    "coppock_windowed",
    "psych_windowed",
    "cci_windowed",
    "hull_windowed",
    "below_windowed"
   ],
   "note": "Propagation (which outputs a NaN reaches, forever for the recursive averages) and containment (one changed bar changes only the outputs whose window sees it)."
  },
  {
   "property": "C62",
   "status": "proved",
   "theorems": [
    "ad_flat_bar"
   ],
   "note": "The claim is false: ad_flat_bar proves every later value is NaN."
  },
  {
   "property": "C63",
   "status": "proved",
   "theorems": [
    "sma_windowed",
    "wma_windowed",
    "pwma_windowed",
    "fwma_windowed",
    "lrf_windowed",
    "trima_windowed",
    "alma_windowed",
    "kernel_windowed",
    "variance_windowed",
    "std_dev_windowed",
    "vstd_dev_windowed",
    "zscore_windowed",
    "mad_windowed",
    "cv_windowed",
    "kurtosis_windowed",
    "roc_windowed",
    "cog_windowed",
    "skew_windowed",
    "quantile_windowed",
    "median_windowed",
    "approx_entropy_windowed",
    "sample_entropy_windowed",
    "pcc_windowed",
    "dcor_windowed",
    "mic_windowed",
    "srcc_windowed",
    "krcc_windowed",
    "hoeffd_windowed",
    "rsq_windowed",
    "rsc_windowed",
    "perf_windowed",
    "beta_windowed",
    "cmf_windowed",
    "vwma_windowed",
    "bw_mfi_windowed",
    "mfi_windowed",
    "ease_windowed",
    "gri_windowed",
    "donchian_windowed",
    "tr_windowed",
    "typical_windowed",
    "wcp_windowed",
    "hv_windowed",
    "cc_hv_windowed",
    "gkyz_hv_windowed",
    "chop_windowed",
    "vhf_windowed",
    "shinohara_windowed",
    "vortex_windowed",
    "rwi_windowed",
    "aroon_windowed",
    "ulcer_windowed",
    "dpo_windowed",
    "si_windowed",
    "cfo_windowed",
    "wpr_windowed",
    "ultimate_windowed",
    "tii_windowed",
    "stochastic_windowed",
    "relative_vigor_windowed",
    "coppock_windowed",
    "psych_windowed",
    "cci_windowed",
    "hull_windowed",
    "below_windowed"
   ],
   "note": "For every arithmetic, hence bit for bit."
  },
  {
   "property": "C64",
   "status": "proved",
   "theorems": [
    "kama_real",
    "vma_real",
    "vidya_real",
    "frama_real",
    "adaptive_first",
    "adaptive_next"
   ],
   "note": "Exact arithmetic."
  },
  {
   "property": "C65",
   "status": "proved",
   "theorems": [
    "kama_gain_unit",
    "kama_inside",
    "vma_gain_unit",
    "vma_inside",
    "frama_gain_unit",
    "frama_inside",
    "adaptive_inside",
    "mama_finite"
   ],
   "note": "Exact arithmetic."
  },
  {
   "property": "C66",
   "status": "proved",
   "theorems": [
    "mdma_real",
    "mcginley_const",
    "mdma_leaves_range"
   ],
   "note": "Formula and constants in exact arithmetic; the range claim is refuted."
  },
  {
   "property": "C67",
   "status": "proved",
   "theorems": [
    "hwma_real",
    "hwma_const",
    "ssf_real",
    "ssf_tri_real",
    "ssf2_const",
    "ssf3_const"
   ],
   "note": "Exact arithmetic."
  },
  {
   "property": "C68",
   "status": "proved",
   "theorems": [
    "mama_real",
    "mama_gain",
    "mama_slow_ignored",
    "mama_period_blind"
   ],
   "note": "Exact arithmetic. The claim is false for the slow limit: the phase is left in radians, so the gain never falls below fast / pi and any slow limit below that has no effect."
  },
  {
   "property": "C69",
   "status": "proved",
   "theorems": [
    "approx_entropy_real",
    "sample_entropy_real"
   ],
   "note": "Exact arithmetic, whenever the function returns."
  },
  {
   "property": "C70",
   "status": "proved",
   "theorems": [
    "wilder_f64_error",
    "ewma_f64_error",
    "macd_f64_error",
    "dema_f64_error",
    "tema_f64_error",
    "t3_f64_error",
    "zlma_f64_error",
    "qstick_f64_error",
    "elder_ray_f64_error",
    "keltner_f64_error",
    "dpo_f64_error",
    "bbands_f64_error",
    "atr_f64_error"
   ],
   "note": "Binary64. The bounds, in units of 2^-53 * M with M the largest magnitude: 8w for wilder, 6(w+1) for ewma, 6(s+l+3) for macd, 30(w+1) for dema, 84(w+1) for tema, 900(w+1) for t3, 24(w+1) for zlma and qstick, 8(w+1) for elder_ray, 60(w+1) for the bands of keltner, 7w for dpo, 20w for atr. bbands (default deviation and average): 40 sqrt(w 2^-53) M for the bands, because the printed deviation is the root of a rounded variance."
  },
  {
   "property": "C71",
   "status": "proved",
   "theorems": [
    "variance_scale",
    "abs_scale",
    "ewma_scale",
    "sma_scale",
    "wilder_scale",
    "std_dev_scale",
    "dema_scale",
    "tema_scale",
    "wma_scale",
    "pwma_scale",
    "hull_scale",
    "lrf_scale",
    "trima_scale",
    "zlma_scale",
    "vidya_scale",
    "vma_scale",
    "ma_scale",
    "kernel_scale",
    "kama_scale",
    "alma_scale",
    "mdma_scale",
    "hwma_scale",
    "fwma_scale",
    "ssf_scale",
    "t3_scale",
    "mad_scale",
    "zscore_scale",
    "cv_scale",
    "kurtosis_scale",
    "tr_scale",
    "atr_scale",
    "mass_scale",
    "keltner_scale",
    "typical_scale",
    "vstd_dev_scale",
    "bbands_scale",
    "donchian_scale",
    "fbands_scale",
    "hv_scale",
    "starc_scale",
    "cvi_scale",
    "relative_vol_scale",
    "inertia_scale",
    "chop_scale",
    "vhf_scale",
    "heikin_ashi_scale",
    "wcp_scale",
    "cc_hv_scale",
    "gkyz_hv_scale",
    "kvo_scale",
    "twiggs_scale",
    "elder_force_scale",
    "mfi_scale",
    "cmf_scale",
    "tvi_scale",
    "ease_scale",
    "obv_scale",
    "bw_mfi_scale",
    "pvi_scale",
    "nvi_scale",
    "vwap_scale",
    "vwma_scale",
    "vpt_scale",
    "mse_scale",
    "rmse_scale",
    "mae_scale",
    "mape_scale",
    "smape_scale",
    "mda_scale",
    "mase_scale",
    "emae_scale",
    "shinohara_scale",
    "adx_scale",
    "vortex_scale",
    "asi_scale",
    "ulcer_scale",
    "rwi_scale",
    "psar_scale",
    "dpo_scale",
    "aroon_scale",
    "chandelier_scale",
    "atr_stop_scale",
    "alligator_scale",
    "ichimoku_scale",
    "supertrend_scale",
    "zigzag_scale",
    "rsi_scale",
    "crsi_scale",
    "macd_scale",
    "apo_scale",
    "cmo_scale",
    "cfo_scale",
    "elder_ray_scale",
    "wpr_scale",
    "ppo_scale",
    "pmo_scale",
    "ultimate_scale",
    "pgo_scale",
    "si_scale",
    "trix_scale",
    "tii_scale",
    "stochastic_scale",
    "stc_scale",
    "relative_vigor_scale",
    "coppock_scale",
    "roc_scale",
    "bal_power_scale",
    "disparity_scale",
    "qstick_scale",
    "cog_scale",
    "psych_scale",
    "tsi_scale",
    "derivative_scale",
    "cci_scale",
    "qqe_scale",
    "deli_scale",
    "gator_scale",
    "kdj_scale",
    "mama_scale",
    "quantile_scale",
    "median_scale",
    "approx_entropy_scale",
    "sample_entropy_scale",
    "skew_scale",
    "pcc_scale",
    "rsq_scale",
    "beta_scale",
    "perf_scale",
    "rsc_scale",
    "krcc_scale",
    "dcor_scale",
    "ad_scale",
    "ad_alt_scale",
    "special_k_scale",
    "kst_scale",
    "rank_scale",
    "srcc_scale",
    "hoeffd_scale",
    "mic_scale",
    "frama_scale",
    "cks_scale",
    "hurst_scale",
    "decay_scale_refuted",
    "fisher_scale_refuted",
    "rainbow_scale_refuted",
    "stable_argsort_blind"
   ],
   "note": "Exact arithmetic. rank, srcc, hoeffd: for every sort whose permutation does not depend on the unit (a comparison sort's does not; shown for stable_argsort). mic, frama: all values within the f64 range in both units, because the code seeds extremes with f64::MIN and f64::MAX; cks: the same for its stops. The three *_scale_refuted theorems are the exceptions named in the statement."
  },
  {
   "property": "C72",
   "status": "proved",
   "theorems": [
    "quantile_f64_int",
    "median_f64_int",
    "rank_f64_int",
    "srcc_f64_int",
    "hoeffd_f64_int",
    "quantile_typed",
    "median_typed",
    "rank_typed",
    "srcc_typed",
    "hoeffd_typed",
    "quantile_f32",
    "median_f32",
    "rank_f32",
    "srcc_f32",
    "hoeffd_f32",
    "rank_int_refuted"
   ],
   "note": "Typed.v models the five functions over an arbitrary element type with its own partial_cmp; the general theorems are *_typed. rank, srcc, hoeffd: the two sorts make the same choices on data that compares the same (same_sort), as a comparison sort of positions does."
  },
  {
   "property": "C73",
   "status": "proved",
   "theorems": [
    "sma_f64_near",
    "sma_f64_error",
    "wma_f64_error",
    "pwma_f64_error",
    "fwma_f64_error",
    "trima_f64_error",
    "variance_f64_error",
    "std_dev_f64_error"
   ],
   "note": "Binary64. The bounds, in units of 2^-53 * M: 5w for sma, 8w for wma, pwma and fwma, 6(w+1) for trima."
  },
  {
   "property": "C74",
   "status": "proved",
   "theorems": [
    "sma_f64_monotone",
    "wma_f64_monotone",
    "pwma_f64_monotone",
    "fwma_f64_monotone",
    "trima_f64_monotone",
    "wilder_f64_monotone",
    "ewma_f64_monotone",
    "hlc3_f64_monotone",
    "typical_f64_monotone"
   ],
   "note": "Binary64, including infinities and overflow; le64 x y says that y < x is false."
  },
  {
   "property": "C75",
   "status": "proved",
   "theorems": [
    "variance_shift",
    "sma_shift",
    "ewma_shift",
    "wilder_shift",
    "wma_shift",
    "pwma_shift",
    "fwma_shift",
    "dema_shift",
    "tema_shift",
    "hull_shift",
    "trima_shift",
    "zlma_shift",
    "lrf_shift",
    "ma_shift",
    "t3_shift",
    "hwma_shift",
    "ssf_shift",
    "kernel_shift",
    "alma_shift",
    "variance_any_shift",
    "std_dev_shift",
    "zscore_shift",
    "mad_shift",
    "kurtosis_shift",
    "skew_shift",
    "quantile_shift",
    "median_shift",
    "approx_entropy_shift",
    "sample_entropy_shift",
    "mse_shift",
    "rmse_shift",
    "mae_shift",
    "mda_shift",
    "mase_shift",
    "mass_shift",
    "gri_shift",
    "tr_shift",
    "atr_shift",
    "keltner_shift",
    "typical_shift",
    "vstd_dev_shift",
    "bbands_shift",
    "donchian_shift",
    "starc_shift",
    "cvi_shift",
    "relative_vol_shift",
    "inertia_shift",
    "chop_shift",
    "vhf_shift",
    "heikin_ashi_shift",
    "wcp_shift",
    "kvo_shift",
    "twiggs_shift",
    "ad_shift",
    "elder_force_shift",
    "cmf_shift",
    "tvi_shift",
    "ease_shift",
    "obv_shift",
    "bw_mfi_shift",
    "vwap_shift",
    "vwma_shift",
    "shinohara_shift",
    "adx_shift",
    "vortex_shift",
    "asi_shift",
    "rwi_shift",
    "psar_shift",
    "dpo_shift",
    "aroon_shift",
    "chandelier_shift",
    "alligator_shift",
    "ichimoku_shift",
    "supertrend_shift",
    "hurst_shift",
    "rsi_shift",
    "macd_shift",
    "apo_shift",
    "cmo_shift",
    "elder_ray_shift",
    "wpr_shift",
    "ultimate_shift",
    "pgo_shift",
    "si_shift",
    "tii_shift",
    "stochastic_shift",
    "stc_shift",
    "relative_vigor_shift",
    "bal_power_shift",
    "qstick_shift",
    "psych_shift",
    "tsi_shift",
    "derivative_shift",
    "cci_shift",
    "qqe_shift",
    "deli_shift",
    "gator_shift",
    "kdj_shift",
    "pcc_shift",
    "rsq_shift",
    "krcc_shift",
    "dcor_shift",
    "rank_shift",
    "srcc_shift",
    "hoeffd_shift",
    "mic_shift",
    "fisher_shift",
    "decay_shift",
    "kama_shift_refuted",
    "decay_shift_refuted",
    "atr_stop_shift_refuted",
    "cks_shift_refuted"
   ],
   "note": "Exact arithmetic. 107 functions; volumes, windows and factors stay as they are. vwap and vwma need finite volumes, kernel and alma a finite non-zero sigma, ssf a positive window, quantile a finite q, mic values within the range of f64."
  },
  {
   "property": "C76",
   "status": "proved",
   "theorems": [
    "rsi_mirror",
    "wpr_mirror",
    "tii_mirror",
    "relative_vol_mirror",
    "psych_mirror",
    "stochastic_mirror",
    "ultimate_mirror",
    "heikin_ashi_mirror",
    "twiggs_mirror",
    "ease_mirror",
    "sma_mirror",
    "ewma_mirror",
    "dema_mirror",
    "tema_mirror",
    "wma_mirror",
    "pwma_mirror",
    "fwma_mirror",
    "wilder_mirror",
    "hull_mirror",
    "trima_mirror",
    "zlma_mirror",
    "vidya_mirror",
    "vma_mirror",
    "lrf_mirror",
    "ma_mirror",
    "kernel_mirror",
    "alma_mirror",
    "kama_mirror",
    "hwma_mirror",
    "ssf_mirror",
    "t3_mirror",
    "zscore_mirror",
    "skew_mirror",
    "macd_mirror",
    "apo_mirror",
    "cmo_mirror",
    "tsi_mirror",
    "dpo_mirror",
    "variance_mirror",
    "std_dev_mirror",
    "mad_mirror",
    "kurtosis_mirror",
    "approx_entropy_mirror",
    "sample_entropy_mirror",
    "vstd_dev_mirror",
    "mse_mirror",
    "rmse_mirror",
    "mae_mirror",
    "mape_mirror",
    "smape_mirror",
    "mase_mirror",
    "mass_mirror",
    "gri_mirror",
    "tr_mirror",
    "atr_mirror",
    "cvi_mirror",
    "chop_mirror",
    "vhf_mirror",
    "typical_mirror",
    "pgo_mirror",
    "relative_vigor_mirror",
    "bal_power_mirror",
    "cci_mirror",
    "deli_mirror",
    "si_mirror",
    "asi_mirror",
    "wcp_mirror",
    "qstick_mirror",
    "starc_mirror",
    "elder_ray_mirror",
    "chandelier_mirror",
    "fbands_mirror",
    "keltner_mirror",
    "bbands_mirror",
    "donchian_mirror",
    "ichimoku_mirror",
    "alligator_mirror",
    "gator_mirror",
    "adx_mirror",
    "vortex_mirror",
    "rwi_mirror",
    "aroon_mirror",
    "frama_mirror",
    "rainbow_mirror",
    "ad_mirror",
    "cmf_mirror",
    "bw_mfi_mirror",
    "vwap_mirror",
    "elder_force_mirror",
    "vwma_mirror",
    "pcc_mirror",
    "rsq_mirror",
    "dcor_mirror",
    "obv_mirror_refuted",
    "tvi_mirror_refuted",
    "supertrend_mirror_refuted",
    "psar_mirror_refuted",
    "atr_stop_mirror_refuted",
    "decay_mirror_refuted",
    "ad_alt_mirror_refuted",
    "twiggs_f64_mirror_refuted",
    "ease_f64_mirror_refuted"
   ],
   "note": "For every arithmetic in which negation commutes with the operations up to the sign of a zero (class FSym); instances for binary64 with any libm and for exact arithmetic. The complements, heikin_ashi, twiggs and ease in exact arithmetic only; twiggs and ease are refuted for binary64."
  },
  {
   "property": "C77",
   "status": "proved",
   "theorems": [
    "skew_collect",
    "quantile_collect",
    "median_collect",
    "approx_entropy_collect",
    "sample_entropy_collect",
    "hurst_collect",
    "srcc_collect",
    "krcc_collect",
    "hoeffd_collect",
    "obv_collect",
    "vwap_collect",
    "mama_collect",
    "rainbow_collect",
    "emae_collect",
    "mase_collect",
    "skew_take",
    "quantile_take",
    "median_take",
    "approx_entropy_take",
    "sample_entropy_take",
    "hurst_take",
    "srcc_take",
    "krcc_take",
    "hoeffd_take",
    "obv_take",
    "vwap_take",
    "mama_take",
    "rainbow_take",
    "emae_take",
    "mase_take",
    "skew_pulls",
    "krcc_pulls",
    "hurst_pulls",
    "obv_pulls",
    "vwap_pulls",
    "rainbow_pulls",
    "emae_pulls",
    "mase_pulls",
    "srcc_pulls",
    "hoeffd_pulls",
    "approx_entropy_take_empty",
    "sample_entropy_take_empty",
    "vwap_take_resets",
    "pulled_before_panic",
    "pulled_prefix"
   ],
   "note": "Every arithmetic. Lazy.v models these iterators as streams of answers to next(); *_collect ties them to the models the other claims are about. srcc and hoeffd: comparable values, any sort."
  },
  {
   "property": "C78",
   "status": "proved",
   "theorems": [
    "sma_super",
    "ewma_super",
    "wma_super",
    "pwma_super",
    "fwma_super",
    "trima_super",
    "wilder_super",
    "dema_super",
    "tema_super",
    "hull_super",
    "zlma_super",
    "lrf_super",
    "t3_super",
    "hwma_super",
    "ssf_super",
    "kernel_super",
    "alma_super",
    "ma_super",
    "macd_super",
    "apo_super",
    "dpo_super",
    "qstick_super",
    "elder_ray_super",
    "alligator_super",
    "obv_super",
    "tvi_super",
    "kama_super_refuted",
    "vma_super_refuted"
   ],
   "note": "Exact arithmetic (extended reals): rounding breaks it in binary64. Any options; non-finite factors of t3, hwma included."
  },
  {
   "property": "C79",
   "status": "proved",
   "theorems": [
    "rmse_agrees",
    "std_dev_agrees",
    "cv_agrees",
    "zscore_agrees",
    "cci_agrees",
    "kdj_agrees",
    "apo_agrees",
    "atr_agrees",
    "asi_agrees",
    "donchian_agrees",
    "lrf_agrees",
    "quantile_agrees",
    "wpr_agrees",
    "ppo_agrees",
    "vwma_agrees",
    "t3_agrees",
    "trix_agrees",
    "pvi_agrees",
    "tvi_agrees",
    "int_agrees",
    "f32_agrees"
   ],
   "note": "Every arithmetic for those named first (Agree.v), exact arithmetic for the others (AgreeReal.v), on inputs for which both are numbers: non-zero averages for ppo and trix, non-zero closes and volumes that change for pvi and nvi."
  },
  {
   "property": "C80",
   "status": "proved",
   "theorems": [
    "sma_one",
    "wma_one",
    "pwma_one",
    "trima_one",
    "ewma_one",
    "dema_one",
    "tema_one",
    "t3_one",
    "zlma_one",
    "wilder_one",
    "hull_one",
    "lrf_one_refuted",
    "fwma_one_panics"
   ],
   "note": "Exact arithmetic."
  },
  {
   "property": "C81",
   "status": "proved",
   "theorems": [
    "sma_f64_accurate",
    "vwma_f64_accurate",
    "wcp_f64_accurate",
    "typical_f64_accurate",
    "bw_mfi_f64_accurate",
    "tr_f64_accurate",
    "wpr_f64_accurate",
    "vhf_f64_accurate",
    "cog_f64_accurate",
    "vwap_f64_accurate",
    "stochastic_f64_accurate",
    "kdj_f64_accurate",
    "ultimate_f64_accurate",
    "vortex_f64_accurate",
    "ulcer_f64_accurate",
    "mse_f64_accurate",
    "rmse_f64_accurate",
    "mae_f64_accurate",
    "mape_f64_accurate",
    "smape_f64_accurate",
    "rsc_f64_accurate",
    "emae_f64_accurate"
   ],
   "note": "Binary64 against exact arithmetic on the same inputs; K per function in the statement."
  },
  {
   "property": "C82",
   "status": "proved",
   "theorems": [
    "mfi_f64_range",
    "mda_f64_range",
    "smape_f64_range",
    "tii_f64_range",
    "relative_vol_f64_range",
    "tsi_f64_range",
    "crsi_f64_range",
    "ewma_f64_dominated",
    "cmf_f64_above_1",
    "twiggs_f64_above_1",
    "tsi_f64_above_100",
    "tii_f64_above_100",
    "pcc_f64_infinite",
    "pcc_f64_lower",
    "cmo_f64_remembers",
    "smape_f64_above_200",
    "srcc_f64_above_1"
   ],
   "note": "Binary64. The refutations are concrete inputs, for every libm."
  },
  {
   "property": "C83",
   "status": "proved",
   "theorems": [
    "krcc_f64_tau",
    "f64_krcc_counts"
   ],
   "note": "Binary64. Ties of the second series that are not ties of the first are excluded: there the code leaves [-1, 1] (krcc_range_refuted)."
  },
  {
   "property": "C84",
   "status": "proved",
   "theorems": [
    "sma_f64_unsigned",
    "trima_f64_unsigned",
    "ewma_f64_unsigned",
    "wilder_f64_unsigned",
    "wma_f64_unsigned",
    "pwma_f64_unsigned",
    "fwma_f64_unsigned",
    "kernel_f64_unsigned",
    "alma_f64_unsigned",
    "vwma_f64_unsigned",
    "vwap_f64_unsigned",
    "mse_f64_unsigned",
    "rmse_f64_unsigned",
    "mae_f64_unsigned",
    "mape_f64_unsigned",
    "smape_f64_unsigned",
    "mase_f64_unsigned",
    "emae_f64_unsigned",
    "variance_f64_unsigned",
    "std_dev_f64_unsigned",
    "mad_f64_unsigned",
    "cv_f64_unsigned",
    "rsq_f64_unsigned",
    "rsc_f64_unsigned",
    "perf_f64_unsigned",
    "mass_f64_unsigned",
    "tr_f64_unsigned",
    "typical_f64_unsigned",
    "wcp_f64_unsigned",
    "bw_mfi_f64_unsigned",
    "pvi_f64_unsigned",
    "nvi_f64_unsigned",
    "hv_f64_unsigned",
    "cc_hv_f64_unsigned",
    "ulcer_f64_unsigned",
    "gkyz_hv_f64_nonneg",
    "dema_f64_negative",
    "tema_f64_negative",
    "hull_f64_negative",
    "zlma_f64_negative",
    "lrf_f64_negative",
    "t3_f64_negative",
    "hwma_f64_negative",
    "mdma_f64_negative"
   ],
   "note": "Binary64, signed zeros included. The negative averages are concrete inputs, for every libm."
  },
  {
   "property": "C85",
   "status": "proved",
   "theorems": [
    "obv_super",
    "tvi_super",
    "ad_parts",
    "vpt_parts",
    "elder_force_parts",
    "kvo_parts",
    "vwma_mix",
    "vwap_mix",
    "cmf_mix",
    "twiggs_mix",
    "mfi_mix",
    "vwma_parts_refuted"
   ],
   "note": "Exact arithmetic. The mixing theorems are for data that are numbers."
  },
  {
   "property": "C86",
   "status": "proved",
   "theorems": [
    "ewma_gap",
    "wilder_gap",
    "dema_gap",
    "tema_gap",
    "t3_gap",
    "zlma_gap",
    "hwma_gap",
    "mdma_gap",
    "ssf_gap",
    "kama_gap",
    "frama_gap",
    "vma_gap",
    "vidya_gap",
    "macd_gap",
    "ppo_gap",
    "apo_gap",
    "disparity_gap",
    "trix_gap",
    "tsi_gap",
    "pmo_gap",
    "qstick_gap",
    "bal_power_gap",
    "elder_ray_gap",
    "keltner_gap",
    "stc_gap",
    "atr_gap",
    "elder_force_gap",
    "vpt_gap",
    "tvi_gap",
    "ad_gap",
    "ad_alt_gap",
    "kvo_gap",
    "obv_gap",
    "vwap_gap",
    "mse_gap",
    "rmse_gap",
    "mae_gap",
    "mape_gap",
    "mase_gap",
    "emae_gap",
    "tr_holed",
    "pvi_holed",
    "nvi_holed",
    "psych_holed",
    "rsi_holed",
    "aroon_holed",
    "donchian_f64_holed",
    "fbands_f64_holed",
    "smape_f64_holed"
   ],
   "note": "Every arithmetic in which NaN behaves as IEEE-754 says (binary64 and the exact one); the channel, pivot and smape theorems are for binary64."
  },
  {
   "property": "C87",
   "status": "proved",
   "theorems": [
    "ewma_forgets",
    "wilder_forgets",
    "dema_forgets",
    "tema_forgets",
    "zlma_forgets",
    "macd_forgets",
    "atr_forgets",
    "qstick_forgets",
    "bal_power_forgets",
    "elder_ray_forgets",
    "elder_force_forgets",
    "kvo_forgets",
    "kama_forgets",
    "heikin_ashi_forgets",
    "ewma_f64_forgets",
    "wilder_f64_forgets",
    "t3_forgets",
    "keltner_forgets",
    "chandelier_forgets",
    "ppo_forgets",
    "trix_forgets",
    "rsi_forgets",
    "pgo_forgets",
    "tsi_forgets",
    "adx_forgets",
    "relative_vol_forgets",
    "obv_forgets_never",
    "vpt_forgets_never",
    "ad_forgets_never",
    "pvi_forgets_never",
    "nvi_forgets_never",
    "supertrend_forgets_never",
    "psar_forgets_never",
    "atr_stop_forgets_never",
    "cmo_f64_remembers",
    "ewma_remembers",
    "wilder_remembers"
   ],
   "note": "Exact arithmetic; ewma and wilder also in binary64. kvo in its default mode, the shorter window first; ad in its default mode."
  },
  {
   "property": "C88",
   "status": "proved",
   "theorems": [
    "sma_stable",
    "wma_stable",
    "pwma_stable",
    "fwma_stable",
    "trima_stable",
    "hull_stable",
    "ewma_stable",
    "wilder_stable",
    "dema_stable",
    "tema_stable",
    "t3_stable",
    "zlma_stable",
    "vwma_stable",
    "macd_stable",
    "qstick_stable",
    "atr_stable",
    "keltner_stable",
    "donchian_stable",
    "std_dev_stable",
    "bbands_stable",
    "mad_stable",
    "median_stable",
    "quantile_stable",
    "typical_stable",
    "elder_ray_stable",
    "dpo_stable",
    "chandelier_stable",
    "starc_stable",
    "rsi_jumps",
    "cmo_jumps",
    "psych_jumps",
    "obv_jumps",
    "wpr_jumps",
    "aroon_jumps"
   ],
   "note": "Exact arithmetic. The default average for bbands and dpo."
  },
  {
   "property": "C89",
   "status": "proved",
   "theorems": [
    "sma_line",
    "wma_line",
    "pwma_line",
    "trima_line",
    "hull_line",
    "lrf_line",
    "ewma_line",
    "wilder_line",
    "dema_line",
    "tema_line",
    "t3_line",
    "zlma_line",
    "macd_line",
    "dpo_line",
    "variance_line",
    "std_dev_line",
    "bbands_line",
    "zscore_line",
    "donchian_line"
   ],
   "note": "Exact arithmetic. The default average for bbands and dpo."
  },
  {
   "property": "C90",
   "status": "proved",
   "theorems": [
    "ewma_release_same",
    "alma_release_same",
    "kurtosis_release_same",
    "skew_release_same",
    "pwma_release_same",
    "approx_entropy_release_same",
    "sample_entropy_release_same",
    "hoeffd_release_same",
    "sample_entropy_release_real",
    "approx_entropy_release_real",
    "hoeffd_release_real",
    "hoeffd_release_small",
    "pwma_release_total",
    "sample_entropy_release_negative",
    "approx_entropy_release_infinite",
    "pwma_release_outside",
    "ewma_release_zero",
    "alma_release_zero",
    "kurtosis_release_small",
    "skew_release_small",
    "kurtosis_release_real",
    "kurtosis_release_wrong"
   ],
   "note": "Release.v and ReleaseB.v model the eight functions with wrapping integers. Values in exact arithmetic; agreement for every arithmetic. The documented values are refuted for the windows named."
  },
  {
   "property": "C91",
   "status": "proved",
   "theorems": [
    "sma_order_free",
    "variance_order_free",
    "std_dev_order_free",
    "mad_order_free",
    "cv_order_free",
    "skew_order_free",
    "kurtosis_order_free",
    "median_order_free",
    "quantile_order_free",
    "pcc_order_free",
    "srcc_order_free",
    "dcor_order_free",
    "hoeffd_order_free",
    "krcc_order_free",
    "mic_order_free",
    "mse_order_free",
    "rmse_order_free",
    "mae_order_free",
    "smape_order_free",
    "mape_order_free",
    "vwma_order_free",
    "krcc_order_refuted",
    "sma_f64_order_refuted"
   ],
   "note": "Values in exact arithmetic. krcc under the hypothesis that ties in the second series are ties in the first; refuted without it. The claim is refuted in binary64 for sma."
  },
  {
   "property": "C92",
   "status": "proved",
   "theorems": [
    "obv_relabel",
    "psych_relabel",
    "pvi_relabel",
    "nvi_relabel",
    "mda_relabel",
    "aroon_relabel",
    "donchian_relabel",
    "median_relabel",
    "srcc_relabel",
    "hoeffd_relabel",
    "krcc_relabel",
    "rank_relabel",
    "aroon_any_relabel",
    "median_relabel_refuted"
   ],
   "note": "Exact arithmetic; aroon and rank in every arithmetic. For median with an even window a concrete series shows the failure."
  },
  {
   "property": "C93",
   "status": "proved",
   "theorems": [
    "mse_resume",
    "mae_resume",
    "smape_resume",
    "mape_resume",
    "rmse_resume",
    "vwap_resume",
    "pooled_dilutes"
   ],
   "note": "Exact arithmetic. mape where no observed value is 0; vwap without resets and with positive volumes."
  },
  {
   "property": "C94",
   "status": "proved",
   "theorems": [
    "roc_limits",
    "ppo_limits",
    "disparity_limits",
    "coppock_limits",
    "pmo_limits",
    "cvi_limits",
    "trix_limits",
    "kst_limits",
    "special_k_limits",
    "macd_limits",
    "dpo_limits",
    "qstick_limits",
    "elder_ray_limits",
    "deli_limits",
    "dema_limits",
    "tema_limits",
    "zlma_limits",
    "hull_limits",
    "heikin_ashi_limits",
    "std_dev_limits",
    "mad_limits",
    "bbands_limits",
    "atr_limits",
    "keltner_limits",
    "chandelier_limits",
    "cks_limits",
    "donchian_limits",
    "alligator_limits",
    "gator_limits",
    "ichimoku_limits",
    "derivative_limits",
    "qqe_limits",
    "ulcer_limits",
    "supertrend_limits"
   ],
   "note": "Exact arithmetic. Positive prices for the percentages; kst with its default windows, dpo with its default average."
  },
  {
   "property": "C95",
   "status": "proved",
   "theorems": [
    "cmo_f64_trend",
    "psych_f64_trend",
    "mfi_f64_trend",
    "rsi_f64_trend",
    "tsi_f64_trend",
    "relative_vol_f64_trend",
    "aroon_f64_trend",
    "adx_f64_trend",
    "obv_f64_trend",
    "ulcer_f64_trend",
    "roc_f64_trend",
    "elder_force_f64_trend",
    "vpt_f64_trend",
    "pmo_f64_trend",
    "coppock_f64_trend",
    "kst_f64_trend",
    "special_k_f64_trend",
    "tvi_f64_trend",
    "pvi_f64_trend",
    "nvi_f64_trend",
    "rsi_trend",
    "cmo_trend",
    "psych_trend",
    "tsi_trend",
    "aroon_trend",
    "mfi_trend",
    "ulcer_trend",
    "obv_trend",
    "adx_trend",
    "macd_trend",
    "ppo_trend",
    "roc_trend",
    "pmo_trend",
    "elder_force_trend",
    "kst_trend",
    "special_k_trend",
    "relative_vol_trend",
    "ewma_follow",
    "wilder_follow",
    "atr_stop_follow",
    "vpt_follow",
    "pvi_follow",
    "nvi_follow",
    "sma_follow",
    "psar_trend_refuted"
   ],
   "note": "Exact arithmetic; the _f64_trend theorems are about binary64. atr_stop for prices that are not negative, rates of change for positive ones; kst with its default windows. For psar a concrete market shows the failure."
  }
 ]
}