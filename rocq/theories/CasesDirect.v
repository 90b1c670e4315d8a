(** * The hypotheses of the theorems can be met: the direct cases

    For each theorem [T] with hypotheses that a literal argument meets at once,
    [T_case] is [T] applied to twenty or so quoted bars and ordinary window
    lengths, every hypothesis discharged: its type is what [T] says there. [ramp n]
    is the series of the [n] numbers 1, 2, ... of any number type, the other
    series are the real quotes of [Case]. Theorems whose case needs an argument
    are in [Cases], those about binary64 in [CasesF64]. *)
From Coq Require Import Reals Lra Lia.
From Verif Require Import Spec BaseFacts XReal RSpec XRFacts Convex Bars DistReal CorrReal RankCorr Dcor Mic VolumeReal VolatReal MomReal TrendReal Adaptive HurstReal Mama Entropy Ranges RegReal Extra Case.
From Coq Require Import List Permutation Sorting.Sorted.
Import ListNotations.
From Verif Require Import NaN Rank OrderStat Count DistShape MomShape TrendShape SmoothShape VolShape Warm Select Dispatch Poison Flat Local SmoothReal SmoothReal2 Prings Panics.
From Verif Require Import Correlation Volume Volatility Trend Momentum Distribution Smooth.
Local Unset Implicit Arguments.
Local Open Scope R_scope.
From Verif Require Import B64 F64 Refute F64Err Cases.

(** ** [SmoothShape] *)
Example mama_length_case {F : Type} {O : Num.FOps F} := @SmoothShape.mama_length F O (ramp 6) None None _ ltac:(met).
Example std_dev_raw_causal_case {F : Type} {O : Num.FOps F} := @SmoothShape.std_dev_raw_causal F O 3 (ramp 20) (ramp 30) ltac:(met) _ ltac:(met).
Example ewma_causal_case {F : Type} {O : Num.FOps F} := @SmoothShape.ewma_causal F O 3 (ramp 20) (ramp 30) ltac:(met) _ ltac:(met).
Example sma_causal_case {F : Type} {O : Num.FOps F} := @SmoothShape.sma_causal F O 3 (ramp 20) (ramp 30) ltac:(met) _ ltac:(met).
Example dema_causal_case {F : Type} {O : Num.FOps F} := @SmoothShape.dema_causal F O 3 (ramp 20) (ramp 30) ltac:(met) _ ltac:(met).
Example tema_causal_case {F : Type} {O : Num.FOps F} := @SmoothShape.tema_causal F O 3 (ramp 20) (ramp 30) ltac:(met) _ ltac:(met).
Example wma_causal_case {F : Type} {O : Num.FOps F} := @SmoothShape.wma_causal F O 3 (ramp 20) (ramp 30) ltac:(met) _ ltac:(met).
Example wilder_causal_case {F : Type} {O : Num.FOps F} := @SmoothShape.wilder_causal F O 3 (ramp 20) (ramp 30) ltac:(met) _ ltac:(met).
Example vidya_causal_case {F : Type} {O : Num.FOps F} := @SmoothShape.vidya_causal F O 3 (ramp 20) (ramp 30) ltac:(met) _ ltac:(met).
Example vma_causal_case {F : Type} {O : Num.FOps F} := @SmoothShape.vma_causal F O 3 (ramp 20) (ramp 30) ltac:(met) _ ltac:(met).
Example lrf_causal_case {F : Type} {O : Num.FOps F} := @SmoothShape.lrf_causal F O 3 (ramp 20) (ramp 30) ltac:(met) _ ltac:(met).
Example trima_causal_case {F : Type} {O : Num.FOps F} := @SmoothShape.trima_causal F O 3 (ramp 20) (ramp 30) ltac:(met) _ ltac:(met).
Example zlma_causal_case {F : Type} {O : Num.FOps F} := @SmoothShape.zlma_causal F O 3 (ramp 20) (ramp 30) ltac:(met) _ ltac:(met).
Example kama_causal_case {F : Type} {O : Num.FOps F} := @SmoothShape.kama_causal F O 3 None None (ramp 20) (ramp 30) ltac:(met) _ ltac:(met).
Example mdma_causal_case {F : Type} {O : Num.FOps F} := @SmoothShape.mdma_causal F O 3 (ramp 20) (ramp 30) ltac:(met) _ ltac:(met).
Example hwma_causal_case {F : Type} {O : Num.FOps F} := @SmoothShape.hwma_causal F O None None None (ramp 20) (ramp 30) ltac:(met) _ ltac:(met).
Example fwma_causal_case {F : Type} {O : Num.FOps F} := @SmoothShape.fwma_causal F O 3 (ramp 20) (ramp 30) ltac:(met) _ ltac:(met).
Example ssf_causal_case {F : Type} {O : Num.FOps F} := @SmoothShape.ssf_causal F O 3 None (ramp 20) (ramp 30) ltac:(met) _ ltac:(met).

(** ** [DistShape] *)
Example variance_causal_case {F : Type} {O : Num.FOps F} := @DistShape.variance_causal F O 3 (ramp 20) (ramp 30) ltac:(met) _ ltac:(met).
Example std_dev_causal_case {F : Type} {O : Num.FOps F} := @DistShape.std_dev_causal F O 3 (ramp 20) (ramp 30) ltac:(met) _ ltac:(met).
Example zscore_causal_case {F : Type} {O : Num.FOps F} := @DistShape.zscore_causal F O 3 (ramp 20) (ramp 30) ltac:(met) _ ltac:(met).
Example mad_causal_case {F : Type} {O : Num.FOps F} := @DistShape.mad_causal F O 3 (ramp 20) (ramp 30) ltac:(met) _ ltac:(met).
Example cv_causal_case {F : Type} {O : Num.FOps F} := @DistShape.cv_causal F O 3 (ramp 20) (ramp 30) ltac:(met) _ ltac:(met).
Example kurtosis_causal_case {F : Type} {O : Num.FOps F} := @DistShape.kurtosis_causal F O 3 (ramp 20) (ramp 30) ltac:(met) _ ltac:(met).
Example skew_causal_case {F : Type} {O : Num.FOps F} := @DistShape.skew_causal F O 3 (ramp 20) (ramp 30) ltac:(met) ltac:(met) ltac:(met) _ ltac:(met).
Example regression_causal_case {F : Type} {O : Num.FOps F} := @DistShape.regression_causal F O (ramp 20) (ramp 30) (ramp 20) (ramp 30) ltac:(met) ltac:(met).
Example mda_causal_case {F : Type} {O : Num.FOps F} := @DistShape.mda_causal F O (ramp 20) (ramp 30) (ramp 20) (ramp 30) ltac:(met) ltac:(met) _ ltac:(met).
Example emae_causal_case {F : Type} {O : Num.FOps F} := @DistShape.emae_causal F O (ramp 20) (ramp 30) (ramp 20) (ramp 30) _ _ ltac:(met) ltac:(met) ltac:(met) ltac:(met).
Example mase_causal_case {F : Type} {O : Num.FOps F} := @DistShape.mase_causal F O (ramp 20) (ramp 30) (ramp 20) (ramp 30) _ _ ltac:(met) ltac:(met) ltac:(met) ltac:(met).
Example pcc_causal_case {F : Type} {O : Num.FOps F} := @DistShape.pcc_causal F O 3 (ramp 20) (ramp 30) (ramp 20) (ramp 30) ltac:(met) ltac:(met) _ ltac:(met).
Example rsq_causal_case {F : Type} {O : Num.FOps F} := @DistShape.rsq_causal F O 3 (ramp 20) (ramp 30) (ramp 20) (ramp 30) ltac:(met) ltac:(met) _ ltac:(met).
Example beta_causal_case {F : Type} {O : Num.FOps F} := @DistShape.beta_causal F O 3 (ramp 20) (ramp 30) (ramp 20) (ramp 30) ltac:(met) ltac:(met) _ ltac:(met).
Example perf_causal_case {F : Type} {O : Num.FOps F} := @DistShape.perf_causal F O 3 (ramp 20) (ramp 30) (ramp 20) (ramp 30) ltac:(met) ltac:(met) _ ltac:(met).
Example rsc_causal_case {F : Type} {O : Num.FOps F} := @DistShape.rsc_causal F O (ramp 20) (ramp 30) (ramp 20) (ramp 30) ltac:(met) ltac:(met).
Example dcor_causal_case {F : Type} {O : Num.FOps F} := @DistShape.dcor_causal F O 3 (ramp 20) (ramp 30) (ramp 20) (ramp 30) ltac:(met) ltac:(met) _ ltac:(met).
Example mic_causal_case {F : Type} {O : Num.FOps F} := @DistShape.mic_causal F O (fun l => l) 3 (ramp 20) (ramp 30) (ramp 20) (ramp 30) ltac:(met) ltac:(met) _ ltac:(met).
Example krcc_causal_case {F : Type} {O : Num.FOps F} := @DistShape.krcc_causal F O 3 (ramp 20) (ramp 30) (ramp 20) (ramp 30) ltac:(met) ltac:(met) ltac:(met) _ ltac:(met).
Example approx_entropy_small_case {F : Type} {O : Num.FOps F} := @DistShape.approx_entropy_small F O (ramp 20) 3 None None ltac:(met) ltac:(met) ltac:(met).
Example sample_entropy_small_case {F : Type} {O : Num.FOps F} := @DistShape.sample_entropy_small F O (ramp 20) 3 None None ltac:(met) ltac:(met) ltac:(met).

(** ** [Pascal] *)
Example pwma_causal_case {F : Type} {O : Num.FOps F} := @Pascal.pwma_causal F O 3 (ramp 20) (ramp 30) ltac:(met) _ ltac:(met).

(** ** [VolShape] *)
Example vforce_causal_case {F : Type} {O : Num.FOps F} := @VolShape.vforce_causal F O (ramp 20) (ramp 30) (ramp 20) (ramp 30) (ramp 20) (ramp 30) (ramp 20) (ramp 30) ltac:(met) ltac:(met) ltac:(met) ltac:(met) _ ltac:(met).
Example vforce_alt_causal_case {F : Type} {O : Num.FOps F} := @VolShape.vforce_alt_causal F O (ramp 20) (ramp 30) (ramp 20) (ramp 30) (ramp 20) (ramp 30) (ramp 20) (ramp 30) ltac:(met) ltac:(met) ltac:(met) ltac:(met) _ ltac:(met).
Example kvo_causal_case {F : Type} {O : Num.FOps F} := @VolShape.kvo_causal F O 3 3 None (ramp 20) (ramp 30) (ramp 20) (ramp 30) (ramp 20) (ramp 30) (ramp 20) (ramp 30) ltac:(met) ltac:(met) ltac:(met) ltac:(met) _ ltac:(met).
Example wilder_sum_causal_case {F : Type} {O : Num.FOps F} := @VolShape.wilder_sum_causal F O 3 (ramp 20) (ramp 30) ltac:(met) _ ltac:(met).
Example twiggs_causal_case {F : Type} {O : Num.FOps F} := @VolShape.twiggs_causal F O 3 (ramp 20) (ramp 30) (ramp 20) (ramp 30) (ramp 20) (ramp 30) (ramp 20) (ramp 30) ltac:(met) ltac:(met) ltac:(met) ltac:(met) _ ltac:(met).
Example ad_causal_case {F : Type} {O : Num.FOps F} := @VolShape.ad_causal F O None (ramp 20) (ramp 30) (ramp 20) (ramp 30) (ramp 20) (ramp 30) (ramp 20) (ramp 30) ltac:(met) ltac:(met) ltac:(met) ltac:(met) _ ltac:(met).
Example elder_force_causal_case {F : Type} {O : Num.FOps F} := @VolShape.elder_force_causal F O 3 (ramp 20) (ramp 30) (ramp 20) (ramp 30) ltac:(met) ltac:(met) _ ltac:(met).
Example mfi_causal_case {F : Type} {O : Num.FOps F} := @VolShape.mfi_causal F O 3 (ramp 20) (ramp 30) (ramp 20) (ramp 30) (ramp 20) (ramp 30) (ramp 20) (ramp 30) ltac:(met) ltac:(met) ltac:(met) ltac:(met) _ ltac:(met).
Example cmf_causal_case {F : Type} {O : Num.FOps F} := @VolShape.cmf_causal F O 3 (ramp 20) (ramp 30) (ramp 20) (ramp 30) (ramp 20) (ramp 30) (ramp 20) (ramp 30) ltac:(met) ltac:(met) ltac:(met) ltac:(met) _ ltac:(met).
Example ease_causal_case {F : Type} {O : Num.FOps F} := @VolShape.ease_causal F O 3 (ramp 20) (ramp 30) (ramp 20) (ramp 30) (ramp 20) (ramp 30) _ _ ltac:(met) ltac:(met) ltac:(met) ltac:(met) ltac:(met).
Example obv_causal_case {F : Type} {O : Num.FOps F} := @VolShape.obv_causal F O (ramp 20) (ramp 30) (ramp 20) (ramp 30) _ _ ltac:(met) ltac:(met) ltac:(met) ltac:(met).
Example bw_mfi_causal_case {F : Type} {O : Num.FOps F} := @VolShape.bw_mfi_causal F O (ramp 20) (ramp 30) (ramp 20) (ramp 30) (ramp 20) (ramp 30) ltac:(met) ltac:(met) ltac:(met).
Example pvi_causal_case {F : Type} {O : Num.FOps F} := @VolShape.pvi_causal F O (ramp 20) (ramp 30) (ramp 20) (ramp 30) ltac:(met) ltac:(met).
Example nvi_causal_case {F : Type} {O : Num.FOps F} := @VolShape.nvi_causal F O (ramp 20) (ramp 30) (ramp 20) (ramp 30) ltac:(met) ltac:(met).
Example vwma_causal_case {F : Type} {O : Num.FOps F} := @VolShape.vwma_causal F O 3 (ramp 20) (ramp 30) (ramp 20) (ramp 30) ltac:(met) ltac:(met) _ ltac:(met).
Example vpt_causal_case {F : Type} {O : Num.FOps F} := @VolShape.vpt_causal F O (ramp 20) (ramp 30) (ramp 20) (ramp 30) ltac:(met) ltac:(met) _ ltac:(met).
Example mass_causal_case {F : Type} {O : Num.FOps F} := @VolShape.mass_causal F O 3 3 (ramp 20) (ramp 30) (ramp 20) (ramp 30) ltac:(met) ltac:(met) _ ltac:(met).
Example gri_causal_case {F : Type} {O : Num.FOps F} := @VolShape.gri_causal F O 3 (ramp 20) (ramp 30) (ramp 20) (ramp 30) ltac:(met) ltac:(met) _ ltac:(met).
Example true_range_causal_case {F : Type} {O : Num.FOps F} := @VolShape.true_range_causal F O (ramp 20) (ramp 30) (ramp 20) (ramp 30) (ramp 20) (ramp 30) ltac:(met) ltac:(met) ltac:(met) _ ltac:(met).
Example tr_causal_case {F : Type} {O : Num.FOps F} := @VolShape.tr_causal F O (ramp 20) (ramp 30) (ramp 20) (ramp 30) (ramp 20) (ramp 30) ltac:(met) ltac:(met) ltac:(met) _ ltac:(met).
Example atr_causal_case {F : Type} {O : Num.FOps F} := @VolShape.atr_causal F O 3 (ramp 20) (ramp 30) (ramp 20) (ramp 30) (ramp 20) (ramp 30) ltac:(met) ltac:(met) ltac:(met) _ ltac:(met).
Example keltner_causal_case {F : Type} {O : Num.FOps F} := @VolShape.keltner_causal F O 3 (ramp 20) (ramp 30) (ramp 20) (ramp 30) (ramp 20) (ramp 30) ltac:(met) ltac:(met) ltac:(met) _ ltac:(met).
Example typical_causal_case {F : Type} {O : Num.FOps F} := @VolShape.typical_causal F O 3 (ramp 20) (ramp 30) (ramp 20) (ramp 30) (ramp 20) (ramp 30) ltac:(met) ltac:(met) ltac:(met) _ ltac:(met).
Example vstd_dev_causal_case {F : Type} {O : Num.FOps F} := @VolShape.vstd_dev_causal F O 3 None (ramp 20) (ramp 30) ltac:(met) _ ltac:(met).
Example bbands_causal_case {F : Type} {O : Num.FOps F} := @VolShape.bbands_causal F O 3 None None (ramp 20) (ramp 30) ltac:(met) _ ltac:(met).
Example donchian_causal_case {F : Type} {O : Num.FOps F} := @VolShape.donchian_causal F O 3 (ramp 20) (ramp 30) (ramp 20) (ramp 30) ltac:(met) ltac:(met) _ ltac:(met).
Example fbands_causal_case {F : Type} {O : Num.FOps F} := @VolShape.fbands_causal F O (ramp 20) (ramp 30) (ramp 20) (ramp 30) ltac:(met) ltac:(met).
Example hv_causal_case {F : Type} {O : Num.FOps F} := @VolShape.hv_causal F O 3 None (ramp 20) (ramp 30) ltac:(met) _ ltac:(met).
Example starc_causal_case {F : Type} {O : Num.FOps F} := @VolShape.starc_causal F O 3 3 None (ramp 20) (ramp 30) (ramp 20) (ramp 30) (ramp 20) (ramp 30) ltac:(met) ltac:(met) ltac:(met) _ ltac:(met).
Example cvi_causal_case {F : Type} {O : Num.FOps F} := @VolShape.cvi_causal F O 3 3 (ramp 20) (ramp 30) (ramp 20) (ramp 30) ltac:(met) ltac:(met) _ ltac:(met).
Example rel_vol_pairs_causal_case {F : Type} {O : Num.FOps F} := @VolShape.rel_vol_pairs_causal F O 3 (ramp 20) (ramp 30) ltac:(met) _ ltac:(met).
Example relative_vol_causal_case {F : Type} {O : Num.FOps F} := @VolShape.relative_vol_causal F O 3 3 (ramp 20) (ramp 30) ltac:(met) _ ltac:(met).
Example inertia_causal_case {F : Type} {O : Num.FOps F} := @VolShape.inertia_causal F O 3 3 (ramp 20) (ramp 30) ltac:(met) _ ltac:(met).
Example chop_causal_case {F : Type} {O : Num.FOps F} := @VolShape.chop_causal F O 3 (ramp 20) (ramp 30) (ramp 20) (ramp 30) (ramp 20) (ramp 30) ltac:(met) ltac:(met) ltac:(met) _ ltac:(met).
Example vhf_causal_case {F : Type} {O : Num.FOps F} := @VolShape.vhf_causal F O 3 (ramp 20) (ramp 30) (ramp 20) (ramp 30) (ramp 20) (ramp 30) ltac:(met) ltac:(met) ltac:(met) _ ltac:(met).
Example heikin_ashi_causal_case {F : Type} {O : Num.FOps F} := @VolShape.heikin_ashi_causal F O (ramp 20) (ramp 30) (ramp 20) (ramp 30) (ramp 20) (ramp 30) (ramp 20) (ramp 30) ltac:(met) ltac:(met) ltac:(met) ltac:(met) _ ltac:(met).
Example wcp_causal_case {F : Type} {O : Num.FOps F} := @VolShape.wcp_causal F O (ramp 20) (ramp 30) (ramp 20) (ramp 30) (ramp 20) (ramp 30) ltac:(met) ltac:(met) ltac:(met).
Example cc_hv_causal_case {F : Type} {O : Num.FOps F} := @VolShape.cc_hv_causal F O 3 (ramp 20) (ramp 30) ltac:(met) _ ltac:(met).
Example gkyz_hv_causal_case {F : Type} {O : Num.FOps F} := @VolShape.gkyz_hv_causal F O 3 (ramp 20) (ramp 30) (ramp 20) (ramp 30) (ramp 20) (ramp 30) (ramp 20) (ramp 30) ltac:(met) ltac:(met) ltac:(met) ltac:(met) _ ltac:(met).

(** ** [TrendShape] *)
Example zigzag_ok_case {F : Type} {O : Num.FOps F} := @TrendShape.zigzag_ok F O (ramp 20) (ramp 20) None ltac:(met) ltac:(met).
Example shinohara_causal_case {F : Type} {O : Num.FOps F} := @TrendShape.shinohara_causal F O 3 (ramp 20) (ramp 30) (ramp 20) (ramp 30) (ramp 20) (ramp 30) ltac:(met) ltac:(met) ltac:(met) _ ltac:(met).
Example adx_causal_case {F : Type} {O : Num.FOps F} := @TrendShape.adx_causal F O 3 3 (ramp 20) (ramp 30) (ramp 20) (ramp 30) (ramp 20) (ramp 30) ltac:(met) ltac:(met) ltac:(met) _ ltac:(met).
Example vortex_causal_case {F : Type} {O : Num.FOps F} := @TrendShape.vortex_causal F O 3 (ramp 20) (ramp 30) (ramp 20) (ramp 30) (ramp 20) (ramp 30) ltac:(met) ltac:(met) ltac:(met) _ ltac:(met).
Example ulcer_causal_case {F : Type} {O : Num.FOps F} := @TrendShape.ulcer_causal F O 3 (ramp 20) (ramp 30) ltac:(met) _ ltac:(met).
Example rwi_causal_case {F : Type} {O : Num.FOps F} := @TrendShape.rwi_causal F O 3 (ramp 20) (ramp 30) (ramp 20) (ramp 30) (ramp 20) (ramp 30) ltac:(met) ltac:(met) ltac:(met) _ ltac:(met).
Example psar_causal_case {F : Type} {O : Num.FOps F} := @TrendShape.psar_causal F O None None (ramp 20) (ramp 30) (ramp 20) (ramp 30) _ _ ltac:(met) ltac:(met) ltac:(met) ltac:(met).
Example dpo_causal_case {F : Type} {O : Num.FOps F} := @TrendShape.dpo_causal F O 3 None (ramp 20) (ramp 30) ltac:(met) _ ltac:(met).
Example aroon_causal_case {F : Type} {O : Num.FOps F} := @TrendShape.aroon_causal F O 3 (ramp 20) (ramp 30) (ramp 20) (ramp 30) ltac:(met) ltac:(met) _ ltac:(met).
Example chandelier_causal_case {F : Type} {O : Num.FOps F} := @TrendShape.chandelier_causal F O 3 None (ramp 20) (ramp 30) (ramp 20) (ramp 30) (ramp 20) (ramp 30) ltac:(met) ltac:(met) ltac:(met) _ ltac:(met).
Example decay_causal_case {F : Type} {O : Num.FOps F} := @TrendShape.decay_causal F O 3 (ramp 20) (ramp 30) ltac:(met) _ ltac:(met).
Example cks_causal_case {F : Type} {O : Num.FOps F} := @TrendShape.cks_causal F O 3 3 None (ramp 20) (ramp 30) (ramp 20) (ramp 30) (ramp 20) (ramp 30) ltac:(met) ltac:(met) ltac:(met) _ ltac:(met).
Example atr_stop_causal_case {F : Type} {O : Num.FOps F} := @TrendShape.atr_stop_causal F O 3 None (ramp 20) (ramp 30) (ramp 20) (ramp 30) (ramp 20) (ramp 30) ltac:(met) ltac:(met) ltac:(met) _ ltac:(met).
Example midpoints_causal_case {F : Type} {O : Num.FOps F} := @TrendShape.midpoints_causal F O 3 (ramp 20) (ramp 30) (ramp 20) (ramp 30) ltac:(met) ltac:(met) _ ltac:(met).

(** ** [MomShape] *)
Example rsi_causal_case {F : Type} {O : Num.FOps F} := @MomShape.rsi_causal F O 3 (ramp 20) (ramp 30) ltac:(met) _ ltac:(met).
Example macd_causal_case {F : Type} {O : Num.FOps F} := @MomShape.macd_causal F O 3 3 (ramp 20) (ramp 30) ltac:(met) _ ltac:(met).
Example cmo_causal_case {F : Type} {O : Num.FOps F} := @MomShape.cmo_causal F O 3 (ramp 20) (ramp 30) ltac:(met) _ ltac:(met).
Example cfo_causal_case {F : Type} {O : Num.FOps F} := @MomShape.cfo_causal F O 3 (ramp 20) (ramp 30) ltac:(met) _ ltac:(met).
Example elder_ray_causal_case {F : Type} {O : Num.FOps F} := @MomShape.elder_ray_causal F O 3 (ramp 20) (ramp 30) (ramp 20) (ramp 30) (ramp 20) (ramp 30) ltac:(met) ltac:(met) ltac:(met) _ ltac:(met).
Example wpr_causal_case {F : Type} {O : Num.FOps F} := @MomShape.wpr_causal F O 3 (ramp 20) (ramp 30) (ramp 20) (ramp 30) (ramp 20) (ramp 30) ltac:(met) ltac:(met) ltac:(met) _ ltac:(met).
Example ppo_causal_case {F : Type} {O : Num.FOps F} := @MomShape.ppo_causal F O 3 3 (ramp 20) (ramp 30) ltac:(met) _ ltac:(met).
Example apo_causal_case {F : Type} {O : Num.FOps F} := @MomShape.apo_causal F O 3 3 (ramp 20) (ramp 30) ltac:(met) _ ltac:(met).
Example pmo_causal_case {F : Type} {O : Num.FOps F} := @MomShape.pmo_causal F O 3 3 (ramp 20) (ramp 30) ltac:(met) _ ltac:(met).
Example ultimate_causal_case {F : Type} {O : Num.FOps F} := @MomShape.ultimate_causal F O 3 3 3 (ramp 20) (ramp 30) (ramp 20) (ramp 30) (ramp 20) (ramp 30) _ _ ltac:(met) ltac:(met) ltac:(met) ltac:(met) ltac:(met).
Example pgo_causal_case {F : Type} {O : Num.FOps F} := @MomShape.pgo_causal F O 3 (ramp 20) (ramp 30) (ramp 20) (ramp 30) (ramp 20) (ramp 30) ltac:(met) ltac:(met) ltac:(met) _ ltac:(met).
Example trix_causal_case {F : Type} {O : Num.FOps F} := @MomShape.trix_causal F O 3 (ramp 20) (ramp 30) ltac:(met) _ ltac:(met).
Example tii_causal_case {F : Type} {O : Num.FOps F} := @MomShape.tii_causal F O 3 (ramp 20) (ramp 30) ltac:(met) _ ltac:(met).
Example stoch_causal_case {F : Type} {O : Num.FOps F} := @MomShape.stoch_causal F O 3 3 (ramp 20) (ramp 30) (ramp 20) (ramp 30) (ramp 20) (ramp 30) ltac:(met) ltac:(met) ltac:(met) _ ltac:(met).
Example stochastic_causal_case {F : Type} {O : Num.FOps F} := @MomShape.stochastic_causal F O 3 (ramp 20) (ramp 30) (ramp 20) (ramp 30) (ramp 20) (ramp 30) ltac:(met) ltac:(met) ltac:(met) _ ltac:(met).
Example stc_raw_causal_case {F : Type} {O : Num.FOps F} := @MomShape.stc_raw_causal F O 3 3 (ramp 20) (ramp 30) ltac:(met) _ ltac:(met).
Example relative_vigor_causal_case {F : Type} {O : Num.FOps F} := @MomShape.relative_vigor_causal F O 3 (ramp 20) (ramp 30) (ramp 20) (ramp 30) (ramp 20) (ramp 30) (ramp 20) (ramp 30) ltac:(met) ltac:(met) ltac:(met) ltac:(met) _ ltac:(met).
Example rainbow_smas_causal_case {F : Type} {O : Num.FOps F} := @MomShape.rainbow_smas_causal F O 20 3 (ramp 20) (ramp 30) _ _ ltac:(met) ltac:(met) ltac:(met).
Example coppock_causal_case {F : Type} {O : Num.FOps F} := @MomShape.coppock_causal F O 3 3 3 (ramp 20) (ramp 30) _ _ ltac:(met) ltac:(met) ltac:(met).
Example roc_causal_case {F : Type} {O : Num.FOps F} := @MomShape.roc_causal F O 3 (ramp 20) (ramp 30) ltac:(met) _ ltac:(met).
Example bal_power_causal_case {F : Type} {O : Num.FOps F} := @MomShape.bal_power_causal F O 3 (ramp 20) (ramp 30) (ramp 20) (ramp 30) (ramp 20) (ramp 30) (ramp 20) (ramp 30) ltac:(met) ltac:(met) ltac:(met) ltac:(met) _ ltac:(met).
Example disparity_causal_case {F : Type} {O : Num.FOps F} := @MomShape.disparity_causal F O 3 (ramp 20) (ramp 30) ltac:(met) _ ltac:(met).
Example qstick_causal_case {F : Type} {O : Num.FOps F} := @MomShape.qstick_causal F O 3 (ramp 20) (ramp 30) (ramp 20) (ramp 30) ltac:(met) ltac:(met) _ ltac:(met).
Example cog_causal_case {F : Type} {O : Num.FOps F} := @MomShape.cog_causal F O 3 (ramp 20) (ramp 30) ltac:(met) _ ltac:(met).
Example psych_causal_case {F : Type} {O : Num.FOps F} := @MomShape.psych_causal F O 3 (ramp 20) (ramp 30) ltac:(met) _ ltac:(met).
Example tsi_causal_case {F : Type} {O : Num.FOps F} := @MomShape.tsi_causal F O 3 3 (ramp 20) (ramp 30) ltac:(met) _ ltac:(met).
Example derivative_causal_case {F : Type} {O : Num.FOps F} := @MomShape.derivative_causal F O 3 3 3 (ramp 20) (ramp 30) ltac:(met) _ ltac:(met).
Example cci_causal_case {F : Type} {O : Num.FOps F} := @MomShape.cci_causal F O 3 (ramp 20) (ramp 30) (ramp 20) (ramp 30) (ramp 20) (ramp 30) ltac:(met) ltac:(met) ltac:(met) _ ltac:(met).
Example deli_causal_case {F : Type} {O : Num.FOps F} := @MomShape.deli_causal F O 3 (ramp 20) (ramp 30) (ramp 20) (ramp 30) ltac:(met) ltac:(met) _ ltac:(met).
Example kdj_causal_case {F : Type} {O : Num.FOps F} := @MomShape.kdj_causal F O 3 3 None None (ramp 20) (ramp 30) (ramp 20) (ramp 30) (ramp 20) (ramp 30) ltac:(met) ltac:(met) ltac:(met) _ ltac:(met).
Example coppock_at_panic_case {F : Type} {O : Num.FOps F} := @MomShape.coppock_at_panic F O (ramp 20) 3 3 3 ltac:(met).

(** ** [Prings] *)
Example special_k_causal_case {F : Type} {O : Num.FOps F} := @Prings.special_k_causal F O (ramp 20) (ramp 30) ltac:(met) _ ltac:(met).
Example kst_default_causal_case {F : Type} {O : Num.FOps F} := @Prings.kst_default_causal F O (ramp 20) (ramp 30) ltac:(met) _ ltac:(met).

(** ** [SmoothVals] *)
Example sma_values_case {F : Type} {O : Num.FOps F} := @SmoothVals.sma_values F O (ramp 20) 3 ltac:(met).
Example wma_values_case {F : Type} {O : Num.FOps F} := @SmoothVals.wma_values F O (ramp 20) 3 ltac:(met) ltac:(met).
Example pwma_values_case {F : Type} {O : Num.FOps F} := @SmoothVals.pwma_values F O (ramp 20) 3 ltac:(met).
Example fwma_values_case {F : Type} {O : Num.FOps F} := @SmoothVals.fwma_values F O (ramp 20) 3 ltac:(met).
Example ewma_values_case {F : Type} {O : Num.FOps F} := @SmoothVals.ewma_values F O (ramp 20) 3 ltac:(met).
Example wilder_values_case {F : Type} {O : Num.FOps F} := @SmoothVals.wilder_values F O (ramp 20) 3 ltac:(met).

(** ** [SmoothReal] *)
Example sma_real_case := @SmoothReal.sma_real (quotes 20) 3 ltac:(met).
Example wma_real_case := @SmoothReal.wma_real (quotes 20) 3 ltac:(met) ltac:(met).
Example pwma_real_case := @SmoothReal.pwma_real (quotes 20) 3 ltac:(met).
Example fwma_real_case := @SmoothReal.fwma_real (quotes 20) 3 ltac:(met).
Example ewma_real_case := @SmoothReal.ewma_real (quotes 20) 3 ltac:(met).
Example wilder_real_case := @SmoothReal.wilder_real (quotes 20) 3 ltac:(met).
Example dema_real_case := @SmoothReal.dema_real (quotes 20) 3 ltac:(met) ltac:(met).
Example tema_real_case := @SmoothReal.tema_real (quotes 20) 3 ltac:(met) ltac:(met).
Example t3_real_case := @SmoothReal.t3_real (quotes 20) 3 None ltac:(met) ltac:(met).
Example hull_real_case := @SmoothReal.hull_real (quotes 20) 3 ltac:(met) ltac:(met) ltac:(met).
Example trima_real_case := @SmoothReal.trima_real (quotes 20) 3 ltac:(met).

(** ** [SmoothReal2] *)
Example lrf_real_case := @SmoothReal2.lrf_real (quotes 20) 3 ltac:(met) ltac:(met).
Example lrf_line_case := @SmoothReal2.lrf_line 1%R 1%R 20 3 ltac:(met) ltac:(met).
Example zlma_real_case := @SmoothReal2.zlma_real (quotes 20) 3 ltac:(met) ltac:(met).
Example alma_real_case := @SmoothReal2.alma_real (quotes 20) 3 1%R None ltac:(met) ltac:(met).

(** ** [Convex] *)
Example sma_inside_case := @Convex.sma_inside (quotes 20) 3 ltac:(met).
Example wma_inside_case := @Convex.wma_inside (quotes 20) 3 ltac:(met) ltac:(met).
Example pwma_inside_case := @Convex.pwma_inside (quotes 20) 3 ltac:(met).
Example fwma_inside_case := @Convex.fwma_inside (quotes 20) 3 ltac:(met).
Example trima_inside_case := @Convex.trima_inside (quotes 20) 3 ltac:(met).
Example ewma_inside_case := @Convex.ewma_inside (quotes 20) 3 ltac:(met).
Example wilder_inside_case := @Convex.wilder_inside (quotes 20) 3 ltac:(met).
Example kernel_inside_case := @Convex.kernel_inside (quotes 20) 1%R ltac:(met).
Example alma_inside_case := @Convex.alma_inside (quotes 20) 3 1%R None ltac:(met) ltac:(met).
Example t3_factor_0_case := @Convex.t3_factor_0 (quotes 20) 3 ltac:(met) ltac:(met).

(** ** [DistReal] *)
Example variance_real_case := @DistReal.variance_real (quotes 20) 3 ltac:(met).
Example std_dev_real_case := @DistReal.std_dev_real (quotes 20) 3 ltac:(met).
Example var_zero_case := @DistReal.var_zero (quotes 20) ltac:(met).
Example variance_scale_case := @DistReal.variance_scale (quotes 20) 3 1%R ltac:(met).
Example zscore_real_case := @DistReal.zscore_real (quotes 20) 3 ltac:(met).
Example zscore_affine_case := @DistReal.zscore_affine (quotes 20) 3 1%R 1%R ltac:(met).
Example mad_real_case := @DistReal.mad_real (quotes 20) 3 ltac:(met).
Example mad_le_sd_case := @DistReal.mad_le_sd (quotes 20) ltac:(met).
Example cv_real_case := @DistReal.cv_real (quotes 20) 3 ltac:(met).
Example skew_real_case := @DistReal.skew_real (quotes 20) 3 ltac:(met) ltac:(met).
Example kurtosis_real_case := @DistReal.kurtosis_real (quotes 20) 4 ltac:(met) ltac:(met).
Example skew_affine_case := @DistReal.skew_affine (quotes 20) 3 1%R 1%R ltac:(met) ltac:(met) ltac:(met).
Example kurtosis_affine_case := @DistReal.kurtosis_affine (quotes 20) 4 1%R 1%R ltac:(met) ltac:(met) ltac:(met).

(** ** [OrderStat] *)
Example quantile_real_case := @OrderStat.quantile_real (quotes 20) 3 1%R ltac:(met) ltac:(met).
Example median_real_case := @OrderStat.median_real (quotes 20) 3 ltac:(met) ltac:(met).
Example quantile_inside_case := @OrderStat.quantile_inside (quotes 20) 3 1%R ltac:(met) ltac:(met).

(** ** [RegReal] *)
Example mse_real_case := @RegReal.mse_real (quotes 20) (quotes 20) 15 ltac:(met).
Example rmse_real_case := @RegReal.rmse_real (quotes 20) (quotes 20) 15 ltac:(met).
Example mae_real_case := @RegReal.mae_real (quotes 20) (quotes 20) 15 ltac:(met).
Example mase_real_case := @RegReal.mase_real (quotes 20) (quotes 20) ltac:(met) ltac:(met) ltac:(met).
Example error_metrics_case := @RegReal.error_metrics (quotes 20) (quotes 20) 15 ltac:(met).
Example smape_real_case := @RegReal.smape_real (quotes 20) (quotes 20) 15 ltac:(met).
Example smape_range_case := @RegReal.smape_range (quotes 20) (quotes 20) 15 ltac:(met).
Example mda_real_case := @RegReal.mda_real (quotes 20) (quotes 20) ltac:(met) ltac:(met).
Example mda_range_case := @RegReal.mda_range (quotes 20) (quotes 20) ltac:(met) ltac:(met).

(** ** [CorrReal] *)
Example pcc_values_case {F : Type} {O : Num.FOps F} := @CorrReal.pcc_values F O (ramp 20) (ramp 20) 3 ltac:(met).
Example pcc_real_case := @CorrReal.pcc_real (quotes 20) (quotes 20) 3 ltac:(met).
Example pearson_range_case := @CorrReal.pearson_range (quotes 20) (quotes 20) ltac:(met).
Example pearson_affine_case := @CorrReal.pearson_affine 1%R 1%R (quotes 20) (quotes 20) ltac:(met) ltac:(met) ltac:(met).
Example pearson_negate_case := @CorrReal.pearson_negate (quotes 20) (quotes 20) ltac:(met) ltac:(met).
Example rsq_real_case := @CorrReal.rsq_real (quotes 20) (quotes 20) 3 ltac:(met).
Example pearson_sq_range_case := @CorrReal.pearson_sq_range (quotes 20) (quotes 20) ltac:(met).
Example beta_values_case {F : Type} {O : Num.FOps F} := @CorrReal.beta_values F O (ramp 20) (ramp 20) 3 ltac:(met).
Example perf_values_case {F : Type} {O : Num.FOps F} := @CorrReal.perf_values F O (ramp 20) (ramp 20) 3 ltac:(met).
Example perf_real_case := @CorrReal.perf_real (quotes 20) (quotes 20) 3 ltac:(met).
Example rsc_values_case {F : Type} {O : Num.FOps F} := @CorrReal.rsc_values F O (ramp 20) (ramp 20) 15 _ _ ltac:(met) ltac:(met).

(** ** [RankCorr] *)
Example spearman_range_case := @RankCorr.spearman_range (quotes 20) (quotes 20) ltac:(met).
Example krcc_real_case := @RankCorr.krcc_real (quotes 20) (quotes 20) 3 ltac:(met) ltac:(met) ltac:(met) ltac:(met).
Example krcc_real_formula_case := @RankCorr.krcc_real_formula (quotes 20) (quotes 20) 3 ltac:(met) ltac:(met).
Example tau_b_sym_case := @RankCorr.tau_b_sym (quotes 20) (quotes 20) ltac:(met).

(** ** [Dcor] *)
Example dcor_real_case := @Dcor.dcor_real (quotes 20) (quotes 20) 3 ltac:(met).
Example dcov2_nonneg_case := @Dcor.dcov2_nonneg (quotes 20) (quotes 20) ltac:(met).
Example dist_corr_sym_case := @Dcor.dist_corr_sym (quotes 20) (quotes 20) ltac:(met).

(** ** [Mic] *)
Example mic_score_range_case := @Mic.mic_score_range 4 (quotes 20) (quotes 20) ltac:(met) ltac:(met) ltac:(met).
Example mic_small_window_case := @Mic.mic_small_window (fun l => l) (@ramp _ XReal.XR 20) (@ramp _ XReal.XR 20) 3 ltac:(met).
Example mic_order_independent_case := @Mic.mic_order_independent (fun l => l) (fun l => l) (@ramp _ XReal.XR 20) (@ramp _ XReal.XR 20) 3 ltac:(met) ltac:(met).

(** ** [VolumeReal] *)
Example pvi_real_case := @VolumeReal.pvi_real closes volumes 20 ltac:(met).
Example nvi_real_case := @VolumeReal.nvi_real closes volumes 20 ltac:(met).
Example mfi_real_case := @VolumeReal.mfi_real highs lows closes volumes 20 3 ltac:(met) ltac:(met) ltac:(met).
Example mfi_range_case := @VolumeReal.mfi_range 1%R 1%R ltac:(met) ltac:(met) ltac:(met).
Example ad_real_case := @VolumeReal.ad_real highs lows closes volumes 20 None ltac:(met) ltac:(met).
Example ad_alt_real_case := @VolumeReal.ad_alt_real highs lows closes volumes 20 ltac:(met).
Example vpt_real_case := @VolumeReal.vpt_real closes volumes 20 ltac:(met) ltac:(met).
Example tvi_real_case := @VolumeReal.tvi_real 1%R closes volumes 20 ltac:(met).
Example bw_mfi_real_case := @VolumeReal.bw_mfi_real highs lows volumes 20 ltac:(met).
Example elder_force_real_case := @VolumeReal.elder_force_real closes volumes 20 3 ltac:(met).
Example ease_real_case := @VolumeReal.ease_real highs lows volumes 20 3 ltac:(met) ltac:(met) ltac:(met).
Example kvo_real_case := @VolumeReal.kvo_real highs lows closes volumes 20 3 3 None ltac:(met) ltac:(met) ltac:(met).
Example kvo_force_real_case := @VolumeReal.kvo_force_real highs lows closes volumes 20 3 3 ltac:(met) ltac:(met) ltac:(met).
Example vwma_values_case {F : Type} {FO : Num.FOps F} := @VolumeReal.vwma_values F FO Num.fofnat Num.fofnat 20 3 ltac:(meet).
Example vwma_real_case := @VolumeReal.vwma_real closes volumes 20 3 ltac:(meet) ltac:(meet).
Example vwma_range_case := @VolumeReal.vwma_range closes volumes 3 15 ltac:(meet) ltac:(meet) ltac:(meet).
Example mfi_values_case {F : Type} {FO : Num.FOps F} := @VolumeReal.mfi_values F FO Num.fofnat Num.fofnat Num.fofnat Num.fofnat 20 3 ltac:(meet) ltac:(meet).
Example cmf_values_case {F : Type} {FO : Num.FOps F} := @VolumeReal.cmf_values F FO Num.fofnat Num.fofnat Num.fofnat Num.fofnat 20 3 ltac:(meet).
Example cmf_real_case := @VolumeReal.cmf_real highs lows closes volumes 20 3 ltac:(meet) ltac:(meet) ltac:(meet).
Example cmf_range_case := @VolumeReal.cmf_range highs lows closes volumes 3 15 ltac:(meet) ltac:(meet) ltac:(meet).
Example twiggs_values_case {F : Type} {FO : Num.FOps F} := @VolumeReal.twiggs_values F FO Num.fofnat Num.fofnat Num.fofnat Num.fofnat 20 3 ltac:(meet) ltac:(meet).
Example ad_values_case {F : Type} {FO : Num.FOps F} := @VolumeReal.ad_values F FO Num.fofnat Num.fofnat Num.fofnat Num.fofnat 20 None ltac:(meet).
Example ad_alt_values_case {F : Type} {FO : Num.FOps F} := @VolumeReal.ad_alt_values F FO Num.fofnat Num.fofnat Num.fofnat Num.fofnat 20 ltac:(meet).
Example vpt_values_case {F : Type} {FO : Num.FOps F} := @VolumeReal.vpt_values F FO Num.fofnat Num.fofnat 20 ltac:(meet).
Example tvi_values_case {F : Type} {FO : Num.FOps F} := @VolumeReal.tvi_values F FO (Num.flit 1 1) Num.fofnat Num.fofnat 20 ltac:(meet).

(** ** [VolatReal] *)
Example tr_real_case := @VolatReal.tr_real highs lows closes 20 ltac:(met) ltac:(met).
Example true_range_ge_case := @VolatReal.true_range_ge highs lows closes 15 ltac:(met).
Example atr_real_case := @VolatReal.atr_real highs lows closes 20 3 ltac:(met) ltac:(met).
Example atr_nonneg_case := @VolatReal.atr_nonneg highs lows closes 3 15 ltac:(met) ltac:(met).
Example keltner_real_case := @VolatReal.keltner_real highs lows closes 20 3 ltac:(met) ltac:(met).
Example starc_real_case := @VolatReal.starc_real highs lows closes 20 3 3 None ltac:(met) ltac:(met) ltac:(met).
Example bbands_values_case {F : Type} {FO : Num.FOps F} := @VolatReal.bbands_values F FO (ramp 20) 3 None None _ _ ltac:(met) ltac:(met).
Example bbands_real_case := @VolatReal.bbands_real closes 20 3 None ltac:(met).
Example bands_ordered_case := @VolatReal.bands_ordered 1%R 1%R ltac:(met).
Example donchian_ordered_case := @VolatReal.donchian_ordered highs lows 3 15 ltac:(met) ltac:(met).
Example donchian_real_case := @VolatReal.donchian_real highs lows 20 3 ltac:(met).
Example highest_spec_case := @VolatReal.highest_spec 3 highs 15 ltac:(met).
Example lowest_spec_case := @VolatReal.lowest_spec 3 lows 15 ltac:(met).
Example heikin_ashi_real_case := @VolatReal.heikin_ashi_real opens highs lows closes 20 ltac:(met).
Example typical_real_case := @VolatReal.typical_real highs lows closes 20 3 ltac:(met).
Example typical_price_range_case := @VolatReal.typical_price_range highs lows closes 15 ltac:(met).
Example wcp_range_case := @VolatReal.wcp_range 1%R 1%R 1%R ltac:(met).
Example hv_real_case := @VolatReal.hv_real closes 20 3 None ltac:(met) ltac:(met) ltac:(met).
Example cc_hv_real_case := @VolatReal.cc_hv_real closes 20 3 ltac:(met) ltac:(met).
Example gkyz_hv_real_case := @VolatReal.gkyz_hv_real opens highs lows closes 20 3 ltac:(met) ltac:(met) ltac:(met).
Example range_le_true_ranges_case := @VolatReal.range_le_true_ranges highs lows closes 3 15 ltac:(met) ltac:(met).
Example relative_vol_real_case := @VolatReal.relative_vol_real closes 20 3 3 ltac:(met) ltac:(met) ltac:(met).
Example relative_vol_range_case := @VolatReal.relative_vol_range 1%R 1%R ltac:(met) ltac:(met) ltac:(met).
Example tr_values_case {F : Type} {FO : Num.FOps F} := @VolatReal.tr_values F FO Num.fofnat Num.fofnat Num.fofnat 20 ltac:(meet).
Example donchian_values_case {F : Type} {FO : Num.FOps F} := @VolatReal.donchian_values F FO Num.fofnat Num.fofnat 20 3 ltac:(meet).
Example heikin_ashi_values_case {F : Type} {FO : Num.FOps F} := @VolatReal.heikin_ashi_values F FO Num.fofnat Num.fofnat Num.fofnat Num.fofnat 20 ltac:(meet).
Example gri_real_case := @VolatReal.gri_real highs lows 20 3 ltac:(meet) ltac:(meet).
Example chop_real_case := @VolatReal.chop_real highs lows closes 20 3 ltac:(meet) ltac:(meet) ltac:(meet) ltac:(meet).
Example chop_nonneg_case := @VolatReal.chop_nonneg highs lows closes 3 15 ltac:(meet) ltac:(meet) ltac:(meet).
Example mass_real_case := @VolatReal.mass_real highs lows 20 3 3 ltac:(meet) ltac:(meet) ltac:(meet) ltac:(meet).
Example cvi_real_case := @VolatReal.cvi_real highs lows 20 3 3 ltac:(meet) ltac:(meet) ltac:(meet).

(** ** [MomReal] *)
Example rsi_real_case := @MomReal.rsi_real closes 20 3 ltac:(met).
Example wpr_real_case := @MomReal.wpr_real highs lows closes 20 3 ltac:(met) ltac:(met) ltac:(met).
Example cmo_real_case := @MomReal.cmo_real closes 20 3 ltac:(met).
Example cmo_range_case := @MomReal.cmo_range 1%R 1%R ltac:(met) ltac:(met) ltac:(met).
Example ultimate_within_case := @MomReal.ultimate_within 1%R 1%R 1%R ltac:(met) ltac:(met) ltac:(met).
Example psych_real_case := @MomReal.psych_real closes 20 3 ltac:(met).
Example psych_range_case := @MomReal.psych_range closes 3 15 ltac:(met).
Example bal_power_real_case := @MomReal.bal_power_real opens highs lows closes 20 3 ltac:(met) ltac:(met).
Example bal_power_range_case := @MomReal.bal_power_range opens highs lows closes 3 15 ltac:(met) ltac:(met).
Example cfo_real_case := @MomReal.cfo_real closes 20 3 ltac:(met) ltac:(met) ltac:(met) ltac:(met).
Example macd_real_case := @MomReal.macd_real closes 20 3 3 ltac:(met) ltac:(met).
Example roc_real_case := @MomReal.roc_real closes 20 3 ltac:(met) ltac:(met).
Example qstick_real_case := @MomReal.qstick_real opens closes 20 3 ltac:(met).
Example cog_range_case := @MomReal.cog_range closes 3 15 ltac:(met) ltac:(met).
Example kst_real_case := @MomReal.kst_real closes 20 ltac:(met) ltac:(met).
Example special_k_real_case := @MomReal.special_k_real closes 20 ltac:(met) ltac:(met).
Example elder_ray_real_case := @MomReal.elder_ray_real highs lows closes 20 3 ltac:(met).
Example wpr_range_case := @MomReal.wpr_range highs lows closes 3 15 ltac:(meet) ltac:(meet) ltac:(meet).
Example stochastic_real_case := @MomReal.stochastic_real highs lows closes 20 3 ltac:(meet) ltac:(meet) ltac:(meet).
Example stochastic_range_case := @MomReal.stochastic_range highs lows closes 3 3 15 ltac:(meet) ltac:(meet) ltac:(meet) ltac:(meet) ltac:(meet).
Example ultimate_real_case := @MomReal.ultimate_real highs lows closes 20 3 3 3 ltac:(meet) ltac:(meet) ltac:(meet) ltac:(meet).
Example ultimate_range_case := @MomReal.ultimate_range highs lows closes 3 15 ltac:(meet) ltac:(meet) ltac:(meet).
Example tsi_real_case := @MomReal.tsi_real closes 20 3 3 ltac:(meet) ltac:(meet) ltac:(meet).
Example tii_real_case := @MomReal.tii_real closes 20 3 ltac:(meet) ltac:(meet).
Example stc_range_case := @MomReal.stc_range closes 3 3 15 ltac:(meet) ltac:(meet) ltac:(meet) ltac:(meet).
Example crsi_real_case := @MomReal.crsi_real closes 20 3 3 3 ltac:(meet) ltac:(meet) ltac:(meet) ltac:(meet) ltac:(meet) ltac:(meet) ltac:(meet).
Example crsi_range_case := @MomReal.crsi_range closes 3 3 3 15 ltac:(meet) ltac:(meet) ltac:(meet) ltac:(meet) ltac:(meet).
Example ppo_real_case := @MomReal.ppo_real closes 20 3 3 ltac:(meet) ltac:(meet) ltac:(meet).
Example roc_values_case {F : Type} {FO : Num.FOps F} := @MomReal.roc_values F FO Num.fofnat 20 3 ltac:(meet).
Example disparity_real_case := @MomReal.disparity_real closes 20 3 ltac:(meet) ltac:(meet).
Example cog_real_case := @MomReal.cog_real closes 20 3 ltac:(meet) ltac:(meet).
Example coppock_real_case := @MomReal.coppock_real closes 20 3 3 3 ltac:(meet) ltac:(meet) ltac:(meet) ltac:(meet).
Example pmo_real_case := @MomReal.pmo_real closes 20 3 3 ltac:(meet) ltac:(meet) ltac:(meet) ltac:(meet).
Example derivative_real_case := @MomReal.derivative_real closes 20 3 3 3 ltac:(meet) ltac:(meet) ltac:(meet) ltac:(meet) ltac:(meet) ltac:(meet).
Example deli_real_case := @MomReal.deli_real highs lows 20 3 ltac:(meet) ltac:(meet).
Example kdj_real_case := @MomReal.kdj_real highs lows closes 20 3 3 None None ltac:(meet) ltac:(meet) ltac:(meet) ltac:(meet).
Example qqe_real_case := @MomReal.qqe_real closes 20 3 3 ltac:(meet) ltac:(meet) ltac:(meet) ltac:(meet).
Example si_values_case {F : Type} {FO : Num.FOps F} := @MomReal.si_values F FO Num.fofnat Num.fofnat Num.fofnat Num.fofnat (Num.flit 1 1) 20 ltac:(meet).
Example asi_values_case {F : Type} {FO : Num.FOps F} := @MomReal.asi_values F FO (ramp 20) (ramp 20) (ramp 20) (ramp 20) (Num.flit 1 1) _ ltac:(meet).

(** ** [TrendReal] *)
Example aroon_real_case := @TrendReal.aroon_real highs lows 20 3 ltac:(met).
Example aroon_range_case := @TrendReal.aroon_range 3 3 ltac:(met) ltac:(met).
Example decay_real_case := @TrendReal.decay_real closes 20 3 ltac:(met).
Example chandelier_real_case := @TrendReal.chandelier_real highs lows closes 20 3 None ltac:(met) ltac:(met).
Example ichimoku_real_case := @TrendReal.ichimoku_real highs lows closes 20 3 3 3 3 ltac:(met) ltac:(met) ltac:(met) ltac:(met).
Example alligator_real_case := @TrendReal.alligator_real closes 20 3 3 3 3 3 3 ltac:(met) ltac:(met) ltac:(met).
Example gator_real_case := @TrendReal.gator_real closes 20 3 3 3 3 3 3 ltac:(met) ltac:(met) ltac:(met).
Example dpo_real_case := @TrendReal.dpo_real closes 20 3 ltac:(met).
Example ulcer_real_case := @TrendReal.ulcer_real closes 20 3 ltac:(met) ltac:(met) ltac:(met).
Example vortex_real_case := @TrendReal.vortex_real highs lows closes 20 3 ltac:(meet) ltac:(meet) ltac:(meet) ltac:(meet).
Example vortex_nonneg_case := @TrendReal.vortex_nonneg highs lows closes 3 15 ltac:(meet) ltac:(meet) ltac:(meet).
Example psar_real_case := @TrendReal.psar_real highs lows 20 None None ltac:(meet).
Example supertrend_real_case := @TrendReal.supertrend_real highs lows closes 20 3 1%R ltac:(meet) ltac:(meet).
Example atr_stop_real_case := @TrendReal.atr_stop_real highs lows closes 20 3 None ltac:(meet) ltac:(meet).
Example cks_real_case := @TrendReal.cks_real highs lows closes 20 3 3 None ltac:(meet) ltac:(meet) ltac:(meet).
Example shinohara_values_case {F : Type} {FO : Num.FOps F} := @TrendReal.shinohara_values F FO Num.fofnat Num.fofnat Num.fofnat 20 3 ltac:(meet).
Example rwi_real_case := @TrendReal.rwi_real highs lows closes 20 3 ltac:(meet) ltac:(meet) ltac:(meet).

(** ** [HurstReal] *)
Example hurst_sizes_real_case := @HurstReal.hurst_sizes_real 3 3 ltac:(met) ltac:(met).

(** ** [Adaptive] *)
Example vidya_real_case := @Adaptive.vidya_real closes 20 3 ltac:(met).
Example adaptive_next_case := @Adaptive.adaptive_next closes closes 15 15 ltac:(met).
Example hwma_real_case := @Adaptive.hwma_real closes 20 None None None ltac:(met).
Example hwma_const_case := @Adaptive.hwma_const 1%R 20 None None None ltac:(met).
Example ssf_real_case := @Adaptive.ssf_real closes 20 3 ltac:(meet) ltac:(meet).
Example ssf_tri_real_case := @Adaptive.ssf_tri_real closes 20 3 ltac:(meet) ltac:(meet).

(** ** [F64Err] *)
Example median_f64_total_case {m : B64.libm} := @F64Err.median_f64_total m (@ramp _ (B64.B64 m) 20) 3 ltac:(met) ltac:(met).

(** ** [Warm] *)
Example ewma_warm_case {F : Type} {O : Num.FOps F} := @Warm.ewma_warm F O (ramp 20) 3 _ ltac:(met).
Example sma_warm_case {F : Type} {O : Num.FOps F} := @Warm.sma_warm F O (ramp 20) 3 _ ltac:(met).
Example wma_warm_case {F : Type} {O : Num.FOps F} := @Warm.wma_warm F O (ramp 20) 3 _ ltac:(met).
Example pwma_warm_case {F : Type} {O : Num.FOps F} := @Warm.pwma_warm F O (ramp 20) 3 _ ltac:(met).
Example fwma_warm_case {F : Type} {O : Num.FOps F} := @Warm.fwma_warm F O (ramp 20) 3 _ ltac:(met).
Example wilder_warm_case {F : Type} {O : Num.FOps F} := @Warm.wilder_warm F O (ramp 20) 3 _ ltac:(met).
Example lrf_warm_case {F : Type} {O : Num.FOps F} := @Warm.lrf_warm F O (ramp 20) 3 _ ltac:(met).
Example vidya_warm_case {F : Type} {O : Num.FOps F} := @Warm.vidya_warm F O (ramp 20) 3 _ ltac:(met).
Example vma_warm_case {F : Type} {O : Num.FOps F} := @Warm.vma_warm F O (ramp 20) 3 _ ltac:(met).
Example kama_warm_case {F : Type} {O : Num.FOps F} := @Warm.kama_warm F O (ramp 20) 3 None None _ ltac:(met).
Example alma_warm_case {F : Type} {O : Num.FOps F} := @Warm.alma_warm F O (ramp 20) 3 (Num.flit 1 1) None _ ltac:(met).
Example ssf_warm_case {F : Type} {O : Num.FOps F} := @Warm.ssf_warm F O (ramp 20) 3 None _ ltac:(met).
Example mama_warm_case {F : Type} {O : Num.FOps F} := @Warm.mama_warm F O (ramp 6) None None _ ltac:(met).
Example zlma_warm_case {F : Type} {O : Num.FOps F} := @Warm.zlma_warm F O (ramp 20) 3 _ ltac:(met).
Example variance_warm_case {F : Type} {O : Num.FOps F} := @Warm.variance_warm F O (ramp 20) 3 _ ltac:(met).
Example std_dev_warm_case {F : Type} {O : Num.FOps F} := @Warm.std_dev_warm F O (ramp 20) 3 _ ltac:(met).
Example zscore_warm_case {F : Type} {O : Num.FOps F} := @Warm.zscore_warm F O (ramp 20) 3 _ ltac:(met).
Example mad_warm_case {F : Type} {O : Num.FOps F} := @Warm.mad_warm F O (ramp 20) 3 _ ltac:(met).
Example cv_warm_case {F : Type} {O : Num.FOps F} := @Warm.cv_warm F O (ramp 20) 3 _ ltac:(met).
Example kurtosis_warm_case {F : Type} {O : Num.FOps F} := @Warm.kurtosis_warm F O (ramp 20) 3 _ ltac:(met).
Example skew_warm_case {F : Type} {O : Num.FOps F} := @Warm.skew_warm F O (ramp 20) 3 _ ltac:(met).
Example mda_warm_case {F : Type} {O : Num.FOps F} := @Warm.mda_warm F O (ramp 20) (ramp 20) _ ltac:(met).
Example pcc_warm_case {F : Type} {O : Num.FOps F} := @Warm.pcc_warm F O (ramp 20) (ramp 20) 3 _ ltac:(met).
Example beta_warm_case {F : Type} {O : Num.FOps F} := @Warm.beta_warm F O (ramp 20) (ramp 20) 3 _ ltac:(met).
Example krcc_warm_case {F : Type} {O : Num.FOps F} := @Warm.krcc_warm F O (ramp 20) (ramp 20) 3 _ ltac:(met).
Example dcor_warm_case {F : Type} {O : Num.FOps F} := @Warm.dcor_warm F O (ramp 20) (ramp 20) 3 _ ltac:(met).
Example mic_warm_case {F : Type} {O : Num.FOps F} := @Warm.mic_warm F O (fun l => l) (ramp 20) (ramp 20) 3 _ ltac:(met).
Example twiggs_warm_case {F : Type} {O : Num.FOps F} := @Warm.twiggs_warm F O (ramp 20) (ramp 20) (ramp 20) (ramp 20) 3 _ ltac:(met).
Example ad_warm_case {F : Type} {O : Num.FOps F} := @Warm.ad_warm F O (ramp 20) (ramp 20) (ramp 20) (ramp 20) _ ltac:(met).
Example elder_force_warm_case {F : Type} {O : Num.FOps F} := @Warm.elder_force_warm F O (ramp 20) (ramp 20) 3 _ ltac:(met).
Example mfi_warm_case {F : Type} {O : Num.FOps F} := @Warm.mfi_warm F O (ramp 20) (ramp 20) (ramp 20) (ramp 20) 3 _ ltac:(met).
Example cmf_warm_case {F : Type} {O : Num.FOps F} := @Warm.cmf_warm F O (ramp 20) (ramp 20) (ramp 20) (ramp 20) 3 _ ltac:(met).
Example tvi_warm_case {F : Type} {O : Num.FOps F} := @Warm.tvi_warm F O (ramp 20) (ramp 20) (Num.flit 1 1) _ ltac:(met).
Example ease_warm_case {F : Type} {O : Num.FOps F} := @Warm.ease_warm F O (ramp 20) (ramp 20) (ramp 20) 3 _ ltac:(met).
Example obv_warm_case {F : Type} {O : Num.FOps F} := @Warm.obv_warm F O (ramp 20) (ramp 20) _ ltac:(met).
Example vwma_warm_case {F : Type} {O : Num.FOps F} := @Warm.vwma_warm F O (ramp 20) (ramp 20) 3 _ ltac:(met).
Example vpt_warm_case {F : Type} {O : Num.FOps F} := @Warm.vpt_warm F O (ramp 20) (ramp 20) _ ltac:(met).
Example gri_warm_case {F : Type} {O : Num.FOps F} := @Warm.gri_warm F O (ramp 20) (ramp 20) 3 _ ltac:(met).
Example tr_warm_case {F : Type} {O : Num.FOps F} := @Warm.tr_warm F O (ramp 20) (ramp 20) (ramp 20) _ ltac:(met).
Example atr_warm_case {F : Type} {O : Num.FOps F} := @Warm.atr_warm F O (ramp 20) (ramp 20) (ramp 20) 3 _ ltac:(met).
Example typical_warm_case {F : Type} {O : Num.FOps F} := @Warm.typical_warm F O (ramp 20) (ramp 20) (ramp 20) 3 _ ltac:(met).
Example donchian_warm_case {F : Type} {O : Num.FOps F} := @Warm.donchian_warm F O (ramp 20) (ramp 20) 3 _ ltac:(met).
Example hv_warm_case {F : Type} {O : Num.FOps F} := @Warm.hv_warm F O (ramp 20) 3 None _ ltac:(met).
Example chop_warm_case {F : Type} {O : Num.FOps F} := @Warm.chop_warm F O (ramp 20) (ramp 20) (ramp 20) 3 _ ltac:(met).
Example vhf_warm_case {F : Type} {O : Num.FOps F} := @Warm.vhf_warm F O (ramp 20) (ramp 20) (ramp 20) 3 _ ltac:(met).
Example cc_hv_warm_case {F : Type} {O : Num.FOps F} := @Warm.cc_hv_warm F O (ramp 20) 3 _ ltac:(met).
Example gkyz_hv_warm_case {F : Type} {O : Num.FOps F} := @Warm.gkyz_hv_warm F O (ramp 20) (ramp 20) (ramp 20) (ramp 20) 3 _ ltac:(met).
Example shinohara_warm_case {F : Type} {O : Num.FOps F} := @Warm.shinohara_warm F O (ramp 20) (ramp 20) (ramp 20) 3 _ ltac:(met).
Example vortex_warm_case {F : Type} {O : Num.FOps F} := @Warm.vortex_warm F O (ramp 20) (ramp 20) (ramp 20) 3 _ ltac:(met).
Example asi_warm_case {F : Type} {O : Num.FOps F} := @Warm.asi_warm F O (ramp 20) (ramp 20) (ramp 20) (ramp 20) (Num.flit 1 1) _ ltac:(met).
Example rwi_warm_case {F : Type} {O : Num.FOps F} := @Warm.rwi_warm F O (ramp 20) (ramp 20) (ramp 20) 3 _ ltac:(met).
Example psar_warm_case {F : Type} {O : Num.FOps F} := @Warm.psar_warm F O (ramp 20) (ramp 20) None None _ ltac:(met).
Example dpo_warm_case {F : Type} {O : Num.FOps F} := @Warm.dpo_warm F O (ramp 20) 3 None _ ltac:(met).
Example aroon_warm_case {F : Type} {O : Num.FOps F} := @Warm.aroon_warm F O (ramp 20) (ramp 20) 3 _ ltac:(met).
Example chandelier_warm_case {F : Type} {O : Num.FOps F} := @Warm.chandelier_warm F O (ramp 20) (ramp 20) (ramp 20) 3 None _ ltac:(met).
Example cks_warm_case {F : Type} {O : Num.FOps F} := @Warm.cks_warm F O (ramp 20) (ramp 20) (ramp 20) 3 3 None _ ltac:(met).
Example atr_stop_warm_case {F : Type} {O : Num.FOps F} := @Warm.atr_stop_warm F O (ramp 20) (ramp 20) (ramp 20) 3 None _ ltac:(met).
Example displaced_warm_case {F : Type} {O : Num.FOps F} := @Warm.displaced_warm F O (ramp 20) 3 15 3 _ ltac:(met).
Example alligator_warm_case {F : Type} {O : Num.FOps F} := @Warm.alligator_warm F O (ramp 20) 3 3 3 3 3 3 _ ltac:(met).
Example rsi_pad_warm_case {F : Type} {O : Num.FOps F} := @Warm.rsi_pad_warm F O (ramp 20) 3 _ ltac:(met).
Example cmo_warm_case {F : Type} {O : Num.FOps F} := @Warm.cmo_warm F O (ramp 20) 3 _ ltac:(met).
Example wpr_warm_case {F : Type} {O : Num.FOps F} := @Warm.wpr_warm F O (ramp 20) (ramp 20) (ramp 20) 3 _ ltac:(met).
Example pmo_warm_case {F : Type} {O : Num.FOps F} := @Warm.pmo_warm F O (ramp 20) 3 3 _ ltac:(met).
Example ultimate_warm_case {F : Type} {O : Num.FOps F} := @Warm.ultimate_warm F O (ramp 20) (ramp 20) (ramp 20) 3 3 3 _ ltac:(met).
Example si_warm_case {F : Type} {O : Num.FOps F} := @Warm.si_warm F O (ramp 20) (ramp 20) (ramp 20) (ramp 20) (Num.flit 1 1) _ ltac:(met).
Example stoch_warm_case {F : Type} {O : Num.FOps F} := @Warm.stoch_warm F O (ramp 20) (ramp 20) (ramp 20) 3 3 _ ltac:(met).
Example stochastic_warm_case {F : Type} {O : Num.FOps F} := @Warm.stochastic_warm F O (ramp 20) (ramp 20) (ramp 20) 3 _ ltac:(met).
Example kdj_warm_case {F : Type} {O : Num.FOps F} := @Warm.kdj_warm F O (ramp 20) (ramp 20) (ramp 20) 15 3 None None _ ltac:(met).
Example rainbow_warm_case {F : Type} {O : Num.FOps F} := @Warm.rainbow_warm F O (ramp 20) 3 15 _ ltac:(met).
Example coppock_warm_case {F : Type} {O : Num.FOps F} := @Warm.coppock_warm F O (ramp 20) 3 3 3 _ ltac:(met).
Example roc_warm_case {F : Type} {O : Num.FOps F} := @Warm.roc_warm F O (ramp 20) 3 _ ltac:(met).
Example bal_power_warm_case {F : Type} {O : Num.FOps F} := @Warm.bal_power_warm F O (ramp 20) (ramp 20) (ramp 20) (ramp 20) 3 _ ltac:(met).
Example qstick_warm_case {F : Type} {O : Num.FOps F} := @Warm.qstick_warm F O (ramp 20) (ramp 20) 3 _ ltac:(met).
Example cog_warm_case {F : Type} {O : Num.FOps F} := @Warm.cog_warm F O (ramp 20) 3 _ ltac:(met).
Example psych_warm_case {F : Type} {O : Num.FOps F} := @Warm.psych_warm F O (ramp 20) 3 _ ltac:(met).
Example special_k_warm_case {F : Type} {O : Num.FOps F} := @Warm.special_k_warm F O (ramp 20) _ ltac:(met).
Example kst_warm_case {F : Type} {O : Num.FOps F} := @Warm.kst_warm F O (ramp 20) 3 3 3 3 3 3 3 3 _ ltac:(met).
Example cci_warm_case {F : Type} {O : Num.FOps F} := @Warm.cci_warm F O (ramp 20) (ramp 20) (ramp 20) 3 _ ltac:(met).
Example dema_warm_case {F : Type} {FO : Num.FOps F} {N : NaN.FNan FO} := @Warm.dema_warm F FO N (ramp 20) 3 _ ltac:(met).
Example tema_warm_case {F : Type} {FO : Num.FOps F} {N : NaN.FNan FO} := @Warm.tema_warm F FO N (ramp 20) 3 _ ltac:(met).
Example trima_warm_case {F : Type} {FO : Num.FOps F} {N : NaN.FNan FO} := @Warm.trima_warm F FO N (ramp 20) 3 _ ltac:(met).
Example rsq_warm_case {F : Type} {FO : Num.FOps F} {N : NaN.FNan FO} := @Warm.rsq_warm F FO N (ramp 20) (ramp 20) 3 _ ltac:(met).
Example perf_warm_case {F : Type} {FO : Num.FOps F} {N : NaN.FNan FO} := @Warm.perf_warm F FO N (ramp 20) (ramp 20) 3 _ ltac:(met).
Example kvo_warm_case {F : Type} {FO : Num.FOps F} {N : NaN.FNan FO} := @Warm.kvo_warm F FO N (ramp 20) (ramp 20) (ramp 20) (ramp 20) 3 3 None _ ltac:(met).
Example mass_warm_case {F : Type} {FO : Num.FOps F} {N : NaN.FNan FO} := @Warm.mass_warm F FO N (ramp 20) (ramp 20) 3 3 _ ltac:(met).
Example keltner_warm_case {F : Type} {FO : Num.FOps F} {N : NaN.FNan FO} := @Warm.keltner_warm F FO N (ramp 20) (ramp 20) (ramp 20) 3 _ ltac:(met).
Example vstd_dev_warm_case {F : Type} {FO : Num.FOps F} {N : NaN.FNan FO} := @Warm.vstd_dev_warm F FO N (ramp 20) 3 None _ ltac:(met).
Example bbands_warm_case {F : Type} {FO : Num.FOps F} {N : NaN.FNan FO} := @Warm.bbands_warm F FO N (ramp 20) 3 None None _ ltac:(met).
Example starc_warm_case {F : Type} {FO : Num.FOps F} {N : NaN.FNan FO} := @Warm.starc_warm F FO N (ramp 20) (ramp 20) (ramp 20) 3 3 None _ ltac:(met).
Example cvi_warm_case {F : Type} {FO : Num.FOps F} {N : NaN.FNan FO} := @Warm.cvi_warm F FO N (ramp 20) (ramp 20) 3 3 _ ltac:(met).
Example relative_vol_warm_case {F : Type} {FO : Num.FOps F} {N : NaN.FNan FO} := @Warm.relative_vol_warm F FO N (ramp 20) 3 3 _ ltac:(met).
Example inertia_warm_case {F : Type} {FO : Num.FOps F} {N : NaN.FNan FO} := @Warm.inertia_warm F FO N (ramp 20) 3 3 _ ltac:(met).
Example rsi_warm_case {F : Type} {FO : Num.FOps F} {N : NaN.FNan FO} := @Warm.rsi_warm F FO N (ramp 20) 3 _ ltac:(met).
Example crsi_warm_case {F : Type} {FO : Num.FOps F} {N : NaN.FNan FO} := @Warm.crsi_warm F FO N (ramp 6) 3 3 15 _ ltac:(met).
Example macd_warm_case {F : Type} {FO : Num.FOps F} {N : NaN.FNan FO} := @Warm.macd_warm F FO N (ramp 20) 3 3 _ ltac:(met).
Example ppo_warm_case {F : Type} {FO : Num.FOps F} {N : NaN.FNan FO} := @Warm.ppo_warm F FO N (ramp 20) 3 3 _ ltac:(met).
Example apo_warm_case {F : Type} {FO : Num.FOps F} {N : NaN.FNan FO} := @Warm.apo_warm F FO N (ramp 20) 3 3 _ ltac:(met).
Example cfo_warm_case {F : Type} {FO : Num.FOps F} {N : NaN.FNan FO} := @Warm.cfo_warm F FO N (ramp 20) 3 _ ltac:(met).
Example elder_ray_warm_case {F : Type} {FO : Num.FOps F} {N : NaN.FNan FO} := @Warm.elder_ray_warm F FO N (ramp 20) (ramp 20) (ramp 20) 3 _ ltac:(met).
Example pgo_warm_case {F : Type} {FO : Num.FOps F} {N : NaN.FNan FO} := @Warm.pgo_warm F FO N (ramp 20) (ramp 20) (ramp 20) 3 _ ltac:(met).
Example trix_warm_case {F : Type} {FO : Num.FOps F} {N : NaN.FNan FO} := @Warm.trix_warm F FO N (ramp 20) 3 _ ltac:(met).
Example relative_vigor_warm_case {F : Type} {FO : Num.FOps F} {N : NaN.FNan FO} := @Warm.relative_vigor_warm F FO N (ramp 20) (ramp 20) (ramp 20) (ramp 20) 3 _ ltac:(met).
Example disparity_warm_case {F : Type} {FO : Num.FOps F} {N : NaN.FNan FO} := @Warm.disparity_warm F FO N (ramp 20) 3 _ ltac:(met).
Example tsi_warm_case {F : Type} {FO : Num.FOps F} {N : NaN.FNan FO} := @Warm.tsi_warm F FO N (ramp 20) 3 3 _ ltac:(met).
Example derivative_warm_case {F : Type} {FO : Num.FOps F} {N : NaN.FNan FO} := @Warm.derivative_warm F FO N (ramp 20) 3 3 3 _ ltac:(met).
Example deli_warm_case {F : Type} {FO : Num.FOps F} {N : NaN.FNan FO} := @Warm.deli_warm F FO N (ramp 20) (ramp 20) 3 _ ltac:(met).
Example gator_warm_case {F : Type} {FO : Num.FOps F} {N : NaN.FNan FO} := @Warm.gator_warm F FO N (ramp 20) 3 3 3 3 3 3 _ ltac:(met).
Example kdj_j_warm_case {F : Type} {FO : Num.FOps F} {N : NaN.FNan FO} := @Warm.kdj_j_warm F FO N (ramp 20) (ramp 20) (ramp 20) 15 3 None None _ ltac:(met).
Example adx_warm_case {F : Type} {FO : Num.FOps F} {N : NaN.FNan FO} := @Warm.adx_warm F FO N (ramp 20) (ramp 20) (ramp 20) 3 3 _ ltac:(met).
Example ulcer_warm_case {F : Type} {FO : Num.FOps F} {N : NaN.FNan FO} := @Warm.ulcer_warm F FO N (ramp 20) 3 _ ltac:(met).
Example supertrend_warm_case {F : Type} {FO : Num.FOps F} {N : NaN.FNan FO} := @Warm.supertrend_warm F FO N (ramp 20) (ramp 20) (ramp 20) 3 (Num.flit 1 1) _ ltac:(met).
Example ichimoku_warm_case {F : Type} {FO : Num.FOps F} {N : NaN.FNan FO} := @Warm.ichimoku_warm F FO N (ramp 20) (ramp 20) (ramp 20) 3 3 3 3 _ ltac:(met).
Example tii_warm_case := @Warm.tii_warm (@ramp _ XReal.XR 20) 3 _ ltac:(met).
Example tii_warm_f64_case {m : B64.libm} := @Warm.tii_warm_f64 m (@ramp _ (B64.B64 m) 20) 3 _ ltac:(met).

(** ** [Local] *)
Example trima_windowed_case {F : Type} {FO : Num.FOps F} := @Local.trima_windowed F FO 3 ltac:(met).
Example perf_windowed_case {F : Type} {FO : Num.FOps F} := @Local.perf_windowed F FO 3 ltac:(met).
Example ease_windowed_case {F : Type} {FO : Num.FOps F} := @Local.ease_windowed F FO 3 ltac:(met).
Example typical_windowed_case {F : Type} {FO : Num.FOps F} := @Local.typical_windowed F FO 3 ltac:(met).
Example cfo_windowed_case {F : Type} {FO : Num.FOps F} := @Local.cfo_windowed F FO 3 ltac:(met).
Example tii_windowed_case {F : Type} {FO : Num.FOps F} := @Local.tii_windowed F FO 3 ltac:(met).
Example stochastic_windowed_case {F : Type} {FO : Num.FOps F} := @Local.stochastic_windowed F FO 3 ltac:(met).
Example relative_vigor_windowed_case {F : Type} {FO : Num.FOps F} := @Local.relative_vigor_windowed F FO 3 ltac:(met).
Example coppock_windowed_case {F : Type} {FO : Num.FOps F} := @Local.coppock_windowed F FO 3 3 3 ltac:(met) ltac:(met).

(** ** [Panics] *)
Example mse_causal_case {F : Type} {FO : Num.FOps F} := @Panics.mse_causal F FO (ramp 20) (ramp 30) (ramp 20) (ramp 30) ltac:(met) ltac:(met).
Example rmse_causal_case {F : Type} {FO : Num.FOps F} := @Panics.rmse_causal F FO (ramp 20) (ramp 30) (ramp 20) (ramp 30) ltac:(met) ltac:(met).
Example mae_causal_case {F : Type} {FO : Num.FOps F} := @Panics.mae_causal F FO (ramp 20) (ramp 30) (ramp 20) (ramp 30) ltac:(met) ltac:(met).
Example mape_causal_case {F : Type} {FO : Num.FOps F} := @Panics.mape_causal F FO (ramp 20) (ramp 30) (ramp 20) (ramp 30) ltac:(met) ltac:(met).
Example smape_causal_case {F : Type} {FO : Num.FOps F} := @Panics.smape_causal F FO (ramp 20) (ramp 30) (ramp 20) (ramp 30) ltac:(met) ltac:(met).
Example displaced_causal_case {F : Type} {FO : Num.FOps F} := @Panics.displaced_causal F FO (ramp 20) (ramp 30) 3 3 3 15 _ ltac:(met) ltac:(met) ltac:(met).
Example alligator_causal_case {F : Type} {FO : Num.FOps F} := @Panics.alligator_causal F FO (ramp 20) (ramp 30) 3 3 3 3 3 3 _ ltac:(met) ltac:(met).
Example gator_causal_case {F : Type} {FO : Num.FOps F} := @Panics.gator_causal F FO (ramp 20) (ramp 30) 3 3 3 3 3 3 _ ltac:(met) ltac:(met).
Example ichimoku_causal_case {F : Type} {FO : Num.FOps F} := @Panics.ichimoku_causal F FO (ramp 20) (ramp 30) (ramp 20) (ramp 30) (ramp 20) (ramp 20) 3 3 3 3 _ _ ltac:(met) ltac:(met) ltac:(met) ltac:(met) 15 _ _ ltac:(met) ltac:(met) ltac:(met).

(** ** [Mama] *)
Example mama_gain_case := @Mama.mama_gain closes 20 None None ltac:(met).

(** ** [Ranges] *)
Example std_dev_least_case := @Ranges.std_dev_least (quotes 20) 3 _ ltac:(met) ltac:(met).
Example mad_least_case := @Ranges.mad_least (quotes 20) 3 _ ltac:(met) ltac:(met).
Example pcc_ranged_case := @Ranges.pcc_ranged (quotes 20) (quotes 20) 3 _ ltac:(met) ltac:(met).
Example rsq_ranged_case := @Ranges.rsq_ranged (quotes 20) (quotes 20) 3 _ ltac:(met) ltac:(met).
Example pcc_affine_case := @Ranges.pcc_affine (quotes 20) (quotes 20) 3 1%R 1%R ltac:(met).
Example pcc_self_case := @Ranges.pcc_self (quotes 20) 3 1%R 1%R ltac:(met) ltac:(met).
Example pcc_negate_case := @Ranges.pcc_negate (quotes 20) (quotes 20) 3 ltac:(met).
Example krcc_ranged_case := @Ranges.krcc_ranged (quotes 20) (quotes 20) 3 _ ltac:(met) ltac:(met) ltac:(met) ltac:(met) ltac:(met).
Example dcor_ranged_case := @Ranges.dcor_ranged (quotes 20) (quotes 20) 3 _ ltac:(met) ltac:(met).
Example dcor_self_case := @Ranges.dcor_self (quotes 20) 3 ltac:(met).
Example mfi_ranged_case := @Ranges.mfi_ranged highs lows closes volumes 20 3 _ ltac:(met) ltac:(met) ltac:(met) ltac:(met).
Example atr_least_case := @Ranges.atr_least highs lows closes 20 3 _ ltac:(met) ltac:(met) ltac:(met).
Example relative_vol_ranged_case := @Ranges.relative_vol_ranged closes 20 3 3 _ ltac:(met) ltac:(met) ltac:(met) ltac:(met).
Example rsi_ranged_case := @Ranges.rsi_ranged closes 20 3 _ ltac:(met) ltac:(met).
Example cmo_ranged_case := @Ranges.cmo_ranged closes 20 3 _ ltac:(met) ltac:(met).
Example wpr_ranged_case := @Ranges.wpr_ranged highs lows closes 20 3 _ ltac:(met) ltac:(met) ltac:(met) ltac:(met).
Example psych_ranged_case := @Ranges.psych_ranged closes 20 3 _ ltac:(met) ltac:(met).
Example bal_power_ranged_case := @Ranges.bal_power_ranged opens highs lows closes 20 3 _ ltac:(met) ltac:(met) ltac:(met).
Example aroon_ranged_case := @Ranges.aroon_ranged highs lows 20 3 _ ltac:(met) ltac:(met).
Example cog_ranged_case := @Ranges.cog_ranged closes 20 3 _ ltac:(met) ltac:(met) ltac:(met).
Example supertrend_trails_case := @Ranges.supertrend_trails highs lows closes 20 3 1%R ltac:(met) ltac:(met).
Example atr_stop_trails_case := @Ranges.atr_stop_trails highs lows closes 20 3 None ltac:(met) ltac:(met) ltac:(met).
Example decay_follows_case := @Ranges.decay_follows closes 20 3 ltac:(met).
Example cmf_ranged_case := @Ranges.cmf_ranged highs lows closes volumes 20 3 _ ltac:(meet) ltac:(meet) ltac:(meet) ltac:(meet).
Example chop_least_case := @Ranges.chop_least highs lows closes 20 3 _ ltac:(meet) ltac:(meet) ltac:(meet) ltac:(meet) ltac:(meet).
Example stochastic_ranged_case := @Ranges.stochastic_ranged highs lows closes 20 3 _ ltac:(meet) ltac:(meet) ltac:(meet) ltac:(meet) ltac:(meet).
Example kdj_ranged_case := @Ranges.kdj_ranged highs lows closes 20 3 3 None None _ ltac:(meet) ltac:(meet) ltac:(meet) ltac:(meet) ltac:(meet) ltac:(meet).
Example ultimate_ranged_case := @Ranges.ultimate_ranged highs lows closes 20 3 3 3 _ ltac:(meet) ltac:(meet) ltac:(meet) ltac:(meet) ltac:(meet) ltac:(meet).
Example vortex_least_case := @Ranges.vortex_least highs lows closes 20 3 _ ltac:(meet) ltac:(meet) ltac:(meet) ltac:(meet) ltac:(meet).
