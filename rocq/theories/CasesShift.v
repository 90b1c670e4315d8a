(** * The shift theorems applied to a rising market of thirty bars, quoted nine
    points higher. *)
From Coq Require Import Reals Lra Lia.
From Verif Require Import Base Num XReal Spec RSpec XRFacts Bars VolatReal MomReal TrendReal OrderStat Scale Shift ShiftRel ShiftStat ShiftVals Case.
From Verif Require Import Correlation Regression Volume Volatility Trend Momentum Distribution Smooth.
Local Unset Implicit Arguments.
Local Open Scope R_scope.

Ltac hyp := first [reflexivity | lia | lra].
Lemma f64_big : 1000000 <= max_f64.
Proof. unfold max_f64. apply IZR_le. now vm_compute. Qed.
Lemma thirty k : (k < 30)%nat -> 0 <= INR k <= 30.
Proof. intros H. split; [apply pos_INR|]. change 30 with (IZR (Z.of_nat 30)). rewrite <- INR_IZR_INZ. apply le_INR. lia. Qed.
Lemma quoted f n : (forall k, (k < n)%nat -> 0 <= f k <= 1000000) -> Forall quotation (xseries f n).
Proof.
  intros H. apply Forall_forall. intros x Hx. unfold xseries, series in Hx. apply in_map_iff in Hx as (k & <- & Hk). apply in_seq in Hk.
  exists (f k). split; [easy|]. pose proof f64_big as L. specialize (H k ltac:(lia)). lra.
Qed.
Lemma quoted_within l : Forall quotation l -> Forall within l.
Proof.
  apply Forall_impl. intros x (r & -> & H). exists r. split; [easy|]. fold max_f64. lra.
Qed.
Ltac quoted := rewrite ?shifted_xseries; apply quoted; intros k Hk; apply thirty in Hk; unfold highs, lows, opens, closes, volumes; destruct (Nat.even k); lra.

Example sma_shift_case := sma_shift 9 (xseries closes 30) 3%nat.
Example ewma_shift_case := ewma_shift 9 (xseries closes 30) 3%nat.
Example wilder_shift_case := wilder_shift 9 (xseries closes 30) 3%nat.
Example wma_shift_case := wma_shift 9 (xseries closes 30) 3%nat.
Example pwma_shift_case := pwma_shift 9 (xseries closes 30) 3%nat.
Example fwma_shift_case := fwma_shift 9 (xseries closes 30) 3%nat.
Example dema_shift_case := dema_shift 9 (xseries closes 30) 3%nat.
Example tema_shift_case := tema_shift 9 (xseries closes 30) 3%nat.
Example hull_shift_case := hull_shift 9 (xseries closes 30) 3%nat.
Example trima_shift_case := trima_shift 9 (xseries closes 30) 3%nat.
Example zlma_shift_case := zlma_shift 9 (xseries closes 30) 3%nat.
Example lrf_shift_case := lrf_shift 9 (xseries closes 30) 3%nat.
Example ma_shift_case := ma_shift 9 (xseries closes 30) 3%nat Hull ltac:(hyp).
Example t3_shift_case := t3_shift 9 (xseries closes 30) 3%nat None.
Example hwma_shift_case := hwma_shift 9 (xseries closes 30) None None None.
Example ssf_shift_case := ssf_shift 9 (xseries closes 30) 3%nat None ltac:(hyp).
Example kernel_shift_case := kernel_shift 9 (xseries closes 30) 2 ltac:(hyp).
Example alma_shift_case := alma_shift 9 (xseries closes 30) 3%nat 2 None ltac:(hyp).
Example variance_any_shift_case := variance_any_shift 9 (xseries closes 30) 3%nat.
Example std_dev_shift_case := std_dev_shift 9 (xseries closes 30) 3%nat.
Example zscore_shift_case := zscore_shift 9 (xseries closes 30) 3%nat.
Example mad_shift_case := mad_shift 9 (xseries closes 30) 3%nat.
Example kurtosis_shift_case := kurtosis_shift 9 (xseries closes 30) 3%nat.
Example skew_shift_case := skew_shift 9 (xseries closes 30) 3%nat.
Example quantile_shift_case := quantile_shift 9 (xseries closes 30) 3%nat 30.
Example median_shift_case := median_shift 9 (xseries closes 30) 3%nat.
Example approx_entropy_shift_case := approx_entropy_shift 9 (xseries closes 30) 3%nat None None.
Example sample_entropy_shift_case := sample_entropy_shift 9 (xseries closes 30) 3%nat None None.
Example mse_shift_case := mse_shift 9 (xseries closes 30) (xseries highs 30).
Example rmse_shift_case := rmse_shift 9 (xseries closes 30) (xseries highs 30).
Example mae_shift_case := mae_shift 9 (xseries closes 30) (xseries highs 30).
Example mda_shift_case := mda_shift 9 (xseries closes 30) (xseries highs 30).
Example mase_shift_case := mase_shift 9 (xseries closes 30) (xseries highs 30).
Example mass_shift_case := mass_shift 9 (xseries highs 30) (xseries lows 30) 3%nat 3%nat.
Example gri_shift_case := gri_shift 9 (xseries highs 30) (xseries lows 30) 3%nat.
Example tr_shift_case := tr_shift 9 (xseries highs 30) (xseries lows 30) (xseries closes 30).
Example atr_shift_case := atr_shift 9 (xseries highs 30) (xseries lows 30) (xseries closes 30) 3%nat.
Example keltner_shift_case := keltner_shift 9 (xseries highs 30) (xseries lows 30) (xseries closes 30) 3%nat.
Example typical_shift_case := typical_shift 9 (xseries highs 30) (xseries lows 30) (xseries closes 30) 3%nat.
Example vstd_dev_shift_case := vstd_dev_shift 9 (xseries closes 30) 3%nat None.
Example bbands_shift_case := bbands_shift 9 (xseries closes 30) 3%nat None None ltac:(hyp).
Example donchian_shift_case := donchian_shift 9 (xseries highs 30) (xseries lows 30) 3%nat.
Example starc_shift_case := starc_shift 9 (xseries highs 30) (xseries lows 30) (xseries closes 30) 3%nat 3%nat None.
Example cvi_shift_case := cvi_shift 9 (xseries highs 30) (xseries lows 30) 3%nat 3%nat.
Example relative_vol_shift_case := relative_vol_shift 9 (xseries closes 30) 3%nat 3%nat.
Example inertia_shift_case := inertia_shift 9 (xseries closes 30) 3%nat 3%nat.
Example chop_shift_case := chop_shift 9 (xseries highs 30) (xseries lows 30) (xseries closes 30) 3%nat.
Example vhf_shift_case := vhf_shift 9 (xseries highs 30) (xseries lows 30) (xseries closes 30) 3%nat.
Example heikin_ashi_shift_case := heikin_ashi_shift 9 (xseries opens 30) (xseries highs 30) (xseries lows 30) (xseries closes 30).
Example wcp_shift_case := wcp_shift 9 (xseries highs 30) (xseries lows 30) (xseries closes 30).
Example kvo_shift_case := kvo_shift 9 (xseries highs 30) (xseries lows 30) (xseries closes 30) (xseries volumes 30) 3%nat 3%nat None.
Example twiggs_shift_case := twiggs_shift 9 (xseries highs 30) (xseries lows 30) (xseries closes 30) (xseries volumes 30) 3%nat.
Example ad_shift_case := ad_shift 9 (xseries highs 30) (xseries lows 30) (xseries closes 30) (xseries volumes 30) None.
Example elder_force_shift_case := elder_force_shift 9 (xseries closes 30) (xseries volumes 30) 3%nat.
Example cmf_shift_case := cmf_shift 9 (xseries highs 30) (xseries lows 30) (xseries closes 30) (xseries volumes 30) 3%nat.
Example tvi_shift_case := tvi_shift 9 (xseries closes 30) (xseries volumes 30) (Fin 3).
Example ease_shift_case := ease_shift 9 (xseries highs 30) (xseries lows 30) (xseries volumes 30) 3%nat.
Example obv_shift_case := obv_shift 9 (xseries closes 30) (xseries volumes 30).
Example bw_mfi_shift_case := bw_mfi_shift 9 (xseries highs 30) (xseries lows 30) (xseries volumes 30).
Example vwap_shift_case := vwap_shift 9 (xseries highs 30) (xseries lows 30) (xseries closes 30) (map volumes (seq 0 30)) None.
Example vwma_shift_case := vwma_shift 9 (xseries closes 30) (map volumes (seq 0 30)) 3%nat.
Example shinohara_shift_case := shinohara_shift 9 (xseries highs 30) (xseries lows 30) (xseries closes 30) 3%nat.
Example adx_shift_case := adx_shift 9 (xseries highs 30) (xseries lows 30) (xseries closes 30) 3%nat 3%nat.
Example vortex_shift_case := vortex_shift 9 (xseries highs 30) (xseries lows 30) (xseries closes 30) 3%nat.
Example asi_shift_case := asi_shift 9 (xseries opens 30) (xseries highs 30) (xseries lows 30) (xseries closes 30) (Fin 3).
Example rwi_shift_case := rwi_shift 9 (xseries highs 30) (xseries lows 30) (xseries closes 30) 3%nat.
Example psar_shift_case := psar_shift 9 (xseries highs 30) (xseries lows 30) None None.
Example dpo_shift_case := dpo_shift 9 (xseries closes 30) 3%nat None ltac:(hyp).
Example aroon_shift_case := aroon_shift 9 (xseries highs 30) (xseries lows 30) 3%nat.
Example chandelier_shift_case := chandelier_shift 9 (xseries highs 30) (xseries lows 30) (xseries closes 30) 3%nat None.
Example alligator_shift_case := alligator_shift 9 (xseries closes 30) 3%nat 3%nat 3%nat 3%nat 3%nat 3%nat.
Example ichimoku_shift_case := ichimoku_shift 9 (xseries highs 30) (xseries lows 30) (xseries closes 30) 3%nat 3%nat 3%nat 3%nat.
Example supertrend_shift_case := supertrend_shift 9 (xseries highs 30) (xseries lows 30) (xseries closes 30) 3%nat (Fin 3).
Example hurst_shift_case := hurst_shift 9 3%nat (xseries closes 30) 3%nat None.
Example rsi_shift_case := rsi_shift 9 (xseries closes 30) 3%nat.
Example macd_shift_case := macd_shift 9 (xseries closes 30) 3%nat 3%nat.
Example apo_shift_case := apo_shift 9 (xseries closes 30) 3%nat 3%nat.
Example cmo_shift_case := cmo_shift 9 (xseries closes 30) 3%nat.
Example elder_ray_shift_case := elder_ray_shift 9 (xseries highs 30) (xseries lows 30) (xseries closes 30) 3%nat.
Example wpr_shift_case := wpr_shift 9 (xseries highs 30) (xseries lows 30) (xseries closes 30) 3%nat.
Example ultimate_shift_case := ultimate_shift 9 (xseries highs 30) (xseries lows 30) (xseries closes 30) 3%nat 3%nat 3%nat.
Example pgo_shift_case := pgo_shift 9 (xseries highs 30) (xseries lows 30) (xseries closes 30) 3%nat.
Example si_shift_case := si_shift 9 (xseries opens 30) (xseries highs 30) (xseries lows 30) (xseries closes 30) (Fin 3).
Example tii_shift_case := tii_shift 9 (xseries closes 30) 3%nat.
Example stochastic_shift_case := stochastic_shift 9 (xseries highs 30) (xseries lows 30) (xseries closes 30) 3%nat.
Example stc_shift_case := stc_shift 9 (xseries closes 30) 3%nat 3%nat 3%nat.
Example relative_vigor_shift_case := relative_vigor_shift 9 (xseries opens 30) (xseries highs 30) (xseries lows 30) (xseries closes 30) 3%nat.
Example bal_power_shift_case := bal_power_shift 9 (xseries opens 30) (xseries highs 30) (xseries lows 30) (xseries closes 30) 3%nat.
Example qstick_shift_case := qstick_shift 9 (xseries opens 30) (xseries closes 30) 3%nat.
Example psych_shift_case := psych_shift 9 (xseries closes 30) 3%nat.
Example tsi_shift_case := tsi_shift 9 (xseries closes 30) 3%nat 3%nat.
Example derivative_shift_case := derivative_shift 9 (xseries closes 30) 3%nat 3%nat 3%nat.
Example cci_shift_case := cci_shift 9 (xseries highs 30) (xseries lows 30) (xseries closes 30) 3%nat.
Example qqe_shift_case := qqe_shift 9 (xseries closes 30) 3%nat 3%nat.
Example deli_shift_case := deli_shift 9 (xseries highs 30) (xseries lows 30) 3%nat.
Example gator_shift_case := gator_shift 9 (xseries closes 30) 3%nat 3%nat 3%nat 3%nat 3%nat 3%nat.
Example kdj_shift_case := kdj_shift 9 (xseries highs 30) (xseries lows 30) (xseries closes 30) 3%nat 3%nat None None.
Example pcc_shift_case := pcc_shift 9 (-4) (xseries closes 30) (xseries highs 30) 3%nat.
Example rsq_shift_case := rsq_shift 9 (-4) (xseries closes 30) (xseries highs 30) 3%nat.
Example krcc_shift_case := krcc_shift 9 (-4) (xseries closes 30) (xseries highs 30) 3%nat.
Example dcor_shift_case := dcor_shift 9 (-4) (xseries closes 30) (xseries highs 30) 3%nat.
Example rank_shift_case m := rank_shift 9 stable_argsort (xseries closes 30) m stable_argsort_shift_blind.
Example srcc_shift_case := srcc_shift 9 (-4) stable_argsort (xseries closes 30) (xseries highs 30) 5%nat stable_argsort_shift_blind.
Example hoeffd_shift_case := hoeffd_shift 9 (-4) stable_argsort (xseries closes 30) (xseries highs 30) 5%nat stable_argsort_shift_blind.
Example mic_shift_case ord := mic_shift 9 (-4) ord (xseries closes 30) (xseries highs 30) 5%nat
  ltac:(apply quoted_within; quoted) ltac:(apply quoted_within; quoted) ltac:(apply quoted_within; quoted) ltac:(apply quoted_within; quoted).
Example fisher_shift_case := fisher_shift 9 (xseries highs 30) (xseries lows 30) 4%nat ltac:(quoted) ltac:(quoted) ltac:(quoted) ltac:(quoted).
Example decay_shift_case := decay_shift 9 (xseries closes 30) 4%nat ltac:(quoted) ltac:(quoted).
