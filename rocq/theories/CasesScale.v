(** * The unit theorems applied to a rising market of thirty bars, quoted in a
    unit a hundred times smaller, with volumes in a unit a thousand times smaller. *)
From Coq Require Import Reals Lra Lia.
From Verif Require Import Spec XReal RSpec XRFacts Bars VolatReal MomReal TrendReal OrderStat Scale ScaleVals Case.
From Verif Require Import Correlation Volume Volatility Trend Momentum Distribution Smooth.
Local Unset Implicit Arguments.
Local Open Scope R_scope.

Lemma f64_large : 1000000 <= IZR (2 ^ 1024 - 2 ^ 971).
Proof. apply IZR_le. now vm_compute. Qed.
Lemma range_series f n b : (forall k, (k < n)%nat -> - b <= f k <= b) -> b <= 1000000 -> Forall f64_range (xseries f n).
Proof.
  intros H Hb. apply Forall_forall. intros x Hx. unfold xseries, series in Hx. apply in_map_iff in Hx as (k & <- & Hk). apply in_seq in Hk.
  exists (f k). split; [easy|]. pose proof f64_large as L. revert L. generalize (IZR (2 ^ 1024 - 2 ^ 971)). intros M L. specialize (H k). lra || (specialize (H ltac:(lia)); lra).
Qed.
Lemma bars_le k : (k < 30)%nat -> 0 <= INR k <= 30.
Proof. intros H. split; [apply pos_INR|]. change 30 with (IZR (Z.of_nat 30)). rewrite <- INR_IZR_INZ. apply le_INR. lia. Qed.
Ltac ranged := rewrite ?scaled_xseries; apply (range_series _ 30 1000000); [|lra]; intros k Hk; apply bars_le in Hk;
  unfold closes, volumes; try destruct (Nat.even k); lra.

Example ewma_scale_case := ewma_scale 100 (xseries closes 30) 3%nat ltac:(met).
Example sma_scale_case := sma_scale 100 (xseries closes 30) 3%nat ltac:(met).
Example wilder_scale_case := wilder_scale 100 (xseries closes 30) 3%nat ltac:(met).
Example std_dev_scale_case := std_dev_scale 100 (xseries closes 30) 3%nat ltac:(met).
Example dema_scale_case := dema_scale 100 (xseries closes 30) 3%nat ltac:(met).
Example tema_scale_case := tema_scale 100 (xseries closes 30) 3%nat ltac:(met).
Example wma_scale_case := wma_scale 100 (xseries closes 30) 3%nat ltac:(met).
Example pwma_scale_case := pwma_scale 100 (xseries closes 30) 3%nat ltac:(met).
Example hull_scale_case := hull_scale 100 (xseries closes 30) 3%nat ltac:(met).
Example lrf_scale_case := lrf_scale 100 (xseries closes 30) 3%nat ltac:(met).
Example trima_scale_case := trima_scale 100 (xseries closes 30) 3%nat ltac:(met).
Example zlma_scale_case := zlma_scale 100 (xseries closes 30) 3%nat ltac:(met).
Example vidya_scale_case := vidya_scale 100 (xseries closes 30) 3%nat ltac:(met).
Example vma_scale_case := vma_scale 100 (xseries closes 30) 3%nat ltac:(met).
Example ma_scale_case := ma_scale 100 (xseries closes 30) 3%nat WMA ltac:(met).
Example kernel_scale_case := kernel_scale 100 (xseries closes 30) (Fin 2) ltac:(met).
Example kama_scale_case := kama_scale 100 (xseries closes 30) 3%nat None None ltac:(met).
Example alma_scale_case := alma_scale 100 (xseries closes 30) 3%nat (Fin 2) None ltac:(met).
Example mdma_scale_case := mdma_scale 100 (xseries closes 30) 3%nat ltac:(met).
Example hwma_scale_case := hwma_scale 100 (xseries closes 30) None None None ltac:(met).
Example fwma_scale_case := fwma_scale 100 (xseries closes 30) 3%nat ltac:(met).
Example ssf_scale_case := ssf_scale 100 (xseries closes 30) 3%nat None ltac:(met).
Example t3_scale_case := t3_scale 100 (xseries closes 30) 3%nat None ltac:(met).
Example variance_scale_case := variance_scale 100 (xseries closes 30) 3%nat ltac:(met).
Example mad_scale_case := mad_scale 100 (xseries closes 30) 3%nat ltac:(met).
Example zscore_scale_case := zscore_scale 100 (xseries closes 30) 3%nat ltac:(met).
Example cv_scale_case := cv_scale 100 (xseries closes 30) 3%nat ltac:(met).
Example kurtosis_scale_case := kurtosis_scale 100 (xseries closes 30) 3%nat ltac:(met).
Example tr_scale_case := tr_scale 100 (xseries highs 30) (xseries lows 30) (xseries closes 30) ltac:(met).
Example atr_scale_case := atr_scale 100 (xseries highs 30) (xseries lows 30) (xseries closes 30) 3%nat ltac:(met).
Example mass_scale_case := mass_scale 100 (xseries highs 30) (xseries lows 30) 3%nat 5%nat ltac:(met).
Example keltner_scale_case := keltner_scale 100 (xseries highs 30) (xseries lows 30) (xseries closes 30) 3%nat ltac:(met).
Example typical_scale_case := typical_scale 100 (xseries highs 30) (xseries lows 30) (xseries closes 30) 3%nat ltac:(met).
Example vstd_dev_scale_case := vstd_dev_scale 100 (xseries closes 30) 3%nat None ltac:(met).
Example bbands_scale_case := bbands_scale 100 (xseries closes 30) 3%nat None None ltac:(met).
Example donchian_scale_case := donchian_scale 100 (xseries highs 30) (xseries lows 30) 3%nat ltac:(met).
Example fbands_scale_case := fbands_scale 100 (xseries highs 30) (xseries lows 30) ltac:(met).
Example hv_scale_case := hv_scale 100 (xseries closes 30) 3%nat None ltac:(met).
Example starc_scale_case := starc_scale 100 (xseries highs 30) (xseries lows 30) (xseries closes 30) 3%nat 5%nat None ltac:(met).
Example cvi_scale_case := cvi_scale 100 (xseries highs 30) (xseries lows 30) 3%nat 5%nat ltac:(met).
Example relative_vol_scale_case := relative_vol_scale 100 (xseries closes 30) 3%nat 5%nat ltac:(met).
Example inertia_scale_case := inertia_scale 100 (xseries closes 30) 3%nat 5%nat ltac:(met).
Example chop_scale_case := chop_scale 100 (xseries highs 30) (xseries lows 30) (xseries closes 30) 3%nat ltac:(met).
Example vhf_scale_case := vhf_scale 100 (xseries highs 30) (xseries lows 30) (xseries closes 30) 3%nat ltac:(met).
Example heikin_ashi_scale_case := heikin_ashi_scale 100 (xseries opens 30) (xseries highs 30) (xseries lows 30) (xseries closes 30) ltac:(met).
Example wcp_scale_case := wcp_scale 100 (xseries highs 30) (xseries lows 30) (xseries closes 30) ltac:(met).
Example cc_hv_scale_case := cc_hv_scale 100 (xseries closes 30) 3%nat ltac:(met).
Example gkyz_hv_scale_case := gkyz_hv_scale 100 (xseries opens 30) (xseries highs 30) (xseries lows 30) (xseries closes 30) 3%nat ltac:(met).
Example kvo_scale_case := kvo_scale 100 1000 (xseries highs 30) (xseries lows 30) (xseries closes 30) (xseries volumes 30) 3%nat 5%nat None ltac:(met) ltac:(met).
Example twiggs_scale_case := twiggs_scale 100 1000 (xseries highs 30) (xseries lows 30) (xseries closes 30) (xseries volumes 30) 3%nat ltac:(met) ltac:(met).
Example elder_force_scale_case := elder_force_scale 100 1000 (xseries closes 30) (xseries volumes 30) 3%nat ltac:(met) ltac:(met).
Example mfi_scale_case := mfi_scale 100 1000 (xseries highs 30) (xseries lows 30) (xseries closes 30) (xseries volumes 30) 3%nat ltac:(met) ltac:(met).
Example cmf_scale_case := cmf_scale 100 1000 (xseries highs 30) (xseries lows 30) (xseries closes 30) (xseries volumes 30) 3%nat ltac:(met) ltac:(met).
Example tvi_scale_case := tvi_scale 100 1000 (xseries closes 30) (xseries volumes 30) (Fin 2) ltac:(met) ltac:(met).
Example ease_scale_case := ease_scale 100 1000 (xseries highs 30) (xseries lows 30) (xseries volumes 30) 3%nat ltac:(met) ltac:(met).
Example obv_scale_case := obv_scale 100 1000 (xseries closes 30) (xseries volumes 30) ltac:(met) ltac:(met).
Example bw_mfi_scale_case := bw_mfi_scale 100 1000 (xseries highs 30) (xseries lows 30) (xseries volumes 30) ltac:(met) ltac:(met).
Example pvi_scale_case := pvi_scale 100 1000 (xseries closes 30) (xseries volumes 30) ltac:(met) ltac:(met).
Example nvi_scale_case := nvi_scale 100 1000 (xseries closes 30) (xseries volumes 30) ltac:(met) ltac:(met).
Example vwap_scale_case := vwap_scale 100 1000 (xseries highs 30) (xseries lows 30) (xseries closes 30) (xseries volumes 30) None ltac:(met) ltac:(met).
Example vwma_scale_case := vwma_scale 100 1000 (xseries closes 30) (xseries volumes 30) 3%nat ltac:(met) ltac:(met).
Example vpt_scale_case := vpt_scale 100 1000 (xseries closes 30) (xseries volumes 30) ltac:(met) ltac:(met).
Example mse_scale_case := mse_scale 100 (xseries closes 30) (xseries closes 30) ltac:(met).
Example rmse_scale_case := rmse_scale 100 (xseries closes 30) (xseries closes 30) ltac:(met).
Example mae_scale_case := mae_scale 100 (xseries closes 30) (xseries closes 30) ltac:(met).
Example mape_scale_case := mape_scale 100 (xseries closes 30) (xseries closes 30) ltac:(met).
Example smape_scale_case := smape_scale 100 (xseries closes 30) (xseries closes 30) ltac:(met).
Example mda_scale_case := mda_scale 100 (xseries closes 30) (xseries closes 30) ltac:(met).
Example mase_scale_case := mase_scale 100 (xseries closes 30) (xseries closes 30) ltac:(met).
Example emae_scale_case := emae_scale 100 (xseries closes 30) (xseries closes 30) ltac:(met).
Example shinohara_scale_case := shinohara_scale 100 (xseries highs 30) (xseries lows 30) (xseries closes 30) 3%nat ltac:(met).
Example adx_scale_case := adx_scale 100 (xseries highs 30) (xseries lows 30) (xseries closes 30) 3%nat 5%nat ltac:(met).
Example vortex_scale_case := vortex_scale 100 (xseries highs 30) (xseries lows 30) (xseries closes 30) 3%nat ltac:(met).
Example asi_scale_case := asi_scale 100 (xseries opens 30) (xseries highs 30) (xseries lows 30) (xseries closes 30) (Fin 2) ltac:(met).
Example ulcer_scale_case := ulcer_scale 100 (xseries closes 30) 3%nat ltac:(met).
Example rwi_scale_case := rwi_scale 100 (xseries highs 30) (xseries lows 30) (xseries closes 30) 3%nat ltac:(met).
Example psar_scale_case := psar_scale 100 (xseries highs 30) (xseries lows 30) None None ltac:(met).
Example dpo_scale_case := dpo_scale 100 (xseries closes 30) 3%nat None ltac:(met).
Example aroon_scale_case := aroon_scale 100 (xseries highs 30) (xseries lows 30) 3%nat ltac:(met).
Example chandelier_scale_case := chandelier_scale 100 (xseries highs 30) (xseries lows 30) (xseries closes 30) 3%nat None ltac:(met).
Example atr_stop_scale_case := atr_stop_scale 100 (xseries highs 30) (xseries lows 30) (xseries closes 30) 3%nat None ltac:(met).
Example alligator_scale_case := alligator_scale 100 (xseries closes 30) 3%nat 5%nat 7%nat 9%nat 11%nat 13%nat ltac:(met).
Example ichimoku_scale_case := ichimoku_scale 100 (xseries highs 30) (xseries lows 30) (xseries closes 30) 3%nat 5%nat 7%nat 9%nat ltac:(met).
Example supertrend_scale_case := supertrend_scale 100 (xseries highs 30) (xseries lows 30) (xseries closes 30) 3%nat (Fin 2) ltac:(met).
Example zigzag_scale_case := zigzag_scale 100 (xseries highs 30) (xseries lows 30) None ltac:(met).
Example rsi_scale_case := rsi_scale 100 (xseries closes 30) 3%nat ltac:(met).
Example crsi_scale_case := crsi_scale 100 (xseries closes 30) 3%nat 5%nat 7%nat ltac:(met).
Example macd_scale_case := macd_scale 100 (xseries closes 30) 3%nat 5%nat ltac:(met).
Example apo_scale_case := apo_scale 100 (xseries closes 30) 3%nat 5%nat ltac:(met).
Example cmo_scale_case := cmo_scale 100 (xseries closes 30) 3%nat ltac:(met).
Example cfo_scale_case := cfo_scale 100 (xseries closes 30) 3%nat ltac:(met).
Example elder_ray_scale_case := elder_ray_scale 100 (xseries highs 30) (xseries lows 30) (xseries closes 30) 3%nat ltac:(met).
Example wpr_scale_case := wpr_scale 100 (xseries highs 30) (xseries lows 30) (xseries closes 30) 3%nat ltac:(met).
Example ppo_scale_case := ppo_scale 100 (xseries closes 30) 3%nat 5%nat ltac:(met).
Example pmo_scale_case := pmo_scale 100 (xseries closes 30) 3%nat 5%nat ltac:(met).
Example ultimate_scale_case := ultimate_scale 100 (xseries highs 30) (xseries lows 30) (xseries closes 30) 3%nat 5%nat 7%nat ltac:(met).
Example pgo_scale_case := pgo_scale 100 (xseries highs 30) (xseries lows 30) (xseries closes 30) 3%nat ltac:(met).
Example si_scale_case := si_scale 100 (xseries opens 30) (xseries highs 30) (xseries lows 30) (xseries closes 30) (Fin 2) ltac:(met).
Example trix_scale_case := trix_scale 100 (xseries closes 30) 3%nat ltac:(met).
Example tii_scale_case := tii_scale 100 (xseries closes 30) 3%nat ltac:(met).
Example stochastic_scale_case := stochastic_scale 100 (xseries highs 30) (xseries lows 30) (xseries closes 30) 3%nat ltac:(met).
Example stc_scale_case := stc_scale 100 (xseries closes 30) 3%nat 5%nat 7%nat ltac:(met).
Example relative_vigor_scale_case := relative_vigor_scale 100 (xseries opens 30) (xseries highs 30) (xseries lows 30) (xseries closes 30) 3%nat ltac:(met).
Example coppock_scale_case := coppock_scale 100 (xseries closes 30) 3%nat 5%nat 7%nat ltac:(met).
Example roc_scale_case := roc_scale 100 (xseries closes 30) 3%nat ltac:(met).
Example bal_power_scale_case := bal_power_scale 100 (xseries opens 30) (xseries highs 30) (xseries lows 30) (xseries closes 30) 3%nat ltac:(met).
Example disparity_scale_case := disparity_scale 100 (xseries closes 30) 3%nat ltac:(met).
Example qstick_scale_case := qstick_scale 100 (xseries opens 30) (xseries closes 30) 3%nat ltac:(met).
Example cog_scale_case := cog_scale 100 (xseries closes 30) 3%nat ltac:(met).
Example psych_scale_case := psych_scale 100 (xseries closes 30) 3%nat ltac:(met).
Example tsi_scale_case := tsi_scale 100 (xseries closes 30) 3%nat 5%nat ltac:(met).
Example derivative_scale_case := derivative_scale 100 (xseries closes 30) 3%nat 5%nat 7%nat ltac:(met).
Example cci_scale_case := cci_scale 100 (xseries highs 30) (xseries lows 30) (xseries closes 30) 3%nat ltac:(met).
Example qqe_scale_case := qqe_scale 100 (xseries closes 30) 3%nat 5%nat ltac:(met).
Example deli_scale_case := deli_scale 100 (xseries highs 30) (xseries lows 30) 3%nat ltac:(met).
Example gator_scale_case := gator_scale 100 (xseries closes 30) 3%nat 5%nat 7%nat 9%nat 11%nat 13%nat ltac:(met).
Example kdj_scale_case := kdj_scale 100 (xseries highs 30) (xseries lows 30) (xseries closes 30) 3%nat 5%nat None None ltac:(met).
Example mama_scale_case := mama_scale 100 (xseries closes 30) None None ltac:(met).
Example quantile_scale_case := quantile_scale 100 (xseries closes 30) 3%nat (Fin 2) ltac:(met).
Example median_scale_case := median_scale 100 (xseries closes 30) 3%nat ltac:(met).
Example approx_entropy_scale_case := approx_entropy_scale 100 (xseries closes 30) 3%nat None None ltac:(met).
Example sample_entropy_scale_case := sample_entropy_scale 100 (xseries closes 30) 3%nat None None ltac:(met).
Example skew_scale_case := skew_scale 100 (xseries closes 30) 3%nat ltac:(met).
Example pcc_scale_case := pcc_scale 100 1000 (xseries closes 30) (xseries volumes 30) 3%nat ltac:(met) ltac:(met).
Example rsq_scale_case := rsq_scale 100 1000 (xseries closes 30) (xseries volumes 30) 3%nat ltac:(met) ltac:(met).
Example beta_scale_case := beta_scale 100 1000 (xseries closes 30) (xseries volumes 30) 3%nat ltac:(met) ltac:(met).
Example perf_scale_case := perf_scale 100 1000 (xseries closes 30) (xseries volumes 30) 3%nat ltac:(met) ltac:(met).
Example rsc_scale_case := rsc_scale 100 1000 (xseries closes 30) (xseries volumes 30) ltac:(met) ltac:(met).
Example krcc_scale_case := krcc_scale 100 1000 (xseries closes 30) (xseries volumes 30) 3%nat ltac:(met) ltac:(met).
Example dcor_scale_case := dcor_scale 100 1000 (xseries closes 30) (xseries volumes 30) 3%nat ltac:(met) ltac:(met).
Example ad_scale_case := ad_scale 100 1000 (xseries highs 30) (xseries lows 30) (xseries closes 30) (xseries volumes 30) None ltac:(met) ltac:(met) ltac:(met).
Example ad_alt_scale_case := ad_alt_scale 100 1000 (xseries highs 30) (xseries lows 30) (xseries closes 30) (xseries volumes 30) ltac:(met) ltac:(met).
Example special_k_scale_case := special_k_scale 100 (xseries closes 30) ltac:(met).
Example kst_scale_case := kst_scale 100 (xseries closes 30) None None ltac:(met).
Example rank_scale_case := rank_scale 100 stable_argsort (xseries closes 30) None ltac:(met) stable_argsort_blind.
Example srcc_scale_case := srcc_scale 100 1000 stable_argsort (xseries closes 30) (xseries volumes 30) 3%nat ltac:(met) ltac:(met) stable_argsort_blind.
Example hoeffd_scale_case := hoeffd_scale 100 1000 stable_argsort (xseries closes 30) (xseries volumes 30) 3%nat ltac:(met) ltac:(met) stable_argsort_blind.
Example mic_scale_case := mic_scale 100 1000 (fun l => l) (xseries closes 30) (xseries volumes 30) 3%nat ltac:(met) ltac:(met) ltac:(ranged) ltac:(ranged) ltac:(ranged) ltac:(ranged).
Example frama_scale_case := frama_scale 100 (xseries closes 30) 4%nat ltac:(met) ltac:(ranged) ltac:(ranged).
Example hurst_scale_case := hurst_scale 100 9 (xseries closes 30) 12%nat None ltac:(met).
Example cks_scale_case : cks (scaled 100 (xseries highs 30)) (scaled 100 (xseries lows 30)) (scaled 100 (xseries closes 30)) 3 4 None
  = res_map (scaled2 100) (cks (xseries highs 30) (xseries lows 30) (xseries closes 30) 3 4 None).
Proof.
  apply cks_scale; [lra|]. intros o E. destruct (cks_real highs lows closes 30 3 4 None) as (o' & E' & L & W & V); [lia|lia|intros; bar_facts; lra|].
  change (cks (xseries highs 30) (xseries lows 30) (xseries closes 30) 3 4 None = Ok o') in E'. rewrite E in E'. injection E' as <-.
  assert (C : forall k, (k < 30)%nat -> 10 <= closes k <= 43).
  { intros k Hk. apply bars_le in Hk. unfold closes. destruct (Nat.even k); lra. }
  assert (T : forall k, (k < 30)%nat -> 0 <= true_range_of highs lows closes k <= 100).
  { intros k Hk. pose proof (C k Hk). assert (10 <= closes (k - 1) <= 43) by (apply C; lia). unfold true_range_of, highs, lows, Rmax, Rmin.
    repeat match goal with |- context [Rcase_abs ?x] => destruct (Rcase_abs x) | |- context [Rle_dec ?x ?y] => destruct (Rle_dec x y) end; lra. }
  apply Forall_forall. intros [x y] Hx. apply In_nth_error in Hx as [i Hi]. cbn [snd]. intros r ->.
  assert (Li : (i < 30)%nat). { assert (N : nth_error o i <> None) by congruence. apply nth_error_Some in N. lia. }
  destruct (Nat.ltb_spec i (3 + 4 - 1)) as [Hl|Hl]; [rewrite W in Hi by lia; discriminate|]. rewrite V in Hi by lia. injection Hi as _ Hr.
  cbn [unwrap_or] in Hr. rewrite <- Hr. clear Hr.
  set (g := fun k => lowest 3 lows k + 1 * wilder_from 3 1 (true_range_of highs lows closes) k).
  assert (G : lowest 4 g i <= 143).
  { apply (Rle_trans _ (g i)); [apply (proj2 (lowest_spec 4 g i ltac:(lia))); lia|]. unfold g.
    pose proof (wilder_from_bounds 3 1 (true_range_of highs lows closes) i 0 100 ltac:(lia) ltac:(lia) (fun j Hj => T j ltac:(lia))).
    assert (lowest 3 lows i <= lows i) by (apply (proj2 (lowest_spec 3 lows i ltac:(lia))); lia). pose proof (C i Li). unfold lows in *. lra. }
  pose proof f64_large as M. unfold max_f64. revert M. generalize (IZR (2 ^ 1024 - 2 ^ 971)). intros M HM. unfold Rmin. destruct (Rle_dec _ _); lra.
Qed.
