(** * ShiftVals: adding the same amount to every price.

    [shifted t l] is the series [l] with [t] added to every finite value (the
    infinities and NaN stay).  Each theorem says what happens to the result when
    [t] is added to all the prices: a price-like result (an average, a band, a
    stop) moves by the same amount, a result built from price differences (an
    oscillator, a range, a correlation) does not change at all.

    The theorems are about exact arithmetic ([XR]) and hold for all series, NaN
    and infinite values included, for all windows and lengths; a call that panics
    does so before and after.  Volumes are not prices and stay as they are.

    The functions that divide by a price or start from a fixed 0 are not
    invariant: see the end of the file. *)

From Coq Require Import Reals Lra Lia.
From Verif Require Import Base BaseFacts Num XReal XRFacts Scale.
From Verif Require Import Distribution Regression Smooth Correlation Volatility Volume Trend Momentum.
From Verif Require Import Spec RSpec Bars VolatReal MomReal TrendReal Adaptive Shift ShiftRel ShiftStat ShiftVol ShiftTrend.
Local Unset Implicit Arguments.
Local Open Scope R_scope.

(** Results with several columns. *)
Definition shifted2 (t : R) (l : list (xr * xr)) := map (fun '(a, b) => (sh t a, sh t b)) l.
Definition shifted3 (t : R) (l : list (xr * xr * xr)) := map (fun '(a, b, d) => (sh t a, sh t b, sh t d)) l.
Definition shifted4 (t : R) (l : list (xr * xr * xr * xr)) := map (fun '(a, b, d, e) => (sh t a, sh t b, sh t d, sh t e)) l.
Definition shifted5 (t : R) (l : list (xr * xr * xr * xr * xr)) :=
  map (fun '(a, b, d, e, f) => (sh t a, sh t b, sh t d, sh t e, sh t f)) l.

Section Back.
  Context {g : R}.
  Local Notation sim := (Shift.sim g).
  Local Notation ss := (Forall2 (Shift.sim g)).
  Local Notation z := (Shift.sim 0).
  Lemma t_eq {A} (a b : A) : a = b -> a = b. Proof. easy. Qed.
  Lemma r_list {A} (R : A -> A -> Prop) (f : A -> A) r r' :
    (forall a a', R a a' -> a' = f a) -> rrel (Forall2 R) r r' -> r' = res_map (map f) r.
  Proof.
    intros E. destruct r, r'; cbn [rrel res_map]; try easy. intros H. f_equal. induction H; cbn [map]; [easy|]. f_equal; auto.
  Qed.
  Lemma t_r1 r r' : rrel ss r r' -> r' = res_map (shifted g) r. Proof. apply r_shifted. Qed.
  Lemma t_l1 l l' : ss l l' -> l' = shifted g l. Proof. apply f2_shifted. Qed.
  Lemma t_r2 r r' : rrel (Forall2 (prel sim sim)) r r' -> r' = res_map (shifted2 g) r.
  Proof. apply r_list. intros [] [] [A B]. cbn [fst snd] in *. unfold Shift.sim in *. now subst. Qed.
  Lemma t_r3 r r' : rrel (Forall2 (prel (prel sim sim) sim)) r r' -> r' = res_map (shifted3 g) r.
  Proof. apply r_list. intros [[] ?] [[] ?] [[A B] D]. cbn [fst snd] in *. unfold Shift.sim in *. now subst. Qed.
  Lemma t_r4 r r' : rrel (Forall2 (prel (prel (prel sim sim) sim) sim)) r r' -> r' = res_map (shifted4 g) r.
  Proof. apply r_list. intros [[[] ?] ?] [[[] ?] ?] [[[A B] D] E]. cbn [fst snd] in *. unfold Shift.sim in *. now subst. Qed.
  Lemma t_r5 r r' : rrel (Forall2 (prel (prel (prel (prel sim sim) sim) sim) sim)) r r' -> r' = res_map (shifted5 g) r.
  Proof. apply r_list. intros [[[[] ?] ?] ?] [[[[] ?] ?] ?] [[[[A B] D] E] F]. cbn [fst snd] in *. unfold Shift.sim in *. now subst. Qed.
  Lemma res_id {A} (r : result (list A)) : res_map (map (fun x => x)) r = r.
  Proof. destruct r; cbn; [|easy]. now rewrite map_id. Qed.
  Lemma t_r2_0 r r' : rrel (Forall2 (prel z z)) r r' -> r' = r.
  Proof. intros H. rewrite <- (res_id r). revert H. apply r_list. intros [] [] [A B]. cbn [fst snd] in *. apply s_eq in A, B. now subst. Qed.
  Lemma t_r3_0 r r' : rrel (Forall2 (prel (prel z z) z)) r r' -> r' = r.
  Proof. intros H. rewrite <- (res_id r). revert H. apply r_list. intros [[] ?] [[] ?] [[A B] D]. cbn [fst snd] in *. apply s_eq in A, B, D. now subst. Qed.
End Back.

Tactic Notation "shift" uconstr(L) uconstr(T) := apply T; eapply L; try eassumption; try apply f2_prices.

(** *** smooth.rs *)
Theorem sma_shift t l w : sma (shifted t l) w = res_map (shifted t) (sma l w).
Proof. intros. shift sma_sh t_r1. Qed.
Theorem ewma_shift t l w : ewma (shifted t l) w = res_map (shifted t) (ewma l w).
Proof. intros. shift ewma_sh t_r1. Qed.
Theorem wilder_shift t l w : wilder (shifted t l) w = res_map (shifted t) (wilder l w).
Proof. intros. shift wilder_sh t_r1. Qed.
Theorem wma_shift t l w : wma (shifted t l) w = res_map (shifted t) (wma l w).
Proof. intros. shift wma_sh t_r1. Qed.
Theorem pwma_shift t l w : pwma (shifted t l) w = res_map (shifted t) (pwma l w).
Proof. intros. shift pwma_sh t_r1. Qed.
Theorem fwma_shift t l w : fwma (shifted t l) w = res_map (shifted t) (fwma l w).
Proof. intros. shift fwma_sh t_r1. Qed.
Theorem dema_shift t l w : dema (shifted t l) w = res_map (shifted t) (dema l w).
Proof. intros. shift dema_sh t_r1. Qed.
Theorem tema_shift t l w : tema (shifted t l) w = res_map (shifted t) (tema l w).
Proof. intros. shift tema_sh t_r1. Qed.
Theorem hull_shift t l w : hull (shifted t l) w = res_map (shifted t) (hull l w).
Proof. intros. shift hull_sh t_r1. Qed.
Theorem trima_shift t l w : trima (shifted t l) w = res_map (shifted t) (trima l w).
Proof. intros. shift trima_sh t_r1. Qed.
Theorem zlma_shift t l w : zlma (shifted t l) w = res_map (shifted t) (zlma l w).
Proof. intros. shift zlma_sh t_r1. Qed.
Theorem lrf_shift t l w : lrf (shifted t l) w = res_map (shifted t) (lrf l w).
Proof. intros. shift lrf_sh t_r1. Qed.
Theorem ma_shift t l w m : affine_mode m = true -> ma (shifted t l) w m = res_map (shifted t) (ma l w m).
Proof. intros. shift ma_sh t_r1. Qed.
Theorem t3_shift t l w f : t3 (shifted t l) w (option_map Fin f) = res_map (shifted t) (t3 l w (option_map Fin f)).
Proof. intros. shift t3_sh t_r1. Qed.
Theorem hwma_shift t l a b c : hwma (shifted t l) (option_map Fin a) (option_map Fin b) (option_map Fin c) = res_map (shifted t) (hwma l (option_map Fin a) (option_map Fin b) (option_map Fin c)).
Proof. intros. shift hwma_sh t_r1. Qed.
Theorem ssf_shift t0 l w t : (0 < w)%nat -> ssf (shifted t0 l) w t = res_map (shifted t0) (ssf l w t).
Proof. intros. shift ssf_sh t_r1. Qed.
Theorem kernel_shift t l s : s <> 0%R -> kernel (shifted t l) (Fin s) = res_map (shifted t) (kernel l (Fin s)).
Proof. intros. shift kernel_sh t_r1. Qed.
Theorem alma_shift t l w s mu : s <> 0%R -> alma (shifted t l) w (Fin s) (option_map Fin mu) = res_map (shifted t) (alma l w (Fin s) (option_map Fin mu)).
Proof. intros. shift alma_sh t_r1. Qed.
(** *** distribution.rs, regression.rs *)
Theorem variance_any_shift t l w : variance (shifted t l) w = variance l w.
Proof. intros. shift variance_sh r_same0. Qed.
Theorem std_dev_shift t l w : std_dev (shifted t l) w = std_dev l w.
Proof. intros. shift std_dev_sh r_same0. Qed.
Theorem zscore_shift t l w : zscore (shifted t l) w = zscore l w.
Proof. intros. shift zscore_sh r_same0. Qed.
Theorem mad_shift t l w : mad (shifted t l) w = mad l w.
Proof. intros. shift mad_sh r_same0. Qed.
Theorem kurtosis_shift t l w : kurtosis (shifted t l) w = kurtosis l w.
Proof. intros. shift kurtosis_sh r_same0. Qed.
Theorem skew_shift t l w : skew (shifted t l) w = skew l w.
Proof. intros. shift skew_sh r_same0. Qed.
Theorem quantile_shift t l w q : quantile (shifted t l) w (Fin q) = res_map (shifted t) (quantile l w (Fin q)).
Proof. intros. shift quantile_sh t_r1. Qed.
Theorem median_shift t l w : median (shifted t l) w = res_map (shifted t) (median l w).
Proof. intros. shift median_sh t_r1. Qed.
Theorem approx_entropy_shift t0 l w r t : approx_entropy (shifted t0 l) w r t = approx_entropy l w r t.
Proof. intros. shift approx_entropy_sh (@t_eq). Qed.
Theorem sample_entropy_shift t0 l w r t : sample_entropy (shifted t0 l) w r t = sample_entropy l w r t.
Proof. intros. shift sample_entropy_sh (@t_eq). Qed.
Theorem mse_shift t l k : mse (shifted t l) (shifted t k) = mse l k.
Proof. intros. shift mse_sh f2_same0. Qed.
Theorem rmse_shift t l k : rmse (shifted t l) (shifted t k) = rmse l k.
Proof. intros. shift rmse_sh f2_same0. Qed.
Theorem mae_shift t l k : mae (shifted t l) (shifted t k) = mae l k.
Proof. intros. shift mae_sh f2_same0. Qed.
Theorem mda_shift t l k : mda (shifted t l) (shifted t k) = mda l k.
Proof. intros. shift mda_sh r_same0. Qed.
Theorem mase_shift t l k : mase (shifted t l) (shifted t k) = mase l k.
Proof. intros. shift mase_sh r_same0. Qed.
(** *** volatility.rs, volume.rs: the volumes stay as they are *)
Theorem mass_shift t h l s w : mass (shifted t h) (shifted t l) s w = mass h l s w.
Proof. intros. shift mass_sh r_same0. Qed.
Theorem gri_shift t h l w : gri (shifted t h) (shifted t l) w = gri h l w.
Proof. intros. shift gri_sh r_same0. Qed.
Theorem tr_shift t h l c : tr (shifted t h) (shifted t l) (shifted t c) = tr h l c.
Proof. intros. shift tr_sh r_same0. Qed.
Theorem atr_shift t h l c w : atr (shifted t h) (shifted t l) (shifted t c) w = atr h l c w.
Proof. intros. shift atr_sh r_same0. Qed.
Theorem keltner_shift t h l c w : keltner (shifted t h) (shifted t l) (shifted t c) w = res_map (shifted3 t) (keltner h l c w).
Proof. intros. shift keltner_sh t_r3. Qed.
Theorem typical_shift t h l c w : typical (shifted t h) (shifted t l) (shifted t c) w = res_map (shifted t) (typical h l c w).
Proof. intros. shift typical_sh t_r1. Qed.
Theorem vstd_dev_shift t l w d : vstd_dev (shifted t l) w d = vstd_dev l w d.
Proof. intros. shift vstd_dev_sh r_same0. Qed.
Theorem bbands_shift t l w d m : affine_mode (unwrap_or m EWMA) = true -> bbands (shifted t l) w d m = res_map (shifted3 t) (bbands l w d m).
Proof. intros. shift bbands_sh t_r3. Qed.
Theorem donchian_shift t h l w : donchian (shifted t h) (shifted t l) w = res_map (shifted3 t) (donchian h l w).
Proof. intros. shift donchian_sh t_r3. Qed.
Theorem starc_shift t h l c w m k : starc (shifted t h) (shifted t l) (shifted t c) w m k = res_map (shifted2 t) (starc h l c w m k).
Proof. intros. shift starc_sh t_r2. Qed.
Theorem cvi_shift t h l w r : cvi (shifted t h) (shifted t l) w r = cvi h l w r.
Proof. intros. shift cvi_sh r_same0. Qed.
Theorem relative_vol_shift t l w s : relative_vol (shifted t l) w s = relative_vol l w s.
Proof. intros. shift relative_vol_sh r_same0. Qed.
Theorem inertia_shift t l w s : inertia (shifted t l) w s = inertia l w s.
Proof. intros. shift inertia_sh r_same0. Qed.
Theorem chop_shift t h l c w : chop (shifted t h) (shifted t l) (shifted t c) w = chop h l c w.
Proof. intros. shift chop_sh r_same0. Qed.
Theorem vhf_shift t h l c w : vhf (shifted t h) (shifted t l) (shifted t c) w = vhf h l c w.
Proof. intros. shift vhf_sh r_same0. Qed.
Theorem heikin_ashi_shift t o h l c : heikin_ashi (shifted t o) (shifted t h) (shifted t l) (shifted t c) = res_map (shifted4 t) (heikin_ashi o h l c).
Proof. intros. shift heikin_ashi_sh t_r4. Qed.
Theorem wcp_shift t h l c : wcp (shifted t h) (shifted t l) (shifted t c) = shifted t (wcp h l c).
Proof. intros. shift wcp_sh t_l1. Qed.
Theorem kvo_shift t h l c v s w a : kvo (shifted t h) (shifted t l) (shifted t c) v s w a = kvo h l c v s w a.
Proof. intros. shift kvo_sh r_same0. Qed.
Theorem twiggs_shift t h l c v w : twiggs (shifted t h) (shifted t l) (shifted t c) v w = twiggs h l c v w.
Proof. intros. shift twiggs_sh r_same0. Qed.
Theorem ad_shift t h l c v a : ad (shifted t h) (shifted t l) (shifted t c) v a = ad h l c v a.
Proof. intros. shift ad_sh r_same0. Qed.
Theorem elder_force_shift t c v w : elder_force (shifted t c) v w = elder_force c v w.
Proof. intros. shift elder_force_sh r_same0. Qed.
Theorem cmf_shift t h l c v w : cmf (shifted t h) (shifted t l) (shifted t c) v w = cmf h l c v w.
Proof. intros. shift cmf_sh r_same0. Qed.
Theorem tvi_shift t c v m : tvi (shifted t c) v m = tvi c v m.
Proof. intros. shift tvi_sh r_same0. Qed.
Theorem ease_shift t h l v w : ease (shifted t h) (shifted t l) v w = ease h l v w.
Proof. intros. shift ease_sh r_same0. Qed.
Theorem obv_shift t c v : obv (shifted t c) v = obv c v.
Proof. intros. shift obv_sh r_same0. Qed.
Theorem bw_mfi_shift t h l v : bw_mfi (shifted t h) (shifted t l) v = bw_mfi h l v.
Proof. intros. shift bw_mfi_sh f2_same0. Qed.
Theorem vwap_shift t h l c vs r : vwap (shifted t h) (shifted t l) (shifted t c) (map Fin vs) r = res_map (shifted t) (vwap h l c (map Fin vs) r).
Proof. intros. shift vwap_sh t_r1. Qed.
Theorem vwma_shift t l vs w : vwma (shifted t l) (map Fin vs) w = res_map (shifted t) (vwma l (map Fin vs) w).
Proof. intros. shift vwma_sh t_r1. Qed.
(** *** trend.rs, momentum.rs *)
Theorem shinohara_shift t h l c w : shinohara (shifted t h) (shifted t l) (shifted t c) w = shinohara h l c w.
Proof. intros. shift shinohara_sh t_r2_0. Qed.
Theorem adx_shift t h l c w s : adx (shifted t h) (shifted t l) (shifted t c) w s = adx h l c w s.
Proof. intros. shift adx_sh t_r3_0. Qed.
Theorem vortex_shift t h l c w : vortex (shifted t h) (shifted t l) (shifted t c) w = vortex h l c w.
Proof. intros. shift vortex_sh t_r2_0. Qed.
Theorem asi_shift t0 o h l c t : asi (shifted t0 o) (shifted t0 h) (shifted t0 l) (shifted t0 c) t = asi o h l c t.
Proof. intros. shift asi_sh r_same0. Qed.
Theorem rwi_shift t h l c w : rwi (shifted t h) (shifted t l) (shifted t c) w = rwi h l c w.
Proof. intros. shift rwi_sh t_r2_0. Qed.
Theorem psar_shift t h l a m : psar (shifted t h) (shifted t l) a m = res_map (shifted t) (psar h l a m).
Proof. intros. shift psar_sh t_r1. Qed.
Theorem dpo_shift t l w m : affine_mode (unwrap_or m SMA) = true -> dpo (shifted t l) w m = dpo l w m.
Proof. intros. shift dpo_sh r_same0. Qed.
Theorem aroon_shift t h l w : aroon (shifted t h) (shifted t l) w = aroon h l w.
Proof. intros. shift aroon_sh t_r2_0. Qed.
Theorem chandelier_shift t h l c w m : chandelier (shifted t h) (shifted t l) (shifted t c) w m = res_map (shifted2 t) (chandelier h l c w m).
Proof. intros. shift chandelier_sh t_r2. Qed.
Theorem alligator_shift t l jw jo tw to lw lo : alligator (shifted t l) jw jo tw to lw lo = res_map (shifted3 t) (alligator l jw jo tw to lw lo).
Proof. intros. shift alligator_sh t_r3. Qed.
Theorem ichimoku_shift t h l c a b e f : ichimoku (shifted t h) (shifted t l) (shifted t c) a b e f = res_map (shifted5 t) (ichimoku h l c a b e f).
Proof. intros. shift ichimoku_sh t_r5. Qed.
Theorem supertrend_shift t h l c w m : supertrend (shifted t h) (shifted t l) (shifted t c) w m = res_map (shifted t) (supertrend h l c w m).
Proof. intros. shift supertrend_sh t_r1. Qed.
Theorem hurst_shift t fuel l w m : hurst fuel (shifted t l) w m = hurst fuel l w m.
Proof. intros. shift hurst_sh (@t_eq). Qed.
Theorem rsi_shift t l w : rsi (shifted t l) w = rsi l w.
Proof. intros. shift rsi_sh (@t_eq). Qed.
Theorem macd_shift t l a b : macd (shifted t l) a b = macd l a b.
Proof. intros. shift macd_sh r_same0. Qed.
Theorem apo_shift t l a b : apo (shifted t l) a b = apo l a b.
Proof. intros. shift apo_sh r_same0. Qed.
Theorem cmo_shift t l w : cmo (shifted t l) w = cmo l w.
Proof. intros. shift cmo_sh (@t_eq). Qed.
Theorem elder_ray_shift t h l c w : elder_ray (shifted t h) (shifted t l) (shifted t c) w = elder_ray h l c w.
Proof. intros. shift elder_ray_sh t_r2_0. Qed.
Theorem wpr_shift t h l c w : wpr (shifted t h) (shifted t l) (shifted t c) w = wpr h l c w.
Proof. intros. shift wpr_sh r_same0. Qed.
Theorem ultimate_shift t h l c p q r : ultimate (shifted t h) (shifted t l) (shifted t c) p q r = ultimate h l c p q r.
Proof. intros. shift ultimate_sh (@t_eq). Qed.
Theorem pgo_shift t h l c w : pgo (shifted t h) (shifted t l) (shifted t c) w = pgo h l c w.
Proof. intros. shift pgo_sh r_same0. Qed.
Theorem si_shift t0 o h l c t : si (shifted t0 o) (shifted t0 h) (shifted t0 l) (shifted t0 c) t = si o h l c t.
Proof. intros. shift si_sh r_same0. Qed.
Theorem tii_shift t l w : tii (shifted t l) w = tii l w.
Proof. intros. shift tii_sh (@t_eq). Qed.
Theorem stochastic_shift t h l c w : stochastic (shifted t h) (shifted t l) (shifted t c) w = stochastic h l c w.
Proof. intros. unfold stochastic. shift stoch_sh (@t_eq). Qed.
Theorem stc_shift t l w a b : stc (shifted t l) w a b = stc l w a b.
Proof. intros. shift stc_sh (@t_eq). Qed.
Theorem relative_vigor_shift t o h l c w : relative_vigor (shifted t o) (shifted t h) (shifted t l) (shifted t c) w = relative_vigor o h l c w.
Proof. intros. shift relative_vigor_sh (@t_eq). Qed.
Theorem bal_power_shift t o h l c w : bal_power (shifted t o) (shifted t h) (shifted t l) (shifted t c) w = bal_power o h l c w.
Proof. intros. shift bal_power_sh (@t_eq). Qed.
Theorem qstick_shift t o c w : qstick (shifted t o) (shifted t c) w = qstick o c w.
Proof. intros. shift qstick_sh (@t_eq). Qed.
Theorem psych_shift t l w : psych (shifted t l) w = psych l w.
Proof. intros. shift psych_sh (@t_eq). Qed.
Theorem tsi_shift t l a b : tsi (shifted t l) a b = tsi l a b.
Proof. intros. shift tsi_sh (@t_eq). Qed.
Theorem derivative_shift t l a b s : derivative (shifted t l) a b s = derivative l a b s.
Proof. intros. shift derivative_sh (@t_eq). Qed.
Theorem cci_shift t h l c w : cci (shifted t h) (shifted t l) (shifted t c) w = cci h l c w.
Proof. intros. shift cci_sh r_same0. Qed.
Theorem qqe_shift t l w s : qqe (shifted t l) w s = qqe l w s.
Proof. intros. shift qqe_sh (@t_eq). Qed.
Theorem deli_shift t h l w : deli (shifted t h) (shifted t l) w = deli h l w.
Proof. intros. shift deli_sh r_same0. Qed.
Theorem gator_shift t l jw jo tw to lw lo : gator (shifted t l) jw jo tw to lw lo = gator l jw jo tw to lw lo.
Proof. intros. shift gator_sh (@t_eq). Qed.
Theorem kdj_shift t h l c k d kf df : kdj (shifted t h) (shifted t l) (shifted t c) k d kf df = kdj h l c k d kf df.
Proof. intros. shift kdj_sh (@t_eq). Qed.

(** *** correlation.rs: the two series may move by different amounts *)
Theorem pcc_shift t u l k w : pcc (shifted t l) (shifted u k) w = pcc l k w.
Proof. shift (pcc_sh t u) r_same0. Qed.
Theorem rsq_shift t u l k w : rsq (shifted t l) (shifted u k) w = rsq l k w.
Proof. shift (rsq_sh t u) r_same0. Qed.
Theorem krcc_shift t u l k w : krcc (shifted t l) (shifted u k) w = krcc l k w.
Proof. shift (krcc_sh t u) r_same0. Qed.
Theorem dcor_shift t u l k w : dcor (shifted t l) (shifted u k) w = dcor l k w.
Proof. shift (dcor_sh t u) r_same0. Qed.

(** Ranks: the standard library's sort sees only the outcomes of comparisons, so
    the permutation it chooses does not depend on the shift. *)
Definition shift_blind (srt : sort_oracle xr) : Prop := forall t l, srt (shifted t l) = srt l.
Lemma shift_blind_sim srt : shift_blind srt -> forall d a a', Forall2 (Shift.sim d) a a' -> srt a' = srt a.
Proof. intros U d a a' H. apply f2_shifted in H. subst. apply U. Qed.
Theorem rank_shift t srt l m : shift_blind srt -> rank srt (shifted t l) m = rank srt l m.
Proof. intros U. apply (rank_sh t); [apply f2_prices|apply U]. Qed.
Theorem srcc_shift t u srt l k w : shift_blind srt -> srcc srt (shifted t l) (shifted u k) w = srcc srt l k w.
Proof. intros U. shift (srcc_sh t u) r_same0. now apply shift_blind_sim. Qed.
Theorem hoeffd_shift t u srt l k w : shift_blind srt -> hoeffd srt (shifted t l) (shifted u k) w = hoeffd srt l k w.
Proof. intros U. shift (hoeffd_sh t u) r_same0. now apply shift_blind_sim. Qed.
Lemma stable_argsort_shift_blind : shift_blind stable_argsort.
Proof.
  intros t l. unfold stable_argsort, shifted. rewrite map_length.
  assert (E : forall i j, fltb (at_ (map (sh t) l) i) (at_ (map (sh t) l) j) = fltb (at_ l i) (at_ l j)).
  { intros i j. unfold at_. change (@fnan xr XR) with (sh t NaN). rewrite !map_nth. apply (s_ltb t); reflexivity. }
  assert (E2 : forall i q, insert_idx (map (sh t) l) i q = insert_idx l i q).
  { intros i q. induction q as [|j q IH]; [easy|]. cbn [insert_idx]. now rewrite E, IH. }
  generalize (@nil nat). induction (seq 0 (length l)) as [|i q IH]; intros a; cbn [fold_left]; [easy|]. now rewrite E2, IH.
Qed.

(** [mic] starts its extremes from [f64::MAX] and [f64::MIN]: all values must lie
    within that range, before and after. *)
Theorem mic_shift t u ord l k w : Forall within l -> Forall within (shifted t l) -> Forall within k -> Forall within (shifted u k) ->
  mic ord (shifted t l) (shifted u k) w = mic ord l k w.
Proof. intros. apply (mic_sh t u); try assumption; apply f2_prices. Qed.

(** *** Functions that start from a fixed 0 *)

(** A quotation: a real number from 0 to [f64::MAX]. *)
Definition quotation (x : xr) : Prop := exists r, x = Fin r /\ 0 <= r <= max_f64.
Lemma quotation_min x : quotation x -> fmin fmaxval x = x.
Proof.
  intros (r & -> & H). change (@fmaxval xr XR) with (Fin max_f64). rewrite x_min. f_equal. now apply Rmin_right.
Qed.
Lemma quotation_max x : quotation x -> fmax (flit 0 1) x = x.
Proof. intros (r & -> & H). rewrite x_lit, x_max. f_equal. now apply Rmax_right. Qed.
Lemma fold_max_0_sh g l l' : l <> [] -> Forall quotation l -> Forall quotation l' -> Forall2 (Shift.sim g) l l' ->
  Shift.sim g (fold_left fmax l (flit 0 1)) (fold_left fmax l' (flit 0 1)).
Proof.
  intros N W W' H. destruct H as [|x x' l l' Hx Hl]; [easy|]. inversion_clear W as [|? ? W1 _]. inversion_clear W' as [|? ? W1' _].
  cbn [fold_left]. rewrite !quotation_max by assumption. eapply f2_fold; [exact Hl|exact Hx|]. intros. sims.
Qed.
Lemma fold_min_max_sh g l l' : l <> [] -> Forall quotation l -> Forall quotation l' -> Forall2 (Shift.sim g) l l' ->
  Shift.sim g (fold_left fmin l fmaxval) (fold_left fmin l' fmaxval).
Proof.
  intros N W W' H. destruct H as [|x x' l l' Hx Hl]; [easy|]. inversion_clear W as [|? ? W1 _]. inversion_clear W' as [|? ? W1' _].
  cbn [fold_left]. rewrite !quotation_min by assumption. eapply f2_fold; [exact Hl|exact Hx|]. intros. sims.
Qed.
Lemma quotation_mid h l : Forall quotation h -> Forall quotation l -> Forall quotation (map (fun '(h, l) => fdiv (fadd h l) (flit 2 1)) (combine h l)).
Proof.
  intros H. revert l. induction H as [|x h (r & -> & R) _ IH]; intros [|y l] L; cbn [combine map]; try constructor.
  - inversion_clear L as [|? ? (s & -> & S) _]. exists ((r + s) / 2). rewrite x_add, x_lit, x_div by lra. split; [easy|lra].
  - inversion_clear L. auto.
Qed.

(** [fisher] takes 0 for one of the prices of every window: on quotations that
    changes nothing. *)
Theorem fisher_shift t h l w : Forall quotation h -> Forall quotation l -> Forall quotation (shifted t h) -> Forall quotation (shifted t l) ->
  fisher (shifted t h) (shifted t l) w = fisher h l w.
Proof.
  intros Qh Ql Qh' Ql'. pose proof (quotation_mid _ _ Qh Ql) as Q. pose proof (quotation_mid _ _ Qh' Ql') as Q'. unfold fisher. cbv zeta.
  assert (M : Forall2 (Shift.sim t) (map (fun '(h, l) => fdiv (fadd h l) (flit 2 1)) (combine h l))
    (map (fun '(h, l) => fdiv (fadd h l) (flit 2 1)) (combine (shifted t h) (shifted t l)))).
  { eapply (f2_map (prel (Shift.sim t) (Shift.sim t))); [apply f2_combine; apply f2_prices|]. intros. brk. sims. }
  revert Q Q' M. generalize (map (fun '(h, l) => fdiv (fadd h l) (flit 2 1)) (combine h l)).
  generalize (map (fun '(h, l) => fdiv (fadd h l) (flit 2 1)) (combine (shifted t h) (shifted t l))). intros m' m Q Q' M.
  unfold usub. destruct (Nat.leb_spec 1 w) as [Hw|]; [|easy]. cbn [bind]. unfold rwindows. destruct (Nat.eqb_spec w 0) as [|_]; [lia|]. cbn [bind].
  assert (E : forall st, rscan (fisher_step w) st (windows w m') = rscan (fisher_step w) st (windows w m)); [|now rewrite E].
  unfold windows. rewrite (f2_length _ _ _ M).
  assert (B : forall i, In i (seq 0 (length m + 1 - w)) -> (i + w <= length m)%nat) by (intros i Hi; apply in_seq in Hi; lia).
  revert B. generalize (seq 0 (length m + 1 - w)). intros js. induction js as [|j js IH]; intros B st; cbn [map rscan]; [easy|].
  assert (S : fisher_step w st (firstn w (skipn j m')) = fisher_step w st (firstn w (skipn j m))).
  { assert (X : Forall2 (Shift.sim t) (firstn w (skipn j m)) (firstn w (skipn j m'))) by now apply f2_firstn, f2_skipn.
    assert (N : firstn w (skipn j m) <> []).
    { intros E. apply (f_equal (@length _)) in E. rewrite firstn_length, skipn_length in E. specialize (B j (or_introl eq_refl)). cbn in E. lia. }
    assert (A : forall (P : xr -> Prop) z, Forall P z -> Forall P (firstn w (skipn j z))).
    { intros P z F. apply Forall_forall. intros x Hx. rewrite Forall_forall in F. apply F.
      rewrite <- (firstn_skipn j z). apply in_or_app. right. rewrite <- (firstn_skipn w (skipn j z)). apply in_or_app. now left. }
    pose proof (fold_max_0_sh t _ _ N (A _ _ Q) (A _ _ Q') X) as MX. pose proof (fold_min_max_sh t _ _ N (A _ _ Q) (A _ _ Q') X) as MN.
    unfold fisher_step. cbv zeta.
    rewrite (s_eq (fsub (at_ (firstn w (skipn j m)) (w - 1)) (fold_left fmin (firstn w (skipn j m)) fmaxval))
                  (fsub (at_ (firstn w (skipn j m')) (w - 1)) (fold_left fmin (firstn w (skipn j m')) fmaxval))) by sims.
    rewrite (s_eq (fsub (fold_left fmax (firstn w (skipn j m)) (flit 0 1)) (fold_left fmin (firstn w (skipn j m)) fmaxval))
                  (fsub (fold_left fmax (firstn w (skipn j m')) (flit 0 1)) (fold_left fmin (firstn w (skipn j m')) fmaxval))) by sims.
    reflexivity. }
  rewrite S. destruct (fisher_step w st (firstn w (skipn j m))) as [[st' y]|]; cbn [bind]; [|easy].
  rewrite IH; [easy|]. intros; apply B; now right.
Qed.

(** [decay] never goes below 0: on quotations it does not have to. *)
Definition sink (w : nat) (a r : R) : R := match w with O => r | _ => Rmax (a - 1 / INR w) r end.
Lemma decay_step_sink w a r : 0 <= r -> decay_step w (Fin a) (Fin r) = (Fin (sink w a r), Fin (sink w a r)).
Proof.
  intros Hr. unfold decay_step. cbv zeta.
  assert (E : fmax (fmax (fsub (Fin a) (fdiv (flit 1 1) (fofnat w))) (Fin r)) (flit 0 1) = Fin (sink w a r)); [|now rewrite E].
  unfold sink. rewrite !x_lit, x_nat. destruct w as [|w].
  - assert (E : fdiv (Fin 1) (Fin (INR 0)) = Inf false).
    { cbn [fdiv XR xdiv INR]. rewrite (proj2 (Req_true 0 0)), (proj2 (Req_false 1 0)), (proj2 (Rltb_false 1 0)) by lra. reflexivity. }
    rewrite E. change (fsub (Fin a) (Inf false)) with (Inf true).
    replace (fmax (Inf true) (Fin r)) with (Fin r) by reflexivity. rewrite x_max, Rmax_left; [easy|lra].
  - rewrite x_div by (apply not_0_INR; lia). rewrite x_sub, !x_max. f_equal. apply Rmax_left. apply Rle_trans with r; [easy|apply Rmax_r].
Qed.
Theorem decay_shift t l w : Forall quotation l -> Forall quotation (shifted t l) -> decay (shifted t l) w = res_map (shifted t) (decay l w).
Proof.
  intros Q Q'. unfold decay. cbn [res_map]. f_equal.
  assert (G : forall l a, Forall quotation l -> Forall quotation (shifted t l) ->
    scan (decay_step w) (Fin (a + t)) (shifted t l) = shifted t (scan (decay_step w) (Fin a) l)).
  { clear. induction l as [|x l IH]; intros a Q Q'; [easy|]. inversion_clear Q as [|? ? (r & Ex & Hr) Ql]. inversion_clear Q' as [|? ? (r' & E & Hr') Ql']. subst x.
    unfold sh in E. injection E as <-. cbn [shifted map scan sh]. rewrite !decay_step_sink by lra. cbn [map sh].
    assert (S : sink w (a + t) (r + t) = sink w a r + t).
    { unfold sink. destruct w; [easy|]. unfold Rmax. destruct (Rle_dec _ _), (Rle_dec _ _); lra. }
    rewrite S. f_equal. now apply IH. }
  destruct l as [|x l]; [easy|]. inversion_clear Q as [|? ? (r & Ex & Hr) Ql]. inversion_clear Q' as [|? ? (r' & E & Hr') Ql']. subst x.
  unfold sh in E. injection E as <-. cbn [shifted map scan sh]. rewrite (x_lit 0), !decay_step_sink by lra. cbn [map sh].
  assert (S : forall y, 0 <= y -> sink w 0 y = y).
  { intros y Hy. unfold sink. destruct w as [|w]; [easy|]. apply Rmax_right. assert (0 < 1 / INR (S w)) by (apply Rdiv_lt_0_compat; [lra|apply lt_0_INR; lia]). lra. }
  rewrite !S by lra. f_equal. now apply G.
Qed.

(** *** Functions whose results are tied to the level 0 *)

Lemma shifted_xseries t f n : shifted t (xseries f n) = xseries (fun k => f k + t) n.
Proof. unfold shifted, xseries, series. rewrite map_map. now apply map_ext. Qed.
Lemma aligned_at {A} (o : list A) n k na f i : aligned o n k na f -> (k <= i < n)%nat -> nth_error o i = Some (f i).
Proof. intros (L & _ & E) H. now apply E. Qed.
Lemma shifted_at t o i x : nth_error o i = Some x -> nth_error (shifted t o) i = Some (sh t x).
Proof. intros H. unfold shifted. rewrite nth_error_map, H. reflexivity. Qed.

(** [kama] starts from 0 instead of from the first price. *)
Theorem kama_shift_refuted : exists t l w, kama (shifted t l) w None None <> res_map (shifted t) (kama l w None None).
Proof.
  set (f := fun k => match k with O => 0 | _ => 1 end). exists 9, (xseries f 2), 2%nat. rewrite shifted_xseries.
  destruct (kama_real f 2 2 None None) as (o & E & A); [lia|intros [|[|]] H; try lia; unfold path, f; cbn; rewrite Rabs_right; lra|].
  destruct (kama_real (fun k => f k + 9) 2 2 None None) as (o' & E' & A'); [lia|intros [|[|]] H; try lia; unfold path, f; cbn; rewrite Rabs_right; lra|].
  rewrite E, E'. cbn [res_map]. intros H. injection H as ->.
  pose proof (shifted_at 9 _ _ _ (aligned_at _ _ _ _ _ 1%nat A ltac:(lia))) as P. rewrite (aligned_at _ _ _ _ _ 1%nat A' ltac:(lia)) in P.
  cbn [sh] in P. injection P as P. cbn [minus] in P. rewrite !adaptive_first in P. unfold kama_gain, path, f in P. cbn in P.
  rewrite !(Rabs_right (1 - 0)), !(Rabs_right (1 + 9 - (0 + 9))) in P by lra. lra.
Qed.

(** [decay] below 0. *)
Theorem decay_shift_refuted : exists t l w, decay (shifted t l) w <> res_map (shifted t) (decay l w).
Proof.
  exists (-9), (xseries (fun _ => 0) 1), 1%nat. rewrite shifted_xseries.
  destruct (decay_real (fun _ => 0) 1 1) as (y & E & Y0 & Y); [lia|]. destruct (decay_real (fun _ => 0 + -9) 1 1) as (z & E' & Z0 & Z); [lia|].
  rewrite E, E'. cbn [res_map]. rewrite shifted_xseries. intros H. injection H as H.
  assert (Y1 : y 1%nat = 0) by (rewrite (Y 0%nat), Y0; cbn [INR]; rewrite (Rmax_right (_ - _)), Rmax_left; lra).
  assert (Z1 : z 1%nat = 0) by (rewrite (Z 0%nat), Z0; cbn [INR]; apply Rmax_right, Rmax_lub; lra).
  lra.
Qed.

(** [atr_stop] starts its stop from 0, [cks] does so in every window. *)
Theorem atr_stop_shift_refuted : exists t h l c w, atr_stop (shifted t h) (shifted t l) (shifted t c) w None
  <> res_map (shifted t) (atr_stop h l c w None).
Proof.
  exists 9, (xseries (fun _ => 1) 2), (xseries (fun _ => 0) 2), (xseries (fun _ => 0) 2), 1%nat. rewrite !shifted_xseries.
  destruct (atr_stop_real (fun _ => 1) (fun _ => 0) (fun _ => 0) 2 1 None) as (o & s & r & E & A & S0 & R0 & S); [lia|intros; lra|].
  destruct (atr_stop_real (fun _ => 1 + 9) (fun _ => 0 + 9) (fun _ => 0 + 9) 2 1 None) as (o' & s' & r' & E' & A' & S0' & R0' & S'); [lia|intros; lra|].
  cbn [option_map] in E, E'. rewrite E, E'. cbn [res_map]. intros H. injection H as ->.
  pose proof (shifted_at 9 _ _ _ (aligned_at _ _ _ _ _ 1%nat A ltac:(lia))) as P. rewrite (aligned_at _ _ _ _ _ 1%nat A' ltac:(lia)) in P.
  cbn [sh] in P. injection P as P. specialize (S 1%nat ltac:(lia)). specialize (S' 1%nat ltac:(lia)). rewrite R0 in S. rewrite R0' in S'. cbv zeta in S, S'.
  unfold wilder_from, true_range_of in S, S'. cbn in S, S'. rewrite S0 in S. rewrite S0' in S'.
  rewrite (Rmax_left 1 0), (Rmin_left 0 0) in S by lra. rewrite (Rmax_left (1 + 9)), (Rmin_left (0 + 9) (0 + 9)) in S' by lra.
  rewrite Rmax_left in S by lra. rewrite Rmax_right in S' by lra. rewrite (proj2 (Rleb_true _ _)) in S by lra. rewrite (proj2 (Rleb_true _ _)) in S' by lra. lra.
Qed.
Theorem cks_shift_refuted : exists t h l c p q, cks (shifted t h) (shifted t l) (shifted t c) p q None
  <> res_map (shifted2 t) (cks h l c p q None).
Proof.
  exists 9, (xseries (fun _ => 0) 2), (xseries (fun _ => -1) 2), (xseries (fun _ => 0) 2), 1%nat, 1%nat. rewrite !shifted_xseries.
  destruct (cks_real (fun _ => 0) (fun _ => -1) (fun _ => 0) 2 1 1 None) as (o & E & A); [lia|lia|intros; lra|].
  destruct (cks_real (fun _ => 0 + 9) (fun _ => -1 + 9) (fun _ => 0 + 9) 2 1 1 None) as (o' & E' & A'); [lia|lia|intros; lra|].
  cbn [option_map] in E, E'. rewrite E, E'. cbn [res_map]. intros H. injection H as ->.
  pose proof (aligned_at _ _ _ _ _ 1%nat A ltac:(lia)) as P. pose proof (aligned_at _ _ _ _ _ 1%nat A' ltac:(lia)) as P'.
  unfold shifted2 in P'. rewrite nth_error_map, P in P'. cbn [option_map sh] in P'. injection P' as P' _.
  unfold wilder_from, true_range_of, highest, last_bars in P'. cbn in P'.
  rewrite (Rmax_left 0 0), (Rmin_left (-1) 0), (Rmax_left (0 + 9)), (Rmin_left (-1 + 9)) in P' by lra.
  revert P'. unfold Rmax. repeat destruct (Rle_dec _ _); lra.
Qed.
