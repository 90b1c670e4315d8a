(** * CasesMirror: the hypotheses of the theorems about prices upside down are met. *)
From Coq Require Import Reals Lra Lia.
From Verif Require Import Base Num B64 XReal RSpec Bars OrderStat VolatReal MomReal Scale Mirror Refute.
From Verif Require Import Distribution Regression Smooth Volatility Volume Trend Momentum.
From Verif Require Import MirVals MirExact.
Local Unset Implicit Arguments.
Local Open Scope R_scope.

(** The two instances, and what the relation says in them. *)
Example mirror_f64_case (m : libm) (x y : f64) : @opposite f64 (B64 m) (B64Sym m) x y ->
  y = @fneg f64 (B64 m) x \/ (zero64 y = true /\ zero64 (@fneg f64 (B64 m) x) = true).
Proof. easy. Qed.
Example mirror_exact_case (x y : xr) : opposite x y -> y = fneg x.
Proof. easy. Qed.
Example sma_mirror_case (m : libm) : exists o o',
  @sma f64 (B64 m) [int 1; int 2; int 4] 2 = Ok o /\ @sma f64 (B64 m) [@fneg f64 (B64 m) (int 1); @fneg f64 (B64 m) (int 2); @fneg f64 (B64 m) (int 4)] 2 = Ok o' /\
  Forall2 (@opposite f64 (B64 m) (B64Sym m)) o o' /\ length o = 3%nat.
Proof.
  pose proof (@sma_mirror f64 (B64 m) (B64Sym m) [int 1; int 2; int 4] 2) as H. change (neg _) with [@fneg f64 (B64 m) (int 1); @fneg f64 (B64 m) (int 2); @fneg f64 (B64 m) (int 4)] in H.
  assert (L : match @sma f64 (B64 m) [int 1; int 2; int 4] 2 with Ok o => Nat.eqb (length o) 3 | Panic => false end = true)
    by (destruct m as [? ? ? ? ? ? ? []]; vm_compute; reflexivity).
  destruct (sma [int 1; int 2; int 4] 2) as [o|]; [|easy]. destruct (sma [_; _; _] 2) as [o'|]; [|easy].
  exists o, o'. repeat split; [exact H|]. now apply Nat.eqb_eq.
Qed.

Definition saw (k : nat) : R := if Nat.even k then 1 else 3.
Lemma saw_in k : 1 <= saw k <= 3. Proof. unfold saw. destruct (Nat.even k); lra. Qed.
Example rsi_mirror_case : exists f n w, (0 < w < n)%nat /\ rsi (xseries (flip f) n) w = res_map (complement 100) (rsi (xseries f n) w).
Proof. exists saw, 9%nat, 3%nat. split; [lia|]. apply rsi_mirror. lia. Qed.
Example wpr_mirror_case : exists h l c n w, (0 < w)%nat /\ (w - 1 <= n)%nat /\ (forall k, (k < n)%nat -> l k <= c k <= h k) /\
  wpr (xseries (flip l) n) (xseries (flip h) n) (xseries (flip c) n) w = res_map (complement (-100)) (wpr (xseries h n) (xseries l n) (xseries c n) w).
Proof.
  assert (H : forall k, 0 <= saw k <= 4) by (intros k; pose proof (saw_in k); lra).
  exists (fun _ => 4), (fun _ => 0), saw, 9%nat, 3%nat. repeat split; [lia|lia|apply H..|]. apply wpr_mirror; [lia|lia|auto].
Qed.
Example tii_mirror_case : exists f n w, (0 < w)%nat /\ (w - 1 <= n)%nat /\ tii (xseries (flip f) n) w = res_map (complement 100) (tii (xseries f n) w).
Proof. exists saw, 9%nat, 3%nat. repeat split; [lia|lia|]. apply tii_mirror; lia. Qed.
Example relative_vol_mirror_case : exists c n w s, (2 <= w)%nat /\ (0 < s)%nat /\ (w - 1 + s <= n)%nat /\
  relative_vol (xseries (flip c) n) w s = res_map (complement 100) (relative_vol (xseries c n) w s).
Proof. exists saw, 9%nat, 3%nat, 2%nat. repeat split; [lia|lia|lia|]. apply relative_vol_mirror; lia. Qed.
Example psych_mirror_case : exists f n w, (0 < w)%nat /\ (forall k, (0 < k < n)%nat -> f (k - 1)%nat <> f k) /\
  psych (xseries (flip f) n) w = res_map (complement 100) (psych (xseries f n) w).
Proof.
  assert (N : forall k, (0 < k < 9)%nat -> INR (k - 1) <> INR k) by (intros k Hk; apply not_INR; lia).
  exists INR, 9%nat, 3%nat. split; [lia|]. split; [exact N|]. apply psych_mirror; [lia|exact N].
Qed.
Lemma const_high w a i : (0 < w)%nat -> highest w (fun _ => a) i = a.
Proof.
  intros Hw. unfold highest, last_bars. destruct w as [|w]; [lia|]. cbn [seq map Rmax_list]. generalize (seq (S (i + 1 - S w)) w) as s. clear. intros s.
  induction s as [|b s IH]; cbn; [easy|]. now rewrite Rmax_left by lra.
Qed.
Lemma const_low w a i : (0 < w)%nat -> lowest w (fun _ => a) i = a.
Proof.
  intros Hw. unfold lowest, last_bars. destruct w as [|w]; [lia|]. cbn [seq map Rmin_list]. generalize (seq (S (i + 1 - S w)) w) as s. clear. intros s.
  induction s as [|b s IH]; cbn; [easy|]. now rewrite Rmin_left by lra.
Qed.
Example stochastic_mirror_case : exists h l c n w, (0 < w)%nat /\ (w + 4 <= n + 1)%nat /\ (forall i, (w - 1 <= i < n)%nat -> highest w h i - lowest w l i <> 0) /\
  stochastic (xseries (flip l) n) (xseries (flip h) n) (xseries (flip c) n) w
  = res_map (map (fun '(k, d) => (fsub (Fin 100) k, fsub (Fin 100) d))) (stochastic (xseries h n) (xseries l n) (xseries c n) w).
Proof.
  assert (N : forall i, (3 - 1 <= i < 9)%nat -> highest 3 (fun _ => 4) i - lowest 3 (fun _ => 0) i <> 0) by (intros i _; rewrite const_high, const_low by lia; lra).
  exists (fun _ => 4), (fun _ => 0), saw, 9%nat, 3%nat. repeat split; [lia|lia|exact N|]. apply stochastic_mirror; [lia|lia|exact N].
Qed.
Example ultimate_mirror_case : exists h l c n w1 w2 w3, (0 < n)%nat /\ (0 < w1 <= w3)%nat /\ (0 < w2 <= w3)%nat /\
  (forall w i, w = w1 \/ w = w2 \/ w = w3 -> (w3 <= i < n)%nat -> Rsum (last_bars w (ult_range h l c) i) <> 0) /\
  ultimate (xseries (flip l) n) (xseries (flip h) n) (xseries (flip c) n) w1 w2 w3
  = res_map (complement 100) (ultimate (xseries h n) (xseries l n) (xseries c n) w1 w2 w3).
Proof.
  assert (N : forall w i, w = 1%nat \/ w = 2%nat \/ w = 3%nat -> (3 <= i < 9)%nat -> Rsum (last_bars w (ult_range (fun _ => 4) (fun _ => 0) saw) i) <> 0).
  { assert (U : forall k, ult_range (fun _ => 4) (fun _ => 0) saw k = 4).
    { intros k. pose proof (saw_in (k - 1)). unfold ult_range. rewrite Rmax_left, Rmin_left; lra. }
    intros w i [-> | [-> | ->]] _; unfold last_bars; cbn [seq map Rsum fold_right]; rewrite !U; lra. }
  exists (fun _ => 4), (fun _ => 0), saw, 9%nat, 1%nat, 2%nat, 3%nat. repeat split; [lia..|exact N|]. apply ultimate_mirror; [lia..|exact N].
Qed.
Example ease_mirror_case : exists h l v w, length h = length l /\ ease (neg l) (neg h) v w = res_map neg (ease h l v w).
Proof. exists [Fin 4; Fin 5], [Fin 1; Fin 2], [Fin 7; Fin 8], 1%nat. split; [easy|]. now apply ease_mirror. Qed.

(** A market of six bars in binary64. *)
Section Market.
  Variable m : libm.
  Definition open64 := [int 2; int 3; int 4; int 3; int 5; int 6].
  Definition high64 := [int 4; int 5; int 5; int 6; int 7; int 9].
  Definition low64 := [int 1; int 2; int 2; int 3; int 3; int 5].
  Definition close64 := [int 3; int 4; int 3; int 5; int 6; int 8].
  Definition vol64 := [int 10; int 30; int 20; int 50; int 40; int 70].
  Example ewma_mirror_case := @ewma_mirror f64 (B64 m) (B64Sym m) close64 2%nat.
  Example dema_mirror_case := @dema_mirror f64 (B64 m) (B64Sym m) close64 2%nat.
  Example tema_mirror_case := @tema_mirror f64 (B64 m) (B64Sym m) close64 2%nat.
  Example wma_mirror_case := @wma_mirror f64 (B64 m) (B64Sym m) close64 2%nat.
  Example pwma_mirror_case := @pwma_mirror f64 (B64 m) (B64Sym m) close64 2%nat.
  Example fwma_mirror_case := @fwma_mirror f64 (B64 m) (B64Sym m) close64 2%nat.
  Example wilder_mirror_case := @wilder_mirror f64 (B64 m) (B64Sym m) close64 2%nat.
  Example hull_mirror_case := @hull_mirror f64 (B64 m) (B64Sym m) close64 2%nat.
  Example trima_mirror_case := @trima_mirror f64 (B64 m) (B64Sym m) close64 2%nat.
  Example zlma_mirror_case := @zlma_mirror f64 (B64 m) (B64Sym m) close64 2%nat.
  Example vidya_mirror_case := @vidya_mirror f64 (B64 m) (B64Sym m) close64 2%nat.
  Example vma_mirror_case := @vma_mirror f64 (B64 m) (B64Sym m) close64 2%nat.
  Example lrf_mirror_case := @lrf_mirror f64 (B64 m) (B64Sym m) close64 2%nat.
  Example ma_mirror_case := @ma_mirror f64 (B64 m) (B64Sym m) close64 2%nat Hull.
  Example kernel_mirror_case := @kernel_mirror f64 (B64 m) (B64Sym m) close64 (int 3).
  Example alma_mirror_case := @alma_mirror f64 (B64 m) (B64Sym m) close64 2%nat (int 3) None.
  Example kama_mirror_case := @kama_mirror f64 (B64 m) (B64Sym m) close64 2%nat None None.
  Example hwma_mirror_case := @hwma_mirror f64 (B64 m) (B64Sym m) close64 None None None.
  Example ssf_mirror_case := @ssf_mirror f64 (B64 m) (B64Sym m) close64 2%nat None.
  Example t3_mirror_case := @t3_mirror f64 (B64 m) (B64Sym m) close64 2%nat None.
  Example zscore_mirror_case := @zscore_mirror f64 (B64 m) (B64Sym m) close64 2%nat.
  Example skew_mirror_case := @skew_mirror f64 (B64 m) (B64Sym m) close64 2%nat.
  Example macd_mirror_case := @macd_mirror f64 (B64 m) (B64Sym m) close64 2%nat 2%nat.
  Example apo_mirror_case := @apo_mirror f64 (B64 m) (B64Sym m) close64 2%nat 2%nat.
  Example cmo_mirror_case := @cmo_mirror f64 (B64 m) (B64Sym m) close64 2%nat.
  Example tsi_mirror_case := @tsi_mirror f64 (B64 m) (B64Sym m) close64 2%nat 2%nat.
  Example dpo_mirror_case := @dpo_mirror f64 (B64 m) (B64Sym m) close64 2%nat None.
  Example variance_mirror_case := @variance_mirror f64 (B64 m) (B64Sym m) close64 2%nat.
  Example std_dev_mirror_case := @std_dev_mirror f64 (B64 m) (B64Sym m) close64 2%nat.
  Example mad_mirror_case := @mad_mirror f64 (B64 m) (B64Sym m) close64 2%nat.
  Example kurtosis_mirror_case := @kurtosis_mirror f64 (B64 m) (B64Sym m) close64 2%nat.
  Example approx_entropy_mirror_case := @approx_entropy_mirror f64 (B64 m) (B64Sym m) close64 2%nat None None.
  Example sample_entropy_mirror_case := @sample_entropy_mirror f64 (B64 m) (B64Sym m) close64 2%nat None None.
  Example vstd_dev_mirror_case := @vstd_dev_mirror f64 (B64 m) (B64Sym m) close64 2%nat None.
  Example mse_mirror_case := @mse_mirror f64 (B64 m) (B64Sym m) close64 open64.
  Example rmse_mirror_case := @rmse_mirror f64 (B64 m) (B64Sym m) close64 open64.
  Example mae_mirror_case := @mae_mirror f64 (B64 m) (B64Sym m) close64 open64.
  Example mape_mirror_case := @mape_mirror f64 (B64 m) (B64Sym m) close64 open64.
  Example smape_mirror_case := @smape_mirror f64 (B64 m) (B64Sym m) close64 open64.
  Example mase_mirror_case := @mase_mirror f64 (B64 m) (B64Sym m) close64 open64.
  Example mass_mirror_case := @mass_mirror f64 (B64 m) (B64Sym m) high64 low64 2%nat 2%nat.
  Example gri_mirror_case := @gri_mirror f64 (B64 m) (B64Sym m) high64 low64 2%nat.
  Example tr_mirror_case := @tr_mirror f64 (B64 m) (B64Sym m) high64 low64 close64.
  Example atr_mirror_case := @atr_mirror f64 (B64 m) (B64Sym m) high64 low64 close64 2%nat.
  Example cvi_mirror_case := @cvi_mirror f64 (B64 m) (B64Sym m) high64 low64 2%nat 2%nat.
  Example chop_mirror_case := @chop_mirror f64 (B64 m) (B64Sym m) high64 low64 close64 2%nat.
  Example vhf_mirror_case := @vhf_mirror f64 (B64 m) (B64Sym m) high64 low64 close64 2%nat.
  Example typical_mirror_case := @typical_mirror f64 (B64 m) (B64Sym m) high64 low64 close64 2%nat.
  Example pgo_mirror_case := @pgo_mirror f64 (B64 m) (B64Sym m) high64 low64 close64 2%nat.
  Example relative_vigor_mirror_case := @relative_vigor_mirror f64 (B64 m) (B64Sym m) open64 high64 low64 close64 2%nat.
  Example bal_power_mirror_case := @bal_power_mirror f64 (B64 m) (B64Sym m) open64 high64 low64 close64 2%nat.
  Example cci_mirror_case := @cci_mirror f64 (B64 m) (B64Sym m) high64 low64 close64 2%nat.
  Example deli_mirror_case := @deli_mirror f64 (B64 m) (B64Sym m) high64 low64 2%nat.
  Example si_mirror_case := @si_mirror f64 (B64 m) (B64Sym m) open64 high64 low64 close64 (int 3).
  Example asi_mirror_case := @asi_mirror f64 (B64 m) (B64Sym m) open64 high64 low64 close64 (int 3).
  Example wcp_mirror_case := @wcp_mirror f64 (B64 m) (B64Sym m) high64 low64 close64.
  Example qstick_mirror_case := @qstick_mirror f64 (B64 m) (B64Sym m) open64 close64 2%nat.
  Example starc_mirror_case := @starc_mirror f64 (B64 m) (B64Sym m) high64 low64 close64 2%nat 2%nat None.
  Example elder_ray_mirror_case := @elder_ray_mirror f64 (B64 m) (B64Sym m) high64 low64 close64 2%nat.
  Example chandelier_mirror_case := @chandelier_mirror f64 (B64 m) (B64Sym m) high64 low64 close64 2%nat None.
  Example fbands_mirror_case := @fbands_mirror f64 (B64 m) (B64Sym m) high64 low64.
  Example keltner_mirror_case := @keltner_mirror f64 (B64 m) (B64Sym m) high64 low64 close64 2%nat.
  Example bbands_mirror_case := @bbands_mirror f64 (B64 m) (B64Sym m) close64 2%nat None None.
  Example donchian_mirror_case := @donchian_mirror f64 (B64 m) (B64Sym m) high64 low64 2%nat.
  Example ichimoku_mirror_case := @ichimoku_mirror f64 (B64 m) (B64Sym m) high64 low64 close64 2%nat 2%nat 2%nat 2%nat.
  Example alligator_mirror_case := @alligator_mirror f64 (B64 m) (B64Sym m) close64 2%nat 2%nat 2%nat 2%nat 2%nat 2%nat.
  Example gator_mirror_case := @gator_mirror f64 (B64 m) (B64Sym m) close64 2%nat 2%nat 2%nat 2%nat 2%nat 2%nat.
  Example adx_mirror_case := @adx_mirror f64 (B64 m) (B64Sym m) high64 low64 close64 2%nat 2%nat.
  Example vortex_mirror_case := @vortex_mirror f64 (B64 m) (B64Sym m) high64 low64 close64 2%nat.
  Example rwi_mirror_case := @rwi_mirror f64 (B64 m) (B64Sym m) high64 low64 close64 2%nat.
  Example aroon_mirror_case := @aroon_mirror f64 (B64 m) (B64Sym m) high64 low64 2%nat.
  Example frama_mirror_case := @frama_mirror f64 (B64 m) (B64Sym m) close64 2%nat.
  Example rainbow_mirror_case := @rainbow_mirror f64 (B64 m) (B64Sym m) close64 2%nat 2%nat.
  Example ad_mirror_case := @ad_mirror f64 (B64 m) (B64Sym m) high64 low64 close64 vol64.
  Example cmf_mirror_case := @cmf_mirror f64 (B64 m) (B64Sym m) high64 low64 close64 vol64 2%nat.
  Example bw_mfi_mirror_case := @bw_mfi_mirror f64 (B64 m) (B64Sym m) high64 low64 vol64.
  Example vwap_mirror_case := @vwap_mirror f64 (B64 m) (B64Sym m) high64 low64 close64 vol64 None.
  Example elder_force_mirror_case := @elder_force_mirror f64 (B64 m) (B64Sym m) close64 vol64 2%nat.
  Example vwma_mirror_case := @vwma_mirror f64 (B64 m) (B64Sym m) close64 vol64 2%nat.
  Example pcc_mirror_case := @pcc_mirror f64 (B64 m) (B64Sym m) close64 open64 2%nat.
  Example rsq_mirror_case := @rsq_mirror f64 (B64 m) (B64Sym m) close64 open64 2%nat.
  Example dcor_mirror_case := @dcor_mirror f64 (B64 m) (B64Sym m) close64 open64 2%nat.
End Market.
