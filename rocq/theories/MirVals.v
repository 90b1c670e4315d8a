(** * MirVals: prices turned upside down.

    Negating every price turns rises into falls; a bar then has minus its low as
    its high and minus its high as its low.  For every arithmetic in which
    negation commutes with the operations up to the sign of a zero ([FSym]:
    binary64 and exact arithmetic), averages and oscillators give the opposite
    values, measures of spread the same ones, upper and lower bands change places
    and sign, and the indicators of rising and of falling change places. *)

From Coq Require Import Reals Lra Lia.
From Verif Require Import Base BaseFacts Num Scale Mirror.
From Verif Require Import Distribution Regression Smooth Correlation Volatility Volume Trend Momentum.
From Verif Require Import MirRel MirBars.
Local Unset Implicit Arguments.

Section Vals.
  Context {F : Type} {FO : FOps F} {FS : FSym F}.
  (** [y] is minus [x], up to the sign of a zero *)
  Definition opposite (x y : F) : Prop := eqv y (fneg x).
  Definition neg (l : list F) : list F := map fneg l.
  (** (upper, lower) against minus (lower, upper) *)
  Definition band_mirror (x y : F * F) : Prop := opposite (snd x) (fst y) /\ opposite (fst x) (snd y).
  Lemma neg_n l : Forall2 (sm N) l (neg l).
  Proof. induction l; constructor; [reflexivity|easy]. Qed.
  Lemma neg_o l : Forall2 (sm O) l (neg l).
  Proof. apply f2_no, neg_n. Qed.
  Lemma f2_imp {A B} (P Q : A -> B -> Prop) l l' : (forall a b, P a b -> Q a b) -> Forall2 P l l' -> Forall2 Q l l'.
  Proof. intros H. induction 1; constructor; auto. Qed.
  Lemma even (x y : result (list F)) : rrel (Forall2 (sm E)) x y -> y = x.
  Proof. destruct x, y; cbn; try easy. intros H. now rewrite (f2_eq _ _ H). Qed.

  Theorem sma_mirror (l : list F) (w : nat) : rrel (Forall2 opposite) (sma l w) (sma (neg l) w).
  Proof. apply sma_mi, neg_o. Qed.
  Theorem ewma_mirror (l : list F) (w : nat) : rrel (Forall2 opposite) (ewma l w) (ewma (neg l) w).
  Proof. apply ewma_mi, neg_o. Qed.
  Theorem dema_mirror (l : list F) (w : nat) : rrel (Forall2 opposite) (dema l w) (dema (neg l) w).
  Proof. apply dema_mi, neg_o. Qed.
  Theorem tema_mirror (l : list F) (w : nat) : rrel (Forall2 opposite) (tema l w) (tema (neg l) w).
  Proof. apply tema_mi, neg_o. Qed.
  Theorem wma_mirror (l : list F) (w : nat) : rrel (Forall2 opposite) (wma l w) (wma (neg l) w).
  Proof. apply wma_mi, neg_o. Qed.
  Theorem pwma_mirror (l : list F) (w : nat) : rrel (Forall2 opposite) (pwma l w) (pwma (neg l) w).
  Proof. apply pwma_mi, neg_o. Qed.
  Theorem fwma_mirror (l : list F) (w : nat) : rrel (Forall2 opposite) (fwma l w) (fwma (neg l) w).
  Proof. apply fwma_mi, neg_o. Qed.
  Theorem wilder_mirror (l : list F) (w : nat) : rrel (Forall2 opposite) (wilder l w) (wilder (neg l) w).
  Proof. apply wilder_mi, neg_o. Qed.
  Theorem hull_mirror (l : list F) (w : nat) : rrel (Forall2 opposite) (hull l w) (hull (neg l) w).
  Proof. apply hull_mi, neg_o. Qed.
  Theorem trima_mirror (l : list F) (w : nat) : rrel (Forall2 opposite) (trima l w) (trima (neg l) w).
  Proof. apply trima_mi, neg_o. Qed.
  Theorem zlma_mirror (l : list F) (w : nat) : rrel (Forall2 opposite) (zlma l w) (zlma (neg l) w).
  Proof. apply zlma_mi, neg_o. Qed.
  Theorem vidya_mirror (l : list F) (w : nat) : rrel (Forall2 opposite) (vidya l w) (vidya (neg l) w).
  Proof. apply vidya_mi, neg_o. Qed.
  Theorem vma_mirror (l : list F) (w : nat) : rrel (Forall2 opposite) (vma l w) (vma (neg l) w).
  Proof. apply vma_mi, neg_o. Qed.
  Theorem lrf_mirror (l : list F) (w : nat) : rrel (Forall2 opposite) (lrf l w) (lrf (neg l) w).
  Proof. apply lrf_mi, neg_o. Qed.
  Theorem ma_mirror (l : list F) (w : nat) (m : MaMode) : rrel (Forall2 opposite) (ma l w m) (ma (neg l) w m).
  Proof. apply ma_mi, neg_o. Qed.
  Theorem kernel_mirror (l : list F) (s : F) : rrel (Forall2 opposite) (kernel l s) (kernel (neg l) s).
  Proof. apply kernel_mi, neg_o. Qed.
  Theorem alma_mirror (l : list F) (w : nat) (s : F) (m : option F) : rrel (Forall2 opposite) (alma l w s m) (alma (neg l) w s m).
  Proof. apply alma_mi, neg_o. Qed.
  Theorem kama_mirror (l : list F) (w : nat) (s n : option nat) : rrel (Forall2 opposite) (kama l w s n) (kama (neg l) w s n).
  Proof. apply kama_mi, neg_o. Qed.
  Theorem hwma_mirror (l : list F) (a b c : option F) : rrel (Forall2 opposite) (hwma l a b c) (hwma (neg l) a b c).
  Proof. apply hwma_mi, neg_o. Qed.
  Theorem ssf_mirror (l : list F) (w : nat) (t : option bool) : rrel (Forall2 opposite) (ssf l w t) (ssf (neg l) w t).
  Proof. apply ssf_mi, neg_o. Qed.
  Theorem t3_mirror (l : list F) (w : nat) (f : option F) : rrel (Forall2 opposite) (t3 l w f) (t3 (neg l) w f).
  Proof. apply t3_mi, neg_o. Qed.
  Theorem zscore_mirror (l : list F) (w : nat) : rrel (Forall2 opposite) (zscore l w) (zscore (neg l) w).
  Proof. apply zscore_mi, neg_o. Qed.
  Theorem skew_mirror (l : list F) (w : nat) : rrel (Forall2 opposite) (skew l w) (skew (neg l) w).
  Proof. apply skew_mi, neg_o. Qed.
  Theorem macd_mirror (l : list F) (a b : nat) : rrel (Forall2 opposite) (macd l a b) (macd (neg l) a b).
  Proof. apply macd_mi, neg_o. Qed.
  Theorem apo_mirror (l : list F) (a b : nat) : rrel (Forall2 opposite) (apo l a b) (apo (neg l) a b).
  Proof. apply apo_mi, neg_o. Qed.
  Theorem cmo_mirror (l : list F) (w : nat) : rrel (Forall2 opposite) (cmo l w) (cmo (neg l) w).
  Proof. apply cmo_mi, neg_o. Qed.
  Theorem tsi_mirror (l : list F) (a b : nat) : rrel (Forall2 opposite) (tsi l a b) (tsi (neg l) a b).
  Proof. apply tsi_mi, neg_o. Qed.
  Theorem dpo_mirror (l : list F) (w : nat) (m : option MaMode) : rrel (Forall2 opposite) (dpo l w m) (dpo (neg l) w m).
  Proof. apply dpo_mi, neg_o. Qed.
  Theorem variance_mirror (l : list F) (w : nat) : variance (neg l) w = variance l w.
  Proof. apply even, variance_mi, neg_o. Qed.
  Theorem std_dev_mirror (l : list F) (w : nat) : std_dev (neg l) w = std_dev l w.
  Proof. apply even, std_dev_mi, neg_o. Qed.
  Theorem mad_mirror (l : list F) (w : nat) : mad (neg l) w = mad l w.
  Proof. apply even, mad_mi, neg_o. Qed.
  Theorem kurtosis_mirror (l : list F) (w : nat) : kurtosis (neg l) w = kurtosis l w.
  Proof. apply even, kurtosis_mi, neg_o. Qed.
  Theorem approx_entropy_mirror (l : list F) (w : nat) (r : option nat) (t : option F) : approx_entropy (neg l) w r t = approx_entropy l w r t.
  Proof. apply even, approx_entropy_mi, neg_o. Qed.
  Theorem sample_entropy_mirror (l : list F) (w : nat) (r : option nat) (t : option F) : sample_entropy (neg l) w r t = sample_entropy l w r t.
  Proof. apply even, sample_entropy_mi, neg_o. Qed.
  Theorem vstd_dev_mirror (l : list F) (w : nat) (k : option F) : vstd_dev (neg l) w k = vstd_dev l w k.
  Proof. apply even, vstd_dev_mi, neg_o. Qed.
  Theorem mse_mirror (x y : list F) : mse (neg x) (neg y) = mse x y.
  Proof. apply f2_eq, mse_mi; apply neg_o. Qed.
  Theorem rmse_mirror (x y : list F) : rmse (neg x) (neg y) = rmse x y.
  Proof. apply f2_eq, rmse_mi; apply neg_o. Qed.
  Theorem mae_mirror (x y : list F) : mae (neg x) (neg y) = mae x y.
  Proof. apply f2_eq, mae_mi; apply neg_o. Qed.
  Theorem mape_mirror (x y : list F) : mape (neg x) (neg y) = mape x y.
  Proof. apply f2_eq, mape_mi; apply neg_o. Qed.
  Theorem smape_mirror (x y : list F) : smape (neg x) (neg y) = smape x y.
  Proof. apply f2_eq, smape_mi; apply neg_o. Qed.
  Theorem mase_mirror (x y : list F) : mase (neg x) (neg y) = mase x y.
  Proof. apply even, mase_mi; apply neg_o. Qed.
  Theorem mass_mirror (h l : list F) (s n : nat) : mass (neg l) (neg h) s n = mass h l s n.
  Proof. apply even. eapply mass_mi; apply neg_n. Qed.
  Theorem gri_mirror (h l : list F) (w : nat) : gri (neg l) (neg h) w = gri h l w.
  Proof. apply even. eapply gri_mi; apply neg_n. Qed.
  Theorem tr_mirror (h l c : list F) : tr (neg l) (neg h) (neg c) = tr h l c.
  Proof. apply even. eapply tr_mi; apply neg_n. Qed.
  Theorem atr_mirror (h l c : list F) (w : nat) : atr (neg l) (neg h) (neg c) w = atr h l c w.
  Proof. apply even. eapply atr_mi; apply neg_n. Qed.
  Theorem cvi_mirror (h l : list F) (w n : nat) : cvi (neg l) (neg h) w n = cvi h l w n.
  Proof. apply even. eapply cvi_mi; apply neg_n. Qed.
  Theorem chop_mirror (h l c : list F) (w : nat) : chop (neg l) (neg h) (neg c) w = chop h l c w.
  Proof. apply even. eapply chop_mi; apply neg_n. Qed.
  Theorem vhf_mirror (h l c : list F) (w : nat) : vhf (neg l) (neg h) (neg c) w = vhf h l c w.
  Proof. apply even. eapply vhf_mi; apply neg_n. Qed.
  Theorem typical_mirror (h l c : list F) (w : nat) : rrel (Forall2 opposite) (typical h l c w) (typical (neg l) (neg h) (neg c) w).
  Proof. eapply typical_mi; apply neg_n. Qed.
  Theorem pgo_mirror (h l c : list F) (w : nat) : rrel (Forall2 opposite) (pgo h l c w) (pgo (neg l) (neg h) (neg c) w).
  Proof. eapply pgo_mi; apply neg_n. Qed.
  Theorem relative_vigor_mirror (o h l c : list F) (w : nat) : rrel (Forall2 opposite) (relative_vigor o h l c w) (relative_vigor (neg o) (neg l) (neg h) (neg c) w).
  Proof. eapply relative_vigor_mi; apply neg_n. Qed.
  Theorem bal_power_mirror (o h l c : list F) (w : nat) : rrel (Forall2 opposite) (bal_power o h l c w) (bal_power (neg o) (neg l) (neg h) (neg c) w).
  Proof. eapply bal_power_mi; apply neg_n. Qed.
  Theorem cci_mirror (h l c : list F) (w : nat) : rrel (Forall2 opposite) (cci h l c w) (cci (neg l) (neg h) (neg c) w).
  Proof. eapply cci_mi; apply neg_n. Qed.
  Theorem deli_mirror (h l : list F) (w : nat) : rrel (Forall2 opposite) (deli h l w) (deli (neg l) (neg h) w).
  Proof. eapply deli_mi; apply neg_n. Qed.
  Theorem si_mirror (o h l c : list F) (k : F) : rrel (Forall2 opposite) (si o h l c k) (si (neg o) (neg l) (neg h) (neg c) k).
  Proof. eapply si_mi; apply neg_n. Qed.
  Theorem asi_mirror (o h l c : list F) (k : F) : rrel (Forall2 opposite) (asi o h l c k) (asi (neg o) (neg l) (neg h) (neg c) k).
  Proof. eapply asi_mi; apply neg_n. Qed.
  Theorem wcp_mirror (h l c : list F) : Forall2 opposite (wcp h l c) (wcp (neg l) (neg h) (neg c)).
  Proof. eapply wcp_mi; apply neg_n. Qed.
  Theorem qstick_mirror (o c : list F) (w : nat) : rrel (Forall2 opposite) (qstick o c w) (qstick (neg o) (neg c) w).
  Proof. apply qstick_mi; apply neg_o. Qed.
  Theorem starc_mirror (h l c : list F) (w n : nat) (k : option F) : rrel (Forall2 band_mirror) (starc h l c w n k) (starc (neg l) (neg h) (neg c) w n k).
  Proof. eapply starc_mi; apply neg_n. Qed.
  Theorem elder_ray_mirror (h l c : list F) (w : nat) : rrel (Forall2 band_mirror) (elder_ray h l c w) (elder_ray (neg l) (neg h) (neg c) w).
  Proof. eapply elder_ray_mi; apply neg_n. Qed.
  Theorem chandelier_mirror (h l c : list F) (w : nat) (k : option F) : rrel (Forall2 band_mirror) (chandelier h l c w k) (chandelier (neg l) (neg h) (neg c) w k).
  Proof. eapply chandelier_mi; apply neg_n. Qed.
  Theorem fbands_mirror (h l : list F) : Forall2 band_mirror (fbands h l) (fbands (neg l) (neg h)).
  Proof. eapply fbands_mi; apply neg_n. Qed.
  Theorem keltner_mirror (h l c : list F) (w : nat) :
    rrel (Forall2 (fun '(m, u, d) '(m', u', d') => opposite m m' /\ opposite d u' /\ opposite u d')) (keltner h l c w) (keltner (neg l) (neg h) (neg c) w).
  Proof. eapply keltner_mi; apply neg_n. Qed.
  Theorem bbands_mirror (l : list F) (w : nat) (k : option F) (m : option MaMode) :
    rrel (Forall2 (fun '(u, m, d) '(u', m', d') => opposite d u' /\ opposite m m' /\ opposite u d')) (bbands l w k m) (bbands (neg l) w k m).
  Proof. apply bbands_mi, neg_o. Qed.
  Theorem donchian_mirror (h l : list F) (w : nat) :
    rrel (Forall2 (fun '(u, m, d) '(u', m', d') => u' = fneg d /\ opposite m m' /\ d' = fneg u)) (donchian h l w) (donchian (neg l) (neg h) w).
  Proof. eapply donchian_mi; apply neg_n. Qed.
  Theorem ichimoku_mirror (h l c : list F) (cw bw lw gw : nat) :
    rrel (Forall2 (fun '(a, b, p, q, g) '(a', b', p', q', g') => opposite a a' /\ opposite b b' /\ opposite p p' /\ opposite q q' /\ opposite g g'))
      (ichimoku h l c cw bw lw gw) (ichimoku (neg l) (neg h) (neg c) cw bw lw gw).
  Proof.
    pose proof (ichimoku_mi h l c (neg l) (neg h) (neg c) (neg_n l) (neg_n h) (neg_n c) cw bw lw gw) as H.
    destruct (ichimoku h l c cw bw lw gw), (ichimoku (neg l) (neg h) (neg c) cw bw lw gw); try easy. cbn in *.
    eapply f2_imp; [|exact H]. intros [[[[? ?] ?] ?] ?] [[[[? ?] ?] ?] ?] [[[[? ?] ?] ?] ?]. cbn in *. auto.
  Qed.
  Theorem alligator_mirror (l : list F) (a b c d e f : nat) :
    rrel (Forall2 (fun '(x, y, z) '(x', y', z') => opposite x x' /\ opposite y y' /\ opposite z z')) (alligator l a b c d e f) (alligator (neg l) a b c d e f).
  Proof.
    pose proof (alligator_mi l (neg l) a b c d e f (neg_o l)) as H.
    destruct (alligator l a b c d e f), (alligator (neg l) a b c d e f); try easy. cbn in *.
    eapply f2_imp; [|exact H]. intros [[? ?] ?] [[? ?] ?] [[? ?] ?]. cbn in *. auto.
  Qed.
  Theorem gator_mirror (l : list F) (a b c d e f : nat) : gator (neg l) a b c d e f = gator l a b c d e f.
  Proof.
    pose proof (gator_mi l (neg l) a b c d e f (neg_o l)) as H.
    destruct (gator l a b c d e f), (gator (neg l) a b c d e f); try easy. cbn in *. f_equal.
    induction H as [|[? ?] [? ?] ? ? [A B]]; [easy|]. cbn in A, B. now subst.
  Qed.
  (** What points up and what points down change places, unchanged. *)
  Theorem adx_mirror (h l c : list F) (w s : nat) :
    rrel (Forall2 (fun '(p, n, a) '(p', n', a') => p' = n /\ n' = p /\ a' = a)) (adx h l c w s) (adx (neg l) (neg h) (neg c) w s).
  Proof. eapply adx_mi; apply neg_n. Qed.
  Theorem vortex_mirror (h l c : list F) (w : nat) :
    rrel (Forall2 (fun x y => fst y = snd x /\ snd y = fst x)) (vortex h l c w) (vortex (neg l) (neg h) (neg c) w).
  Proof. eapply vortex_mi; apply neg_n. Qed.
  Theorem rwi_mirror (h l c : list F) (w : nat) :
    rrel (Forall2 (fun x y => fst y = snd x /\ snd y = fst x)) (rwi h l c w) (rwi (neg l) (neg h) (neg c) w).
  Proof. eapply rwi_mi; apply neg_n. Qed.
  Theorem aroon_mirror (h l : list F) (w : nat) :
    rrel (Forall2 (fun x y => fst y = snd x /\ snd y = fst x)) (aroon h l w) (aroon (neg l) (neg h) w).
  Proof. eapply aroon_mi; apply neg_n. Qed.
  Theorem frama_mirror (l : list F) (w : nat) : rrel (orel (Forall2 opposite)) (frama l w) (frama (neg l) w).
  Proof. apply frama_mi, neg_n. Qed.
  Theorem rainbow_mirror (l : list F) (a b : nat) :
    rrel (Forall2 (fun x y => opposite (fst x) (fst y) /\ eqv (snd y) (snd x))) (rainbow l a b) (rainbow (neg l) a b).
  Proof. apply rainbow_mi, neg_n. Qed.

  (** ** with volumes, which stay as they are *)
  Theorem ad_mirror (h l c v : list F) : rrel (Forall2 opposite) (ad h l c v None) (ad (neg l) (neg h) (neg c) v None).
  Proof. eapply ad_mi; apply neg_n. Qed.
  Theorem cmf_mirror (h l c v : list F) (w : nat) : rrel (Forall2 opposite) (cmf h l c v w) (cmf (neg l) (neg h) (neg c) v w).
  Proof. eapply cmf_mi; apply neg_n. Qed.
  Theorem bw_mfi_mirror (h l v : list F) : bw_mfi (neg l) (neg h) v = bw_mfi h l v.
  Proof. apply f2_eq. eapply bw_mfi_mi; apply neg_n. Qed.
  Theorem vwap_mirror (h l c v : list F) (r : option (list nat)) : rrel (Forall2 opposite) (vwap h l c v r) (vwap (neg l) (neg h) (neg c) v r).
  Proof. eapply vwap_mi; apply neg_n. Qed.
  Theorem elder_force_mirror (c v : list F) (w : nat) : rrel (Forall2 opposite) (elder_force c v w) (elder_force (neg c) v w).
  Proof. eapply elder_force_mi; apply neg_n. Qed.
  Theorem vwma_mirror (l v : list F) (w : nat) : rrel (Forall2 opposite) (vwma l v w) (vwma (neg l) v w).
  Proof. apply vwma_mi, neg_o. Qed.

  (** ** one series turned upside down, the other one not *)
  Theorem pcc_mirror (x y : list F) (w : nat) :
    rrel (Forall2 opposite) (pcc x y w) (pcc (neg x) y w) /\ rrel (Forall2 opposite) (pcc x y w) (pcc x (neg y) w).
  Proof. split; [apply pcc_mi_l|apply pcc_mi_r]; apply neg_n. Qed.
  Theorem rsq_mirror (x y : list F) (w : nat) : rsq (neg x) y w = rsq x y w /\ rsq x (neg y) w = rsq x y w.
  Proof. split; apply even; [apply rsq_mi_l|apply rsq_mi_r]; apply neg_n. Qed.
  Theorem dcor_mirror (x y : list F) (w : nat) : dcor (neg x) y w = dcor x y w /\ dcor x (neg y) w = dcor x y w.
  Proof. split; apply even; [apply dcor_mi_l|apply dcor_mi_r]; apply neg_o. Qed.
End Vals.
