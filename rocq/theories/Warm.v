(** * Warm: the warm-up prefix of every function.

    [fn … = Ok o -> warm o k fnan] says that the first [k] outputs are NaN.  The
    first section holds for every arithmetic whatsoever; the second one, about
    functions whose warm-up comes from NaN travelling through a formula, for
    every arithmetic with the NaN laws of IEEE-754 (class [FNan] of NaN.v), in
    particular for binary64. *)

From Coq Require Import Reals Lra Lia.
From Flocq Require Import Core IEEE754.BinarySingleNaN.
From Verif Require Import Tac Smooth Distribution Regression Correlation Volume Volatility Trend Momentum.
From Verif Require Import XReal B64 NaN.
Local Unset Implicit Arguments.

Lemma warm_le {B} (o : list B) j k na : j <= k -> warm o k na -> warm o j na.
Proof. intros H W i Hi L. apply W; lia. Qed.
Lemma warm_0 {B} (o : list B) na : warm o 0 na.
Proof. intros i Hi. lia. Qed.
Lemma warm_cons {B} (o : list B) k na : warm o k na -> warm (na :: o) (S k) na.
Proof. intros W [|i] Hi L; [easy|]. cbn in *. apply W; lia. Qed.
Lemma warm_pad {B} (o : list B) j k na : warm o k na -> warm (pad j na ++ o) (j + k) na.
Proof. intros W. induction j as [|j IH]; [easy|]. now apply warm_cons. Qed.
Lemma warm_app {B} (a b : list B) k na : warm a k na -> k <= length a -> warm (a ++ b) k na.
Proof. intros W L i Hi _. rewrite nth_error_app1 by lia. apply W; lia. Qed.
Lemma warm_tail {B} (o : list B) j k na : warm o (j + k) na -> warm (skipn j o) k na.
Proof. intros W i Hi L. rewrite nth_error_skipn. rewrite skipn_length in L. apply W; lia. Qed.
Lemma warm_map {A B} (g : A -> B) o k na nb : g na = nb -> warm o k na -> warm (map g o) k nb.
Proof.
  intros <- W i Hi L. rewrite map_length in L. rewrite nth_error_map, W by lia. reflexivity.
Qed.
Lemma warm_combine_l {A B C} (g : A * B -> C) a b k na nc : (forall y, g (na, y) = nc) -> warm a k na -> warm (map g (combine a b)) k nc.
Proof.
  intros G W i Hi L. rewrite map_length, combine_length in L. rewrite nth_error_map, nth_error_combine, W by lia.
  destruct (@nth_error_is_Some B b i ltac:(lia)) as [y ->]. cbn. now rewrite G.
Qed.
Lemma warm_combine_r {A B C} (g : A * B -> C) a b k nb nc : (forall x, g (x, nb) = nc) -> warm b k nb -> warm (map g (combine a b)) k nc.
Proof.
  intros G W i Hi L. rewrite map_length, combine_length in L. rewrite nth_error_map, nth_error_combine, (W i) by lia.
  destruct (@nth_error_is_Some A a i ltac:(lia)) as [x ->]. cbn. now rewrite G.
Qed.
Lemma warm_fst {A B} (a : list A) (b : list B) k na : warm a k na -> warm (map fst (combine a b)) k na.
Proof. now apply warm_combine_l. Qed.
Lemma warm_snd {A B} (a : list A) (b : list B) k nb : warm b k nb -> warm (map snd (combine a b)) k nb.
Proof. now apply warm_combine_r. Qed.
(** Components of zipped lists. *)
Definition p3_1 {A B C} (x : A * B * C) : A := let '(a, _, _) := x in a.
Definition p3_2 {A B C} (x : A * B * C) : B := let '(_, b, _) := x in b.
Definition p3_3 {A B C} (x : A * B * C) : C := let '(_, _, c) := x in c.

Lemma usub_k a b k : usub a b = Ok k -> k = a - b /\ b <= a.
Proof. unfold usub. destruct (Nat.leb_spec b a); intros [=]. lia. Qed.
Lemma rwindows_k {A} w (l : list A) ws : rwindows w l = Ok ws -> ws = windows w l /\ 0 < w.
Proof. unfold rwindows. destruct (Nat.eqb_spec w 0); intros [=]. split; [easy|lia]. Qed.
Lemma slice_from_k {A} (l : list A) k t : slice_from l k = Ok t -> t = skipn k l /\ k <= length l.
Proof. unfold slice_from. destruct (Nat.leb_spec k (length l)); intros [=]; split; easy. Qed.

Lemma Ok_inj {A} (a b : A) : Ok a = Ok b -> a = b.
Proof. now intros [=]. Qed.

(** Take a successful call apart. *)
Ltac opn :=
  repeat first
  [ match goal with
    | |- bind (if ?b then _ else _) _ = Ok _ -> _ => destruct b eqn:?
    | |- bind ?m _ = Ok _ -> _ =>
        let E := fresh "E" in
        destruct m eqn:E; cbn [bind]; [|discriminate];
        first [ apply usub_k in E; destruct E as [E ?]; subst
              | apply rwindows_k in E; destruct E as [E ?]; subst
              | apply slice_from_k in E; destruct E as [E ?]; subst
              | idtac ]
    | |- (match ?p with pair _ _ => _ end) = Ok _ -> _ => destruct p
    | |- Panic = Ok _ -> _ => discriminate
    | |- Ok _ = Ok _ -> _ => let H := fresh in intro H; apply Ok_inj in H; subst
    | |- (if ?b then _ else _) = Ok _ -> _ => destruct b eqn:?
    end ].
Ltac padded := opn; first [ apply warm_pad_app | eapply warm_le; [|apply warm_pad_app]; lia ].

Section Any.
  Context {F : Type} {O : FOps F}.
  Local Open Scope F_scope.
  Local Notation W o k := (warm o k (@fnan F O)).
  Local Notation W2 o k := (warm o k (@fnan F O, @fnan F O)).
  Local Notation W3 o k := (warm o k (@fnan F O, @fnan F O, @fnan F O)).

  (** ** smooth.rs *)
  Theorem ewma_warm d w o : ewma d w = Ok o -> W o (w - 1).
  Proof. unfold ewma. padded. Qed.
  Theorem sma_warm d w o : sma d w = Ok o -> W o (w - 1).
  Proof. unfold sma. padded. Qed.
  Theorem wma_warm d w o : wma d w = Ok o -> W o (w - 1).
  Proof. unfold wma. padded. Qed.
  Theorem pwma_warm d w o : pwma d w = Ok o -> W o (w - 1).
  Proof. unfold pwma. padded. Qed.
  Theorem fwma_warm d w o : fwma d w = Ok o -> W o (w - 1).
  Proof. unfold fwma. padded. Qed.
  Theorem wilder_warm d w o : wilder d w = Ok o -> W o (w - 1).
  Proof.
    unfold wilder. destruct (Nat.eqb_spec w 1) as [->|]; [intros _; apply warm_0|]. padded.
  Qed.
  Theorem lrf_warm d w o : lrf d w = Ok o -> W o (w - 1).
  Proof. unfold lrf. padded. Qed.
  Theorem vidya_warm d w o : vidya d w = Ok o -> W o 23.
  Proof. unfold vidya. padded. Qed.
  Theorem vma_warm d w o : vma d w = Ok o -> W o (Nat.max w 9).
  Proof. unfold vma. padded. Qed.
  Theorem kama_warm d w s l o : kama d w s l = Ok o -> W o (w - 1).
  Proof. unfold kama. padded. Qed.
  Theorem alma_warm d w s mu o : alma d w s mu = Ok o -> W o w.
  Proof. unfold alma. padded. Qed.
  Theorem ssf_warm d w p o : ssf d w p = Ok o -> W o (if unwrap_or p false then 3 else 2).
  Proof. unfold ssf. destruct (unwrap_or p false); padded. Qed.
  Theorem mama_warm d f s o : mama d f s = Ok o -> W2 o 6.
  Proof. unfold mama. padded. Qed.
  Theorem frama_warm d w o : frama d w = Ok (Some o) -> W o (w - 1).
  Proof.
    unfold frama. destruct (negb _); [easy|]. opn. match goal with H : Some _ = Some _ |- _ => injection H as <- end. apply warm_pad_app.
  Qed.
  Theorem zlma_warm d w o : zlma d w = Ok o -> W o ((w - 1) / 2 + (w - 1)).
  Proof. unfold zlma. opn. apply warm_pad. eapply ewma_warm; eassumption. Qed.

  (** ** distribution.rs *)
  Theorem variance_warm d w o : variance d w = Ok o -> W o (w - 1).
  Proof. unfold variance. padded. Qed.
  Theorem std_dev_warm d w o : std_dev d w = Ok o -> W o (w - 1).
  Proof. unfold std_dev. padded. Qed.
  Theorem zscore_warm d w o : zscore d w = Ok o -> W o (w - 1).
  Proof. unfold zscore. padded. Qed.
  Theorem mad_warm d w o : mad d w = Ok o -> W o (w - 1).
  Proof. unfold mad. padded. Qed.
  Theorem cv_warm d w o : cv d w = Ok o -> W o (w - 1).
  Proof. unfold cv. padded. Qed.
  Theorem approx_entropy_warm d w r t o : approx_entropy d w r t = Ok o -> W o (w - 1).
  Proof. unfold approx_entropy. padded. Qed.
  Theorem sample_entropy_warm d w r t o : sample_entropy d w r t = Ok o -> W o (w - 1).
  Proof. unfold sample_entropy. padded. Qed.
  Theorem kurtosis_warm d w o : kurtosis d w = Ok o -> W o (w - 1).
  Proof. unfold kurtosis. padded. Qed.
  Theorem skew_warm d w o : skew d w = Ok o -> W o (w - 1).
  Proof. unfold skew. padded. Qed.
  Theorem quantile_warm d w q o : quantile d w q = Ok o -> W o (w - 1).
  Proof. unfold quantile. padded. Qed.
  Theorem median_warm d w o : median d w = Ok o -> W o (w - 1).
  Proof. apply quantile_warm. Qed.
  Theorem mda_warm d e o : mda d e = Ok o -> W o 1.
  Proof. unfold mda. opn. apply warm_cons, warm_0. Qed.

  (** ** correlation.rs *)
  Theorem pcc_warm a b w o : pcc a b w = Ok o -> W o (w - 1).
  Proof. unfold pcc. padded. Qed.
  Theorem beta_warm a b w o : beta a b w = Ok o -> W o (2 * (w - 1) + 1).
  Proof. unfold beta. padded. Qed.
  Theorem srcc_warm s a b w o : srcc s a b w = Ok o -> W o (w - 1).
  Proof. unfold srcc. padded. Qed.
  Theorem krcc_warm a b w o : krcc a b w = Ok o -> W o (w - 1).
  Proof. unfold krcc. padded. Qed.
  Theorem hoeffd_warm s a b w o : hoeffd s a b w = Ok o -> W o (w - 1).
  Proof. unfold hoeffd. padded. Qed.
  Theorem dcor_warm a b w o : dcor a b w = Ok o -> W o (w - 1).
  Proof. unfold dcor. padded. Qed.
  Theorem mic_warm s a b w o : mic s a b w = Ok o -> W o (w - 1).
  Proof. unfold mic. padded. Qed.

  (** ** volume.rs *)
  Theorem twiggs_warm h l c v w o : twiggs h l c v w = Ok o -> W o w.
  Proof. unfold twiggs. padded. Qed.
  Theorem ad_warm h l c v o : ad h l c v (Some true) = Ok o -> W o 1.
  Proof. unfold ad. cbn [unwrap_or negb]. opn. apply warm_cons, warm_0. Qed.
  Theorem elder_force_warm c v w o : elder_force c v w = Ok o -> W o w.
  Proof. unfold elder_force. opn. apply ewma_warm, warm_cons in E0. eapply warm_le; [|exact E0]; lia. Qed.
  Theorem mfi_warm h l c v w o : mfi h l c v w = Ok o -> W o w.
  Proof. unfold mfi. padded. Qed.
  Theorem cmf_warm h l c v w o : cmf h l c v w = Ok o -> W o (w - 1).
  Proof. unfold cmf. padded. Qed.
  Theorem tvi_warm c v t o : tvi c v t = Ok o -> W o 1.
  Proof. unfold tvi. opn. apply warm_cons, warm_0. Qed.
  Theorem ease_warm h l v w o : ease h l v w = Ok o -> W o w.
  Proof. unfold ease. opn. apply sma_warm, warm_cons in E0. eapply warm_le; [|exact E0]; lia. Qed.
  Theorem obv_warm c v o : obv c v = Ok o -> W o 1.
  Proof. unfold obv. opn. apply warm_cons, warm_0. Qed.
  Theorem pvi_warm d v : W (pvi d v) 1.
  Proof. apply warm_cons, warm_0. Qed.
  Theorem nvi_warm d v : W (nvi d v) 1.
  Proof. apply warm_cons, warm_0. Qed.
  Theorem vwma_warm d v w o : vwma d v w = Ok o -> W o (w - 1).
  Proof. unfold vwma. padded. Qed.
  Theorem vpt_warm d v o : vpt d v = Ok o -> W o 1.
  Proof. unfold vpt. opn. apply warm_cons, warm_0. Qed.

  (** ** volatility.rs *)
  Theorem gri_warm h l w o : gri h l w = Ok o -> W o (w - 1).
  Proof. unfold gri. padded. Qed.
  Theorem tr_warm h l c o : tr h l c = Ok o -> W o 1.
  Proof. unfold tr. opn. apply warm_cons, warm_0. Qed.
  Theorem atr_warm h l c w o : atr h l c w = Ok o -> W o w.
  Proof. unfold atr. opn. apply wilder_warm, warm_cons in E0. eapply warm_le; [|exact E0]; lia. Qed.
  Theorem typical_warm h l c w o : typical h l c w = Ok o -> W o (w - 1).
  Proof. apply sma_warm. Qed.
  Theorem donchian_warm h l w o : donchian h l w = Ok o -> W3 o (w - 1).
  Proof. unfold donchian. padded. Qed.
  Theorem fbands_warm h l : W2 (fbands h l) 4.
  Proof. apply warm_pad_app. Qed.
  Theorem hv_warm d w s o : hv d w s = Ok o -> W o w.
  Proof. unfold hv. padded. Qed.
  Theorem chop_warm h l c w o : chop h l c w = Ok o -> W o w.
  Proof. unfold chop. padded. Qed.
  Theorem vhf_warm h l c w o : vhf h l c w = Ok o -> W o w.
  Proof. unfold vhf. padded. Qed.
  Theorem cc_hv_warm d w o : cc_hv d w = Ok o -> W o w.
  Proof. unfold cc_hv. padded. Qed.
  Theorem gkyz_hv_warm op h l c w o : gkyz_hv op h l c w = Ok o -> W o w.
  Proof. unfold gkyz_hv. padded. Qed.

  (** ** trend.rs *)
  Theorem shinohara_warm h l c w o : shinohara h l c w = Ok o -> W (map fst o) w /\ W (map snd o) (w - 1).
  Proof. unfold shinohara. opn. split; [apply warm_fst|apply warm_snd]; apply warm_pad_app. Qed.
  Theorem vortex_warm h l c w o : vortex h l c w = Ok o -> W2 o w.
  Proof. unfold vortex. padded. Qed.
  Theorem asi_warm op h l c t o : asi op h l c t = Ok o -> W o 1.
  Proof. unfold asi. opn. apply warm_cons, warm_0. Qed.
  Theorem rwi_warm h l c w o : rwi h l c w = Ok o -> W2 o w.
  Proof. unfold rwi. padded. Qed.
  Theorem psar_warm h l a m o : psar h l a m = Ok o -> W o 1.
  Proof. unfold psar. opn. apply warm_cons, warm_0. Qed.
  Theorem dpo_warm d w m o : dpo d w m = Ok o -> W o (w - 1).
  Proof. unfold dpo. padded. Qed.
  Theorem aroon_warm h l w o : aroon h l w = Ok o -> W2 o w.
  Proof. unfold aroon. padded. Qed.
  Theorem chandelier_warm h l c w m o : chandelier h l c w m = Ok o -> W2 o w.
  Proof. unfold chandelier. padded. Qed.
  Theorem cks_warm h l c w1 w2 m o : cks h l c w1 w2 m = Ok o -> W2 o (w1 + (w2 - 1)).
  Proof. unfold cks. padded. Qed.
  Theorem atr_stop_warm h l c w m o : atr_stop h l c w m = Ok o -> W o w.
  Proof. unfold atr_stop. padded. Qed.
  Theorem hurst_warm fuel d w m o : hurst fuel d w m = Some (Ok o) -> W o (w - 1).
  Proof.
    unfold hurst. destruct (hurst_sizes _ _ _); [|easy]. intros [= H]. revert H. padded.
  Qed.
  Lemma displaced_warm d w k m o : displaced d w k m = Ok o -> W o (k + (w - 1)).
  Proof.
    unfold displaced. opn. apply warm_pad. destruct (Nat.leb_spec (w - 1) (length a)).
    - apply warm_app; [eapply wilder_warm; eassumption|easy].
    - exfalso. revert E H. unfold wilder. destruct (Nat.eqb_spec w 1) as [->|]; [cbn; lia|].
      opn. len. lia.
  Qed.
  Theorem alligator_warm d jw jo tw to lw lo o : alligator d jw jo tw to lw lo = Ok o ->
    W (map p3_1 o) (jo + (jw - 1)) /\ W (map p3_2 o) (to + (tw - 1)) /\ W (map p3_3 o) (lo + (lw - 1)).
  Proof.
    unfold alligator. opn. apply displaced_warm in E, E0, E1. unfold zip3. repeat split.
    - rewrite (map_ext _ (fun x => fst (fst x))) by (intros [[? ?] ?]; reflexivity).
      rewrite <- (map_map fst fst). intros i Hi L.
      assert (L2 : i < length (combine (combine a a0) a1)) by (len; lia). len.
      rewrite nth_error_map, nth_error_map, !nth_error_combine, E by lia.
      destruct (@nth_error_is_Some F a0 i ltac:(lia)) as [? ->], (@nth_error_is_Some F a1 i ltac:(lia)) as [? ->]. reflexivity.
    - intros i Hi L. len.
      rewrite nth_error_map, !nth_error_combine, (E0 i) by lia.
      destruct (@nth_error_is_Some F a i ltac:(lia)) as [? ->], (@nth_error_is_Some F a1 i ltac:(lia)) as [? ->]. reflexivity.
    - rewrite (map_ext p3_3 snd) by (intros [[? ?] ?]; reflexivity). now apply warm_snd.
  Qed.

  (** ** momentum.rs *)
  Theorem rsi_pad_warm d w o : rsi d w = Ok o -> W o 1.
  Proof. unfold rsi. opn. apply warm_cons, warm_0. Qed.
  Theorem cmo_warm d w o : cmo d w = Ok o -> W o w.
  Proof. unfold cmo. padded. Qed.
  Theorem wpr_warm h l c w o : wpr h l c w = Ok o -> W o (w - 1).
  Proof. unfold wpr. padded. Qed.
  Theorem pmo_warm d a b o : pmo d a b = Ok o -> W o (a + (b - 1)).
  Proof. unfold pmo. opn. apply warm_pad. eapply ewma_warm; eassumption. Qed.
  Theorem ultimate_warm h l c a b w o : ultimate h l c a b w = Ok o -> W o w.
  Proof. unfold ultimate. padded. Qed.
  Theorem si_warm op h l c t o : si op h l c t = Ok o -> W o 1.
  Proof. unfold si. opn. apply warm_cons, warm_0. Qed.
  Lemma stoch_warm h l c w s o : stoch h l c w s = Ok o -> W (map fst o) (w - 1 + (s - 1)) /\ W (map snd o) (w - 1 + (s - 1) + (s - 1)).
  Proof.
    unfold stoch. opn. repeat match goal with H : sma _ _ = Ok _ |- _ => apply sma_warm in H end.
    split; [apply warm_fst|apply warm_snd]; now apply warm_pad.
  Qed.
  Theorem stochastic_warm h l c w o : stochastic h l c w = Ok o -> W (map fst o) (w + 1) /\ W (map snd o) (w + 3).
  Proof.
    intros H. destruct (Nat.eq_dec w 0) as [->|]; [now revert H; unfold stochastic, stoch, hlc_windows|].
    apply stoch_warm in H. destruct H. split; eapply warm_le; try eassumption; lia.
  Qed.
  Theorem kdj_warm h l c k d kf df o : kdj h l c k d kf df = Ok o ->
    W (map p3_1 o) (k - 1 + (d - 1)) /\ W (map p3_2 o) (k - 1 + (d - 1) + (d - 1)).
  Proof.
    unfold kdj. opn. apply stoch_warm in E. rewrite !map_map. destruct E as [E1 E2].
    split; [rewrite (map_ext _ fst)|rewrite (map_ext _ snd)]; auto; now intros [].
  Qed.
  Theorem stc_warm d w s l o : stc d w s l = Ok o -> W o (l - 1 + (w - 1) * 2 + 2).
  Proof. unfold stc. padded. Qed.
  Theorem fisher_warm h l w o : fisher h l w = Ok o -> W o (w - 1).
  Proof. unfold fisher. padded. Qed.
  Theorem rainbow_warm d w k o : rainbow d w k = Ok o -> W2 o ((w - 1) * 10).
  Proof. unfold rainbow. padded. Qed.
  Theorem coppock_warm d w s l o : coppock d w s l = Ok o -> W o (l + (w - 1)).
  Proof. unfold coppock. opn. apply warm_pad. eapply wma_warm; eassumption. Qed.
  Theorem roc_warm d w o : roc d w = Ok o -> W o (w - 1).
  Proof. unfold roc. padded. Qed.
  Theorem bal_power_warm op h l c w o : bal_power op h l c w = Ok o -> W o (w - 1).
  Proof. apply ewma_warm. Qed.
  Theorem qstick_warm op c w o : qstick op c w = Ok o -> W o (w - 1).
  Proof. apply ewma_warm. Qed.
  Theorem cog_warm d w o : cog d w = Ok o -> W o (w - 1).
  Proof. unfold cog. padded. Qed.
  Theorem psych_warm d w o : psych d w = Ok o -> W o w.
  Proof. unfold psych. padded. Qed.
  Theorem special_k_warm d o : special_k d = Ok o -> W o 19.
  Proof. unfold special_k, prings. cbn [idx nth_error bind]. opn. eapply warm_le; [|apply warm_pad_app]. lia. Qed.
  Theorem kst_warm d r1 r2 r3 r4 p1 p2 p3 p4 o : kst d (Some (r1, r2, r3, r4)) (Some (p1, p2, p3, p4)) = Ok o -> W o (r1 + (p1 - 1)).
  Proof. unfold kst, prings. cbn [idx nth_error bind unwrap_or]. padded. Qed.
  Theorem cci_warm h l c w o : cci h l c w = Ok o -> W o (w - 1).
  Proof. unfold cci. padded. Qed.
  Theorem qqe_warm d w s o : qqe d w s = Ok o -> W o (w * 3 + (s - 1)).
  Proof. unfold qqe. padded. Qed.
End Any.

Section Nan.
  Context {F : Type} {FO : FOps F} {N : FNan FO}.
  Local Open Scope F_scope.
  Local Notation W o k := (warm o k (@fnan F FO)).

  (** Windows that still contain a NaN of the warm-up. *)
  Lemma warm_windows {B} (g : list F -> B) l w k nb : (0 < w)%nat ->
    (forall x, length x = w -> nth_error x 0 = Some fnan -> g x = nb) -> W l k -> warm (map g (windows w l)) k nb.
  Proof.
    intros Hw G WL i Hi L. rewrite map_length, length_windows in L. rewrite nth_error_map, nth_error_windows by lia. cbn. f_equal.
    apply G; [rewrite firstn_length, skipn_length; lia|].
    rewrite nth_error_firstn, nth_error_skipn, Nat.add_0_r by lia. apply WL; lia.
  Qed.
  Lemma sum_head (x : list F) : nth_error x 0 = Some fnan -> fsum x = fnan.
  Proof. intros E. apply fsum_nan. eapply nth_error_In; exact E. Qed.
  Lemma sma_warm_in d w k o : W d k -> sma d w = Ok o -> W o (w - 1 + k).
  Proof.
    intros WD. unfold sma. opn. apply warm_pad, warm_windows; auto. intros x _ E. unfold sma_win. rewrite sum_head by easy. now nans.
  Qed.
  Lemma dot_head ws (x : list F) : nth_error x 0 = Some fnan -> ws <> [] -> dot ws x = fnan.
  Proof.
    intros E Hn. unfold dot. apply sum_head. destruct x as [|a x], ws as [|b ws]; try easy. cbn in *. injection E as ->. f_equal. now nans.
  Qed.
  Lemma wma_warm_in d w k o : W d k -> wma d w = Ok o -> W o (w - 1 + k).
  Proof.
    intros WD. unfold wma. opn. apply warm_pad, warm_windows; auto. intros x _ E1. apply dot_head; [easy|].
    revert E. unfold wma_weights. opn. destruct w; [lia|]. easy.
  Qed.
  Lemma lrf_head a b c w ix (x : list F) : nth_error x 0 = Some fnan -> ix <> [] -> lrf_win a b c w ix x = fnan.
  Proof.
    intros E Hn. unfold lrf_win. destruct x as [|y x], ix as [|i ix]; try easy. cbn in E. injection E as ->.
    cbn [combine fold_left]. nans.
    assert (H : forall l s, fst s = fnan -> fst (fold_left (fun '(ys, xys) '(count, val) => (ys + val, xys + count * val)) l s) = (fnan : F)).
    { induction l as [|[c0 v] l IH]; intros [s1 s2] Hs; [easy|]. cbn [fold_left]. apply IH. cbn [fst] in *. subst. now nans. }
    match goal with |- context [fold_left ?f ?l ?s] => specialize (H l s eq_refl); destruct (fold_left f l s) as [ys xys] end.
    cbn [fst] in H. subst. now nans.
  Qed.
  Lemma lrf_warm_in d w k o : W d k -> lrf d w = Ok o -> W o (w - 1 + k).
  Proof.
    intros WD. unfold lrf. opn. apply warm_pad, warm_windows; auto. intros x L E1. apply lrf_head; [easy|]. destruct w; [lia|easy].
  Qed.

  Ltac two := intros; cbv beta iota; now nans.
  (** [g] applied to zipped series is NaN while one of them is. *)
  Lemma warm_zip3 {B} (g : F * F * F -> B) a b c k nb :
    (forall x y, g (fnan, x, y) = nb) -> (forall x y, g (x, fnan, y) = nb) -> (forall x y, g (x, y, fnan) = nb) ->
    (W a k \/ W b k \/ W c k) -> warm (map g (zip3 a b c)) k nb.
  Proof.
    intros G1 G2 G3 H i Hi L. unfold zip3 in *. len. rewrite nth_error_map, !nth_error_combine.
    destruct (@nth_error_is_Some F a i ltac:(lia)) as [x Ex], (@nth_error_is_Some F b i ltac:(lia)) as [y Ey], (@nth_error_is_Some F c i ltac:(lia)) as [z Ez].
    destruct H as [H|[H|H]]; specialize (H i Hi ltac:(lia)); rewrite Ex, Ey, Ez; cbn; f_equal; congruence.
  Qed.

  Theorem dema_warm d w o : dema d w = Ok o -> W o (2 * (w - 1)).
  Proof.
    unfold dema. opn. apply warm_combine_r with fnan; [two|]. apply warm_le with (w - 1 + (w - 1))%nat; [lia|]. apply warm_pad. eapply ewma_warm; eassumption.
  Qed.
  Theorem tema_warm d w o : tema d w = Ok o -> W o (3 * (w - 1)).
  Proof.
    unfold tema. opn. apply warm_zip3; [two..|]. right; right.
    apply warm_le with ((w - 1) * 2 + (w - 1))%nat; [lia|]. apply warm_pad. eapply ewma_warm; eassumption.
  Qed.
  Theorem t3_warm d w f o : t3 d w f = Ok o -> W o (6 * (w - 1)).
  Proof.
    unfold t3. opn. apply warm_le with ((w - 1) * 2 + ((w - 1) * 3 + (w - 1)))%nat; [lia|]. apply warm_pad.
    unfold zip4. apply warm_combine_r with fnan; [intros [[? ?] ?]; two|].
    apply warm_pad. eapply ewma_warm; eassumption.
  Qed.
  Theorem hull_warm d w o : hull d w = Ok o -> W o (w - 1 + (N.to_nat (ftoN (ffloor (fsqrt (@fofnat F FO w)))) - 1)).
  Proof.
    unfold hull. opn. intros H. rewrite Nat.add_comm. eapply wma_warm_in; [|exact H].
    apply warm_combine_r with fnan; [two|]. eapply wma_warm; eassumption.
  Qed.
  Theorem trima_warm d w o : trima d w = Ok o -> W o (w - 1).
  Proof.
    unfold trima. opn. intros H. apply sma_warm in E as WI. pose proof (sma_warm_in _ _ _ _ WI H) as WO.
    eapply warm_le; [|exact WO]. unfold sma in E. revert E. opn.
    unfold div_ceil2 in *. destruct (Nat.eqb_spec (w mod 2) 0); lia.
  Qed.

  Theorem rsq_warm a b w o : rsq a b w = Ok o -> W o (w - 1).
  Proof. unfold rsq. opn. apply warm_map with fnan; [now nans|]. eapply pcc_warm; eassumption. Qed.
  Theorem perf_warm a b w o : perf a b w = Ok o -> W o (w - 1).
  Proof. unfold perf. opn. unfold zip4. apply warm_combine_r with fnan; [intros [[? ?] ?]; two|]. eapply sma_warm; eassumption. Qed.
  Theorem kvo_warm h l c v s g alt o : kvo h l c v s g alt = Ok o -> W o (Nat.max s g).
  Proof.
    unfold kvo.
    assert (H : forall vf, (let* short_ma := ewma vf s in let* long_ma := ewma vf g in
      Ok (fnan :: map (fun '(x, y) => x - y) (combine short_ma long_ma))) = Ok o -> W o (Nat.max s g)).
    { intros vf. opn. apply ewma_warm in E, E0. apply warm_le with (S (Nat.max (s - 1) (g - 1))); [lia|]. apply warm_cons.
      destruct (Nat.max_dec (s - 1) (g - 1)) as [-> | ->]; [apply warm_combine_l with fnan|apply warm_combine_r with fnan]; auto; two. }
    destruct (unwrap_or alt true); [destruct (vforce_alt h l c v)|destruct (vforce h l c v)]; cbn [bind]; try easy; apply H.
  Qed.

  (** ** volatility.rs *)
  Theorem mass_warm h l s g o : mass h l s g = Ok o -> W o (g - 1 + 2 * (s - 1)).
  Proof.
    unfold mass. opn. apply warm_le with (g - 1 + (s - 1) + (s - 1))%nat; [lia|]. apply warm_pad, warm_windows; [easy|intros; now apply sum_head|].
    apply warm_combine_r with fnan; [two|]. eapply ewma_warm; eassumption.
  Qed.
  Lemma warm_both (a b : list F) j k g : W a j -> W b k -> (forall x, g (fnan, x) = fnan) -> (forall x, g (x, fnan) = fnan) -> W (map g (combine a b)) (Nat.max j k).
  Proof.
    intros. destruct (Nat.max_dec j k) as [-> | ->]; [apply warm_combine_l with fnan|apply warm_combine_r with fnan]; auto.
  Qed.
  Theorem keltner_warm h l c w o : keltner h l c w = Ok o -> W (map p3_1 o) (w - 1) /\ W (map p3_2 o) w /\ W (map p3_3 o) w.
  Proof.
    unfold keltner. opn. apply ewma_warm in E. apply atr_warm in E0. rewrite !map_map. repeat split.
    - apply warm_combine_l with fnan; auto.
    - apply warm_combine_r with fnan; auto. intros; cbn; now nans.
    - apply warm_combine_r with fnan; auto. intros; cbn; now nans.
  Qed.
  Theorem vstd_dev_warm d w s o : vstd_dev d w s = Ok o -> W o (w - 1).
  Proof. unfold vstd_dev. opn. apply warm_map with fnan; [now nans|]. eapply std_dev_warm; eassumption. Qed.
  Theorem bbands_warm d w s m o : bbands d w s m = Ok o -> W (map p3_1 o) (w - 1) /\ W (map p3_3 o) (w - 1).
  Proof.
    unfold bbands. opn. apply vstd_dev_warm in E0. rewrite !map_map. split; apply warm_combine_r with fnan; auto; intros; cbn; now nans.
  Qed.
  Theorem starc_warm h l c w m x o : starc h l c w m x = Ok o ->
    W (map fst o) (Nat.max w (m - 1)) /\ W (map snd o) (Nat.max w (m - 1)).
  Proof.
    unfold starc. opn. apply atr_warm in E. apply sma_warm in E0. rewrite !map_map.
    split; apply warm_both; auto; intros; cbn; now nans.
  Qed.
  Lemma roc_head (x : list F) : nth_error x 0 = Some fnan -> #100 * (last_ x / at_ x 0 - #1) = fnan.
  Proof. intros E. unfold at_. destruct x; [easy|]. cbn in E. injection E as ->. cbn [nth]. now nans. Qed.
  Theorem cvi_warm h l w r o : cvi h l w r = Ok o -> W o (r + (w - 1)).
  Proof.
    unfold cvi. opn. apply warm_pad, warm_windows; [lia|intros; now apply roc_head|]. eapply ewma_warm; eassumption.
  Qed.
  Theorem relative_vol_warm c w s o : relative_vol c w s = Ok o -> W o (w - 1 + (s - 1)).
  Proof.
    unfold relative_vol. opn. apply warm_pad. apply warm_combine_l with fnan; [two|]. eapply wilder_warm; eassumption.
  Qed.
  Theorem inertia_warm c w s o : inertia c w s = Ok o -> W o (2 * (w - 1) + (s - 1)).
  Proof.
    unfold inertia. opn. intros H. apply relative_vol_warm in E. pose proof (lrf_warm_in _ _ _ _ E H). eapply warm_le; [|eassumption]. lia.
  Qed.

  (** ** momentum.rs *)
  Theorem rsi_warm d w o : rsi d w = Ok o -> W o w.
  Proof.
    unfold rsi. opn. apply warm_le with (S (w - 1)); [lia|]. apply warm_cons. apply warm_combine_l with fnan; [intros; unfold rsi_ratio; now nans|]. eapply wilder_warm; eassumption.
  Qed.
  Theorem crsi_warm d r s k o : crsi d r s k = Ok o -> W o (Nat.max (Nat.max r (s + 1)) k).
  Proof.
    unfold crsi. opn. apply rsi_warm in E, E0. apply warm_zip3; [two..|].
    assert (Q : W (pad k fnan ++ map (percent_rank k) (windows k (map snd (scan streak_step (#0, #0) (pairs d))))) k) by apply warm_pad_app.
    apply warm_cons in E0. rewrite <- Nat.add_1_r in E0.
    destruct (Nat.max_dec (Nat.max r (s + 1)) k) as [-> | ->]; [|now right; right].
    destruct (Nat.max_dec r (s + 1)) as [-> | ->]; auto.
  Qed.
  Theorem macd_warm d s l o : macd d s l = Ok o -> W o (Nat.max (s - 1) (l - 1)).
  Proof. unfold macd. opn. apply ewma_warm in E, E0. apply warm_both; auto; two. Qed.
  Theorem ppo_warm d s l o : ppo d s l = Ok o -> W o (Nat.max (s - 1) (l - 1)).
  Proof. unfold ppo. opn. apply ewma_warm in E, E0. apply warm_both; auto; two. Qed.
  Theorem apo_warm d s l o : apo d s l = Ok o -> W o (Nat.max (s - 1) (l - 1)).
  Proof. unfold apo. opn. apply ewma_warm in E, E0. apply warm_both; auto; two. Qed.
  Theorem cfo_warm d w o : cfo d w = Ok o -> W o (w - 1).
  Proof. unfold cfo. opn. apply lrf_warm in E. apply warm_combine_l with fnan; auto; two. Qed.
  Theorem elder_ray_warm h l c w o : elder_ray h l c w = Ok o -> W (map fst o) (w - 1) /\ W (map snd o) (w - 1).
  Proof.
    unfold elder_ray. opn. apply ewma_warm in E. rewrite !map_map. unfold zip3. split; apply warm_combine_r with fnan; auto; intros [? ?]; cbn; now nans.
  Qed.
  Theorem pgo_warm h l c w o : pgo h l c w = Ok o -> W o w.
  Proof.
    unfold pgo. opn. apply ewma_warm, warm_cons in E0. apply warm_zip3; [two..|]. right; right. eapply warm_le; [|exact E0]. lia.
  Qed.
  Theorem trix_warm d w o : trix d w = Ok o -> W o (3 * (w - 1) + 1).
  Proof.
    unfold trix. opn. apply warm_le with ((w - 1) * 2 + 1 + (w - 1))%nat; [lia|]. apply warm_pad.
    repeat match goal with H : ewma _ _ = Ok _ |- _ => apply ewma_warm in H end.
    apply warm_combine_l with fnan; auto; two.
  Qed.
  Theorem relative_vigor_warm op h l c w o : relative_vigor op h l c w = Ok o -> W o (3 + (w - 1)).
  Proof.
    unfold relative_vigor. cbn zeta. opn. apply warm_pad. apply sma_warm in E. apply warm_combine_l with fnan; auto; two.
  Qed.
  Theorem disparity_warm d w o : disparity d w = Ok o -> W o (w - 1).
  Proof. unfold disparity. opn. apply ewma_warm in E. apply warm_combine_r with fnan; auto; two. Qed.
  Theorem tsi_warm d s l o : tsi d s l = Ok o -> W o (l + (s - 1)).
  Proof.
    unfold tsi. cbn zeta. opn. apply warm_pad. repeat match goal with H : ewma _ _ = Ok _ |- _ => apply ewma_warm in H end.
    apply warm_combine_l with fnan; auto; two.
  Qed.
  Theorem derivative_warm d a b s o : derivative d a b s = Ok o -> W o (a + (a - 1) + (s - 1 + (b - 1))).
  Proof.
    unfold derivative. opn. apply warm_pad. apply warm_combine_l with fnan; [two|]. eapply sma_warm_in; [|eassumption]. eapply ewma_warm; eassumption.
  Qed.
  Theorem deli_warm h l w o : deli h l w = Ok o -> W o (2 * w + (w - 1)).
  Proof.
    unfold deli. cbn zeta. opn. apply warm_pad. repeat match goal with H : ewma _ _ = Ok _ |- _ => apply ewma_warm in H end.
    apply warm_combine_r with fnan; auto; two.
  Qed.
  Theorem gator_warm d jw jo tw to lw lo o : gator d jw jo tw to lw lo = Ok o ->
    W (map fst o) (Nat.max (jo + (jw - 1)) (to + (tw - 1))) /\ W (map snd o) (Nat.max (to + (tw - 1)) (lo + (lw - 1))).
  Proof.
    unfold gator. opn. apply alligator_warm in E. destruct E as (E1 & E2 & E3). rewrite !map_map.
    assert (Q : forall (p q : F * F * F -> F) j k, W (map p a) j -> W (map q a) k ->
      W (map (fun x => fabs (p x - q x)) a) (Nat.max j k)).
    { intros p q j k H1 H2 i Hi L. rewrite map_length in L. specialize (H1 i). specialize (H2 i). rewrite map_length, nth_error_map in H1, H2.
      rewrite nth_error_map. destruct (@nth_error_is_Some _ a i L) as [x Ex]. rewrite Ex in *. cbn in *.
      destruct (Nat.max_dec j k) as [Em|Em]; rewrite Em in Hi; [specialize (H1 Hi L); injection H1 as ->|specialize (H2 Hi L); injection H2 as ->]; f_equal; now nans. }
    split; [rewrite (map_ext _ (fun x => fabs (p3_1 x - p3_2 x)))|rewrite (map_ext _ (fun x => fabs (p3_2 x - p3_3 x)))]; try (now intros [[? ?] ?]); now apply Q.
  Qed.
  Theorem kdj_j_warm h l c k d kf df o : kdj h l c k d kf df = Ok o -> W (map p3_3 o) (k - 1 + (d - 1) + (d - 1)).
  Proof.
    unfold kdj. opn. apply stoch_warm in E. destruct E as [_ E]. rewrite map_map. intros i Hi L. rewrite map_length in L.
    specialize (E i Hi). rewrite map_length, nth_error_map in E. specialize (E L). rewrite nth_error_map.
    destruct (nth_error a i) as [[x y]|]; [|easy]. cbn in *. injection E as ->. f_equal. now nans.
  Qed.

  (** ** trend.rs *)
  Theorem adx_warm h l c w s o : adx h l c w s = Ok o ->
    W (map p3_1 o) w /\ W (map p3_2 o) w /\ W (map p3_3 o) (w + (s - 1)).
  Proof.
    unfold adx. opn. repeat match goal with H : wilder _ _ = Ok _ |- _ => apply wilder_warm in H end.
    cbn [map p3_1 p3_2 p3_3]. unfold zip3.
    assert (Z : forall (x y z : list F) k, W x k -> W (map p3_1 (combine (combine x y) z)) k /\ W (map p3_2 (combine (combine y x) z)) k /\ W (map p3_3 (combine (combine y z) x)) k).
    { intros x y z k Hx. repeat split; intros i Hi L; len; rewrite nth_error_map, !nth_error_combine, (Hx i) by lia;
      destruct (@nth_error_is_Some F y i ltac:(lia)) as [? ->], (@nth_error_is_Some F z i ltac:(lia)) as [? ->]; reflexivity. }
    assert (D : forall (p q : list F), W p (w - 1) -> W (map di_ratio (combine p q)) (w - 1)).
    { intros. apply warm_combine_l with fnan; auto. intros; unfold di_ratio; now nans. }
    repeat split.
    - apply warm_le with (S (w - 1)); [lia|]. apply warm_cons. now apply Z, D.
    - apply warm_le with (S (w - 1)); [lia|]. apply warm_cons. now apply Z, D.
    - apply warm_le with (S (w - 1 + (s - 1))); [lia|]. apply warm_cons. now apply Z, warm_pad.
  Qed.
  Theorem ulcer_warm d w o : ulcer d w = Ok o -> W o (2 * (w - 1)).
  Proof.
    unfold ulcer. opn. apply warm_le with (w - 1 + (w - 1))%nat; [lia|]. apply warm_pad, warm_map with fnan; [now nans|]. eapply sma_warm; eassumption.
  Qed.
  Theorem supertrend_warm h l c w m o : supertrend h l c w m = Ok o -> W o w.
  Proof.
    unfold supertrend. opn. apply atr_warm in E. unfold zip4. set (z := zip3 h l c). clearbody z.
    generalize fminpos. intros pc. revert z w pc E. induction a as [|t a IH]; intros z w pc E.
    { destruct z; intros i Hi L; cbn in L; lia. }
    destruct z as [|[[hh ll] cc] z]; [intros i Hi L; cbn in L; lia|].
    destruct w as [|w]; [apply warm_0|].
    assert (t = fnan) as -> by (specialize (E 0%nat ltac:(lia) ltac:(cbn; lia)); cbn in E; congruence).
    cbn [combine scan supertrend_step]. unfold fgtb. nans. apply warm_cons. apply IH.
    intros i Hi L. apply (E (S i)); cbn; lia.
  Qed.
  (** The five lines of [ichimoku]. *)
  Theorem ichimoku_warm h l c cw bw lw gw o : ichimoku h l c cw bw lw gw = Ok o ->
    W (map (fun '(a, _, _, _, _) => a) o) (cw - 1) /\ W (map (fun '(_, a, _, _, _) => a) o) (bw - 1) /\
    W (map (fun '(_, _, a, _, _) => a) o) (bw + Nat.max (cw - 1) (bw - 1)) /\ W (map (fun '(_, _, _, a, _) => a) o) (lw - 1 + bw).
  Proof.
    unfold ichimoku. cbn zeta. opn. unfold zip5, zip4, zip3.
    match goal with H1 : midpoints h l cw = Ok ?x, H2 : midpoints h l bw = Ok ?y, H3 : midpoints h l lw = Ok ?z |- _ => rename x into m1, y into m2, z into m3 end.
    set (l1 := (pad (cw - 1) fnan ++ m1) ++ pad bw fnan). set (l2 := (pad (bw - 1) fnan ++ m2) ++ pad bw fnan).
    set (l3 := pad bw fnan ++ map _ _). set (l4 := pad (lw - 1 + bw) fnan ++ m3). set (l5 := skipn gw c ++ _).
    assert (W1 : W l1 (cw - 1)) by (unfold l1; rewrite <- app_assoc; apply warm_pad_app).
    assert (W2 : W l2 (bw - 1)) by (unfold l2; rewrite <- app_assoc; apply warm_pad_app).
    assert (W3 : W l3 (bw + Nat.max (cw - 1) (bw - 1))).
    { apply warm_pad, warm_both; try apply warm_pad_app; two. }
    assert (W4 : W l4 (lw - 1 + bw)) by apply warm_pad_app.
    clearbody l1 l2 l3 l4 l5.
    repeat split; intros i Hi L; len; rewrite nth_error_map, !nth_error_combine;
    destruct (@nth_error_is_Some F l1 i ltac:(lia)) as [x1 E1'], (@nth_error_is_Some F l2 i ltac:(lia)) as [x2 E2'],
      (@nth_error_is_Some F l3 i ltac:(lia)) as [x3 E3'], (@nth_error_is_Some F l4 i ltac:(lia)) as [x4 E4'], (@nth_error_is_Some F l5 i ltac:(lia)) as [x5 E5'];
    rewrite E1', E2', E3', E4', E5'; cbn; rewrite <- ?E1', <- ?E2', <- ?E3', <- ?E4'; auto; [apply W1|apply W2|apply W3|apply W4]; lia.
  Qed.
End Nan.

Section Tii.
  Context {F : Type} {FO : FOps F} {N : FNan FO}.
  Local Open Scope F_scope.
  Lemma tii_warm_any (d : list F) w o : #100 * #0 = (#0 : F) -> tii d w = Ok o -> warm o (w - 1) fnan.
  Proof.
    intros H100. unfold tii. cbn zeta. opn. match goal with H : sma _ _ = Ok _ |- _ => apply sma_warm in H end.
    set (devs := map _ (combine a d)). assert (D : warm devs (w - 1) (#0, #0)).
    { apply warm_combine_l with fnan; auto. intros y. nans. rewrite fmax_nan_l, fmin_nan_l. now rewrite zero_abs. }
    clearbody devs. intros i Hi L. rewrite app_length, length_pad, map_length, length_windows in L.
    destruct (le_lt_dec (div_ceil2 w - 1) i) as [Hk|Hk]; [|rewrite nth_error_app1 by (now rewrite length_pad); now apply nth_error_pad].
    rewrite nth_error_app2, length_pad by now rewrite length_pad.
    rewrite nth_error_map, nth_error_windows by lia. cbn. f_equal. unfold tii_win.
    assert (A : forall x, In x (firstn (div_ceil2 w) (skipn (i - (div_ceil2 w - 1)) devs)) -> x = (#0, #0)).
    { intros x Hx. apply In_nth_error in Hx. destruct Hx as [j Hj].
      assert (Lj : (j < length (firstn (div_ceil2 w) (skipn (i - (div_ceil2 w - 1)) devs)))%nat) by (apply nth_error_Some; congruence).
      rewrite firstn_length, skipn_length in Lj. rewrite nth_error_firstn, nth_error_skipn in Hj by lia.
      rewrite D in Hj by lia. congruence. }
    assert (Q : forall l, (forall x, In x l -> x = (#0, #0)) -> fold_left (fun '(a, b) '(x, y) => (a + x, b + y)) l (#0, #0) = ((#0, #0) : F * F)).
    { induction l as [|x l IH]; intros Hl; [easy|]. cbn [fold_left]. rewrite (Hl x) by now left. rewrite zero_add. apply IH. intros y Hy. apply Hl. now right. }
    rewrite Q by easy. now rewrite zero_add, H100, zero_div.
  Qed.
End Tii.
Theorem tii_warm_f64 (m : libm) (d : list f64) w o : @tii f64 (B64 m) d w = Ok o -> warm o (w - 1) (@fnan f64 (B64 m)).
Proof. apply (@tii_warm_any f64 (B64 m) _). apply B2SF_inj. vm_compute. reflexivity. Qed.
Theorem tii_warm (d : list xr) w o : tii d w = Ok o -> warm o (w - 1) (@fnan xr XR).
Proof. apply (@tii_warm_any xr XR _). cbn. f_equal. lra. Qed.
