(** * ShiftTrend: trend.rs and momentum.rs run on prices and on the same prices plus a constant. *)

From Coq Require Import Reals Lra Lia.
From Verif Require Import Base BaseFacts Num XReal XRFacts Scale Shift.
From Verif Require Import Distribution Regression Smooth Correlation Volatility Volume Trend Momentum.
From Verif Require Import RSpec ShiftRel ShiftStat ShiftVol.
From Verif Require ScaleRel.
Local Unset Implicit Arguments.

Local Notation ss g := (Forall2 (Shift.sim g)).
Local Notation P2 a b := (prel (Shift.sim a) (Shift.sim b)).

(** ** trend.rs *)

Lemma swing_sh g o o' h h' l l' c c' t : ss g o o' -> ss g h h' -> ss g l l' -> ss g c c' ->
  rrel (ss 0) (swing o h l c t) (swing o' h' l' c' t).
Proof. intros. unfold swing, swing_bar. sims. Qed.
Lemma shinohara_sh g h h' l l' c c' w : ss g h h' -> ss g l l' -> ss g c c' ->
  rrel (Forall2 (P2 0 0)) (shinohara h l c w) (shinohara h' l' c' w).
Proof.
  intros. unfold shinohara, shinohara_ratio.
  eapply r_bind; [eapply r_rwindows; eassumption|intros wh wh' ?]. eapply r_bind; [eapply r_rwindows; eassumption|intros wl wl' ?].
  eapply r_bind; [eapply r_rwindows; eassumption|intros wc wc' ?]. cbv zeta.
  assert (S : forall x x', Forall2 (wrel w (Shift.sim g)) x x' -> ss (INR w * g) (map fsum x) (map fsum x')).
  { intros. eapply f2_map; [eassumption|]. intros p q (? & <- & ?). eapply s_fsum; [eassumption|reflexivity]. }
  pose proof (S _ _ H2). pose proof (S _ _ H3). pose proof (S _ _ H4). revert H5 H6 H7.
  generalize (map fsum wh) (map fsum wh') (map fsum wl) (map fsum wl') (map fsum wc) (map fsum wc'). intros. clear S H2 H3 H4. sims.
Qed.
Lemma bar_pairs_sh g h h' l l' c c' : ss g h h' -> ss g l l' -> ss g c c' ->
  rrel (Forall2 (prel (prel (prel (P2 g g) (Shift.sim g)) (Shift.sim g)) (Shift.sim g))) (bar_pairs h l c) (bar_pairs h' l' c').
Proof. intros. unfold bar_pairs. sims. Qed.
Lemma adx_sh g h h' l l' c c' w s : ss g h h' -> ss g l l' -> ss g c c' ->
  rrel (Forall2 (prel (P2 0 0) (Shift.sim 0))) (adx h l c w s) (adx h' l' c' w s).
Proof.
  intros. unfold adx. eapply r_bind; [eapply bar_pairs_sh; eassumption|intros b b' Hb].
  assert (E1 : map bar_tr b' = map bar_tr b) by (apply f2_same0; eapply f2_map; [exact Hb|]; intros; brk; unfold bar_tr; sims).
  assert (E2 : map dm_pos b' = map dm_pos b) by (apply f2_same0; eapply f2_map; [exact Hb|]; intros; brk; unfold dm_pos; sims).
  assert (E3 : map dm_neg b' = map dm_neg b) by (apply f2_same0; eapply f2_map; [exact Hb|]; intros; brk; unfold dm_neg; sims).
  rewrite E1, E2, E3. unfold di_ratio, dx_ratio. sims.
Qed.
Lemma vortex_sh g h h' l l' c c' w : ss g h h' -> ss g l l' -> ss g c c' ->
  rrel (Forall2 (P2 0 0)) (vortex h l c w) (vortex h' l' c' w).
Proof.
  intros. unfold vortex. eapply r_bind; [eapply bar_pairs_sh; eassumption|intros b b' Hb].
  assert (E : map vortex_bar b' = map vortex_bar b).
  { apply f2_eq_eq. eapply f2_map; [exact Hb|]. intros; brk. unfold vortex_bar.
    f_equal; [f_equal|]; symmetry; apply s_eq; sims. }
  rewrite E. eapply r_bind; [apply r_refl|intros ? ? <-]. apply r_ok. 
  apply f2_app; [|sims]. eapply f2_map; [apply f2_refl|]. intros ? ? <-. destruct (vortex_win a0). sims.
Qed.
Lemma asi_sh g o o' h h' l l' c c' t : ss g o o' -> ss g h h' -> ss g l l' -> ss g c c' ->
  rrel (ss 0) (asi o h l c t) (asi o' h' l' c' t).
Proof. intros. unfold asi. call (swing_sh g). sims. Qed.
Lemma rwi_sh g h h' l l' c c' w : ss g h h' -> ss g l l' -> ss g c c' ->
  rrel (Forall2 (P2 0 0)) (rwi h l c w) (rwi h' l' c' w).
Proof.
  intros. unfold rwi. sims. unfold rwi_win. folds (prel (P2 0 0) (Shift.sim 0)); sims. unfold rwi_step. sims.
Qed.
Definition psar_sh_st (g : R) (s s' : psar_state) : Prop :=
  Shift.sim 0 (ps_af s) (ps_af s') /\ ps_fall s' = ps_fall s /\ Shift.sim g (ps_sar s) (ps_sar s') /\ Shift.sim g (ps_ep s) (ps_ep s').
Lemma psar_sh g h h' l l' a m : ss g h h' -> ss g l l' -> rrel (ss g) (psar h l a m) (psar h' l' a m).
Proof.
  intros Hh Hl. unfold psar. cbv zeta. set (ai := unwrap_or a _). set (am := unwrap_or m _).
  eapply (r_bind (Shift.sim g)); [sims|intros h0 h0' ?]. eapply (r_bind (Shift.sim g)); [sims|intros l0 l0' ?].
  lens. eapply r_bind; [apply r_refl|intros ? ? <-]. eapply (r_bind (ss g)); [|intros; sims].
  eapply (r_scan eq _ (psar_sh_st g)); [apply f2_refl|unfold psar_sh_st; cbn [ps_af ps_fall ps_sar ps_ep]; repeat split; first [apply s_same|assumption]|].
  intros s s' i ? (A & B & C & D) <-. unfold psar_step.
  do 4 (eapply (r_bind (Shift.sim g)); [sims|intros]).
  match goal with |- context [psar_body _ _ s ?x1 ?x2 ?x3 ?x4] => match goal with |- context [psar_body _ _ s' ?y1 ?y2 ?y3 ?y4] =>
    assert (E : psar_sh_st g (psar_body ai am s x1 x2 x3 x4) (psar_body ai am s' y1 y2 y3 y4)) end end.
  2: { cbv zeta. apply r_ok. split; [exact E|apply E]. }
  destruct s as [af fall sar ep], s' as [af' fall' sar' ep']. cbn [ps_af ps_fall ps_sar ps_ep] in *. subst fall'.
  unfold psar_body. cbv zeta. apply s_eq in A. subst af'.
  assert (S1 : Shift.sim g (sar + af * (ep - sar))%F (sar' + af * (ep' - sar'))%F).
  { eapply (s_add g 0); [exact C| |ring]. apply s_fun2; [apply s_same|]. eapply s_sub; [exact D|exact C|ring]. }
  revert S1. generalize (sar + af * (ep - sar))%F (sar' + af * (ep' - sar'))%F. intros z z' S1.
  assert (G : forall x x' y y', Shift.sim g x x' -> Shift.sim g y y' -> fgtb x' y' = fgtb x y) by (intros; unfold fgtb; eapply s_ltb; eassumption).
  assert (L : forall x x' y y', Shift.sim g x x' -> Shift.sim g y y' -> fltb x' y' = fltb x y) by (intros; eapply s_ltb; eassumption).
  repeat match goal with
    | Ha : Shift.sim g ?a ?a', Hb : Shift.sim g ?b ?b' |- context [fgtb ?a' ?b'] => rewrite (G _ _ _ _ Ha Hb)
    | Ha : Shift.sim g ?a ?a', Hb : Shift.sim g ?b ?b' |- context [fltb ?a' ?b'] => rewrite (L _ _ _ _ Ha Hb)
    end.
  destruct fall; match goal with |- psar_sh_st g (if ?b then _ else _) _ => destruct b end; unfold psar_sh_st; cbn [negb ps_af ps_fall ps_sar ps_ep]; repeat split;
    first [apply s_same | assumption | (apply s_max; [apply s_max|]; assumption) | (apply s_min; [apply s_min|]; assumption) | (apply p_if; [reflexivity|assumption|assumption]) ].
Qed.
Lemma dpo_sh g l l' w m : affine_mode (unwrap_or m SMA) = true -> ss g l l' -> rrel (ss 0) (dpo l w m) (dpo l' w m).
Proof. intros. unfold dpo. eapply r_bind; [apply ma_sh; eassumption|intros]. sims. Qed.
Lemma arg_last_sh g (bt : xr -> xr -> bool) l l' :
  (forall a a' b b', Shift.sim g a a' -> Shift.sim g b b' -> bt a' b' = bt a b) ->
  ss g l l' -> arg_last bt l' = arg_last bt l.
Proof.
  intros B H. unfold arg_last. symmetry.
  apply (f2_fold (prel eq (Shift.sim g)) (prel eq (Shift.sim g))); [now apply f2_enumerate|split; [easy|now apply s_at]|].
  intros [n x] [n' x'] [i y] [i' y'] [Hn Hx] [Hi Hy]. cbn [fst snd] in *. subst. apply p_if; [now apply B|split; easy|split; easy].
Qed.
Lemma aroon_sh g h h' l l' w : ss g h h' -> ss g l l' -> rrel (Forall2 (P2 0 0)) (aroon h l w) (aroon h' l' w).
Proof.
  intros. unfold aroon. apply r_ok. apply f2_app; [|sims].
  eapply f2_map; [apply f2_combine; apply f2_windows; eassumption|]. intros [x y] [x' y'] [Hx Hy]. cbn [fst snd] in *. unfold aroon_win.
  rewrite (arg_last_sh g fgeb x x'), (arg_last_sh g fleb y y'); try assumption; [sims| |].
  - intros. eapply s_leb; eassumption.
  - intros. unfold fgeb. eapply s_leb; eassumption.
Qed.
Lemma chandelier_sh g h h' l l' c c' w m : ss g h h' -> ss g l l' -> ss g c c' ->
  rrel (Forall2 (P2 g g)) (chandelier h l c w m) (chandelier h' l' c' w m).
Proof. intros. unfold chandelier, stop_win. sims. Qed.
Lemma displaced_sh g l l' w o mo : ss g l l' -> rrel (ss g) (displaced l w o mo) (displaced l' w o mo).
Proof. intros. unfold displaced. call (wilder_sh g). sims. Qed.
Lemma alligator_sh g l l' jw jo tw to lw lo : ss g l l' ->
  rrel (Forall2 (prel (P2 g g) (Shift.sim g))) (alligator l jw jo tw to lw lo) (alligator l' jw jo tw to lw lo).
Proof.
  intros. unfold alligator. do 3 (eapply (r_bind (ss g)); [now apply displaced_sh|intros]). sims.
Qed.
Lemma midpoints_sh g h h' l l' w : ss g h h' -> ss g l l' -> rrel (ss g) (midpoints h l w) (midpoints h' l' w).
Proof. intros. unfold midpoints. sims. Qed.
Lemma ichimoku_sh g h h' l l' c c' a b e f : ss g h h' -> ss g l l' -> ss g c c' ->
  rrel (Forall2 (prel (prel (prel (P2 g g) (Shift.sim g)) (Shift.sim g)) (Shift.sim g))) (ichimoku h l c a b e f) (ichimoku h' l' c' a b e f).
Proof.
  intros. unfold ichimoku.
  do 3 (eapply r_bind; [apply r_refl|intros ? ? <-]; eapply (r_bind (ss g)); [now apply midpoints_sh|intros]).
  sims.
Qed.
Lemma supertrend_sh g h h' l l' c c' w m : ss g h h' -> ss g l l' -> ss g c c' ->
  rrel (ss g) (supertrend h l c w m) (supertrend h' l' c' w m).
Proof.
  intros. unfold supertrend. eapply r_bind; [eapply atr_sh; eassumption|intros]. apply r_ok.
  assert (E : Forall2 (prel (prel (P2 g g) (Shift.sim g)) (Shift.sim 0)) (zip4 h l c a) (zip4 h' l' c' a')) by sims.
  destruct E as [|x x' z z' Hx Hz]; [constructor|]. brk. cbn [scan]. rewrite !ScaleRel.supertrend_first.
  constructor; [sims|]. eapply (f2_scan _ _ (prel (prel (P2 g g) (Shift.sim g)) (fun b b' : bool => b' = b))); [exact Hz|sims|]. clear. intros. brk. subst.
  unfold supertrend_step. cbv zeta. sims.
Qed.
Lemma hurst_rs_sh g l l' : ss g l l' -> l <> [] -> hurst_rs l' = hurst_rs l.
Proof.
  intros H N. unfold hurst_rs. rewrite (f2_length _ _ _ H). assert (L : (0 < length l)%nat) by (destruct l; [easy|cbn; lia]).
  assert (A : Shift.sim g (fdiv (fsum l) (fofnat (length l))) (fdiv (fsum l') (fofnat (length l)))) by sims.
  revert A. generalize (fdiv (fsum l) (fofnat (length l))) (fdiv (fsum l') (fofnat (length l))). intros m m' A.
  assert (E : forall st, fold_left (hurst_step m') l' st = fold_left (hurst_step m) l st).
  { clear N L. induction H as [|x y l l' Hx _ IH]; intros st; cbn [fold_left]; [easy|]. rewrite IH. f_equal.
    destruct st as [[[p q] r] s]. unfold hurst_step. now rewrite (s_eq (x - m)%F (y - m')%F) by sims. }
  now rewrite E.
Qed.
Lemma hurst_sh g fuel l l' w m : ss g l l' -> hurst fuel l' w m = hurst fuel l w m.
Proof.
  intros H. unfold hurst. destruct (hurst_sizes _ _ _) as [sz|]; [|easy]. f_equal. generalize (map N.to_nat sz ++ [w]). intros sizes.
  apply r_same0. eapply r_bind; [apply r_refl|intros ? ? <-].
  eapply r_bind; [eapply r_rwindows; eassumption|intros ws ws' Hw]. eapply (r_bind (ss 0)); [|intros; sims].
  eapply r_rmap; [exact Hw|]. clear. intros x x' (H & _ & _). unfold hurst_win.
  assert (E : forall s, hurst_point x' s = hurst_point x s).
  { intros s. unfold hurst_point. destruct (Nat.eqb_spec s 0) as [|Hs]; [easy|]. cbv zeta. unfold chunks_exact. rewrite (f2_length _ _ _ H), !map_length. do 3 f_equal.
    assert (C : forall j, (j < length x / s)%nat -> hurst_rs (firstn s (skipn (j * s) x')) = hurst_rs (firstn s (skipn (j * s) x))).
    { intros j Hj. apply hurst_rs_sh with g; [sims|]. intros E. apply (f_equal (@length _)) in E. rewrite firstn_length, skipn_length in E. cbn [length] in E.
      assert (S j * s <= length x)%nat; [|lia]. transitivity (s * (length x / s))%nat; [rewrite Nat.mul_comm; now apply Nat.mul_le_mono_l|now apply Nat.mul_div_le]. }
    generalize (flit 0 1 : xr). assert (B : forall j, In j (seq 0 (length x / s)) -> (j < length x / s)%nat) by (intros j Hj; apply in_seq in Hj; lia).
    revert B. generalize (seq 0 (length x / s)). intros js. induction js as [|j js IH]; intros B z; cbn [map fold_left]; [reflexivity|].
    rewrite C by (apply B; now left). apply IH. intros; apply B; now right. }
  assert (F : rmap (hurst_point x') sizes = rmap (hurst_point x) sizes) by (induction sizes as [|s sizes IH]; cbn; [easy|]; now rewrite E, IH).
  rewrite F. destruct (rmap (hurst_point x) sizes); cbn [bind]; [apply s_same|exact I].
Qed.

(** ** momentum.rs *)

Lemma pairs_sh g l l' : ss g l l' -> Forall2 (P2 g g) (pairs l) (pairs l').
Proof. intros. unfold pairs. sims. Qed.
Lemma map_pairs_sh g (f : xr * xr -> xr) l l' : (forall a a' b b', Shift.sim g a a' -> Shift.sim g b b' -> Shift.sim 0 (f (a, b)) (f (a', b'))) ->
  ss g l l' -> map f (pairs l') = map f (pairs l).
Proof.
  intros F H. apply f2_same0. eapply f2_map; [apply pairs_sh; exact H|]. intros [] [] []. now apply F.
Qed.
Lemma rsi_sh g l l' w : ss g l l' -> rsi l' w = rsi l w.
Proof.
  intros H. unfold rsi. rewrite (map_pairs_sh g gain l l'), (map_pairs_sh g loss l l'); [easy|..]; try assumption; intros.
  - unfold loss. sims.
  - unfold gain. sims.
Qed.
Lemma macd_sh g l l' a b : ss g l l' -> rrel (ss 0) (macd l a b) (macd l' a b).
Proof. intros. unfold macd. call (ewma_sh g). call (ewma_sh g). sims. Qed.
Lemma apo_sh g l l' a b : ss g l l' -> rrel (ss 0) (apo l a b) (apo l' a b).
Proof. exact (macd_sh g l l' a b). Qed.
Lemma cmo_raw_sh g l l' w : ss g l l' -> cmo_raw l' w = cmo_raw l w.
Proof.
  intros H. unfold cmo_raw. f_equal. f_equal. unfold cmo_cum. f_equal.
  apply f2_eq_eq. eapply (f2_scan (wrel 2 (Shift.sim g)) eq eq); [apply f2_windows_len; [lia|exact H]|reflexivity|].
  intros [u v] ? x x' <- (Hx & _ & _). cbv zeta.
  rewrite (s_eq (at_ x 1 - at_ x 0)%F (at_ x' 1 - at_ x' 0)%F), (s_eq (at_ x 0 - at_ x 1)%F (at_ x' 0 - at_ x' 1)%F) by sims. now split.
Qed.
Lemma cmo_sh g l l' w : ss g l l' -> cmo l' w = cmo l w.
Proof. intros. unfold cmo. now rewrite (cmo_raw_sh g l l'). Qed.
Lemma elder_ray_sh g h h' l l' c c' w : ss g h h' -> ss g l l' -> ss g c c' ->
  rrel (Forall2 (P2 0 0)) (elder_ray h l c w) (elder_ray h' l' c' w).
Proof. intros. unfold elder_ray. call (ewma_sh g). sims. Qed.
Lemma hlc_windows_sh g h h' l l' c c' w : ss g h h' -> ss g l l' -> ss g c c' ->
  rrel (Forall2 (prel (prel (ss g) (ss g)) (Shift.sim g))) (hlc_windows h l c w) (hlc_windows h' l' c' w).
Proof.
  intros. unfold hlc_windows. eapply r_bind; [eapply r_rwindows; eassumption|intros wh wh' ?]. eapply r_bind; [eapply r_rwindows; eassumption|intros wl wl' ?].
  eapply r_usub. intros _. eapply r_bind; [eapply r_slice_from; eassumption|intros]. apply r_ok. unfold zip3.
  assert (W : forall x x', Forall2 (wrel w (Shift.sim g)) x x' -> Forall2 (ss g) x x').
  { intros x x' F. induction F as [|? ? ? ? (? & _ & _)]; constructor; assumption. }
  do 2 (apply f2_combine; [|first [eassumption|now apply W]]). now apply W.
Qed.
Lemma wpr_sh g h h' l l' c c' w : ss g h h' -> ss g l l' -> ss g c c' -> rrel (ss 0) (wpr h l c w) (wpr h' l' c' w).
Proof.
  intros. unfold wpr. eapply r_usub. intros _. eapply r_bind; [eapply hlc_windows_sh; eassumption|intros]. sims. unfold wpr_win. sims.
Qed.
Lemma ultimate_sh g h h' l l' c c' p q r : ss g h h' -> ss g l l' -> ss g c c' -> ultimate h' l' c' p q r = ultimate h l c p q r.
Proof.
  intros. apply r_same0. unfold ultimate. lens. do 2 (eapply r_bind; [eapply r_slice_from; eassumption|intros]). eapply r_usub. intros _.
  eapply r_bind; [eapply r_slice_to; eassumption|intros ? ? [? _]]. eapply r_bind; [eapply r_slice_from; eassumption|intros].
  match goal with |- rrel _ (bind (rwindows _ ?x) _) (bind (rwindows _ ?y) _) => assert (E : y = x) end.
  { apply f2_eq_eq. eapply (f2_map (prel (prel (P2 g g) (Shift.sim g)) (Shift.sim g))); [sims|]. intros. brk. unfold bp_tr.
    f_equal; symmetry; apply s_eq; sims. }
  rewrite E. eapply r_bind; [apply r_refl|intros ? ? <-]. eapply r_bind; [apply r_refl|intros ? ? <-]. sims.
Qed.
Lemma pgo_sh g h h' l l' c c' w : ss g h h' -> ss g l l' -> ss g c c' -> rrel (ss 0) (pgo h l c w) (pgo h' l' c' w).
Proof. intros. unfold pgo. call (true_range_sh g). eapply (r_bind (ss 0)); [sims|intros]. call (sma_sh g). sims. Qed.
Lemma si_sh g o o' h h' l l' c c' t : ss g o o' -> ss g h h' -> ss g l l' -> ss g c c' -> rrel (ss 0) (si o h l c t) (si o' h' l' c' t).
Proof. intros. unfold si. call (swing_sh g). sims. Qed.
Lemma tii_sh g l l' w : ss g l l' -> tii l' w = tii l w.
Proof.
  intros. apply r_same0. unfold tii. cbv zeta. eapply r_usub. intros _. call (sma_sh g).
  match goal with |- rrel _ (bind (rwindows _ ?x) _) (bind (rwindows _ ?y) _) => assert (E : y = x) end.
  { apply f2_eq_eq. eapply (f2_map (P2 g g)); [sims|]. intros. brk. 
    f_equal; symmetry; apply s_eq; sims. }
  rewrite E. eapply r_bind; [apply r_refl|intros ? ? <-]. sims.
Qed.
Lemma stoch_sh g h h' l l' c c' w s : ss g h h' -> ss g l l' -> ss g c c' -> stoch h' l' c' w s = stoch h l c w s.
Proof.
  intros. unfold stoch. pose proof (hlc_windows_sh g h h' l l' c c' w H H0 H1) as W.
  destruct (hlc_windows h l c w) as [x|], (hlc_windows h' l' c' w) as [x'|]; cbn [rrel] in W; try easy. cbn [bind].
  assert (E : map stoch_win x' = map stoch_win x); [|now rewrite E].
  apply f2_same0. eapply f2_map; [exact W|]. intros. brk. unfold stoch_win. sims.
Qed.
Lemma stc_sh g l l' w a b : ss g l l' -> stc l' w a b = stc l w a b.
Proof. intros. unfold stc. now rewrite (r_same0 _ _ (macd_sh g l l' a b H)). Qed.
Lemma relative_vigor_sh g o o' h h' l l' c c' w : ss g o o' -> ss g h h' -> ss g l l' -> ss g c c' ->
  relative_vigor o' h' l' c' w = relative_vigor o h l c w.
Proof.
  intros. unfold relative_vigor. cbv zeta.
  assert (E1 : map (fun '(o, c) => (c - o)%F) (combine o' c') = map (fun '(o, c) => (c - o)%F) (combine o c)).
  { apply f2_same0. eapply (f2_map (P2 g g)); [sims|]. intros. brk. sims. }
  assert (E2 : map (fun '(h, l) => (h - l)%F) (combine h' l') = map (fun '(h, l) => (h - l)%F) (combine h l)).
  { apply f2_same0. eapply (f2_map (P2 g g)); [sims|]. intros. brk. sims. }
  now rewrite E1, E2.
Qed.
Lemma bal_power_sh g o o' h h' l l' c c' w : ss g o o' -> ss g h h' -> ss g l l' -> ss g c c' ->
  bal_power o' h' l' c' w = bal_power o h l c w.
Proof.
  intros. unfold bal_power. f_equal. apply f2_same0. eapply (f2_map (prel (prel (P2 g g) (Shift.sim g)) (Shift.sim g))); [sims|]. intros. brk. sims.
Qed.
Lemma qstick_sh g o o' c c' w : ss g o o' -> ss g c c' -> qstick o' c' w = qstick o c w.
Proof. intros. unfold qstick. f_equal. apply f2_same0. eapply (f2_map (P2 g g)); [sims|]. intros. brk. sims. Qed.
Lemma psych_sh g l l' w : ss g l l' -> psych l' w = psych l w.
Proof. intros. unfold psych. rewrite (map_pairs_sh g psych_up l l'); [easy| |assumption]. intros. unfold psych_up. sims. Qed.
Lemma tsi_sh g l l' a b : ss g l l' -> tsi l' a b = tsi l a b.
Proof. intros. unfold tsi. rewrite (map_pairs_sh g (fun '(a, b) => (b - a)%F) l l'); [easy| |assumption]. intros. sims. Qed.
Lemma derivative_sh g l l' a b s : ss g l l' -> derivative l' a b s = derivative l a b s.
Proof. intros. unfold derivative. now rewrite (rsi_sh g l l'). Qed.
Lemma cci_sh g h h' l l' c c' w : ss g h h' -> ss g l l' -> ss g c c' -> rrel (ss 0) (cci h l c w) (cci h' l' c' w).
Proof.
  intros. unfold cci. eapply r_usub. intros _. eapply r_bind; [apply (r_rwindows (Shift.sim g)), hlc3_sh; assumption|intros].
  apply r_ok. apply f2_app; [|sims]. eapply f2_map; [eassumption|]. intros x x' (Hx & L & W). unfold cci_win. cbv zeta.
  assert (A : Shift.sim g (fdiv (fsum x) (fofnat w)) (fdiv (fsum x') (fofnat w))) by sims.
  revert A. generalize (fdiv (fsum x) (fofnat w)) (fdiv (fsum x') (fofnat w)). intros m m' A. sims.
Qed.
Lemma qqe_sh g l l' w s : ss g l l' -> qqe l' w s = qqe l w s.
Proof. intros. unfold qqe. now rewrite (rsi_sh g l l'). Qed.
Lemma deli_sh g h h' l l' w : ss g h h' -> ss g l l' -> rrel (ss 0) (deli h l w) (deli h' l' w).
Proof.
  intros. unfold deli. cbv zeta.
  assert (Q : ss g (deli_quotes h l) (deli_quotes h' l')).
  { unfold deli_quotes. eapply (f2_map (prel (P2 g g) (P2 g g))); [apply f2_combine; now apply pairs_sh|]. intros. brk. sims. }
  call (ewma_sh g). call (ewma_sh g). eapply r_usub. intros _.
  match goal with |- rrel _ (bind (slice_from ?x _) _) (bind (slice_from ?y _) _) => assert (E : y = x) end.
  { apply f2_same0. eapply (f2_map (P2 g g)); [sims|]. intros. brk. sims. }
  rewrite E. do 2 (eapply r_bind; [apply r_refl|intros ? ? <-]). sims.
Qed.
Lemma gator_sh g l l' jw jo tw to lw lo : ss g l l' -> gator l' jw jo tw to lw lo = gator l jw jo tw to lw lo.
Proof.
  intros. unfold gator. pose proof (alligator_sh g l l' jw jo tw to lw lo H) as A.
  destruct (alligator l _ _ _ _ _ _) as [x|], (alligator l' _ _ _ _ _ _) as [x'|]; cbn [rrel] in A; try easy. cbn [bind]. f_equal.
  apply f2_eq_eq. eapply f2_map; [exact A|]. intros. brk. f_equal; symmetry; apply s_eq; sims.
Qed.
Lemma kdj_sh g h h' l l' c c' k d kf df : ss g h h' -> ss g l l' -> ss g c c' -> kdj h' l' c' k d kf df = kdj h l c k d kf df.
Proof. intros. unfold kdj. now rewrite (stoch_sh g h h' l l' c c'). Qed.
