(** * Shape of momentum.rs: panic domains, lengths and causality.

    Everything here holds for every arithmetic [FOps F]. *)

From Verif Require Export Tac Momentum TrendShape.
Local Unset Implicit Arguments.

Section Shape.
  Context {F : Type} {O : FOps F}.
  Implicit Types (data open high low close : list F) (w : nat).

  Ltac icase l i := destruct (idx_cases l i) as [[? ->]|[? [? ->]]]; cbn [bind].

  Lemma length_pairs data : length (pairs data) = length data - 1.
  Proof. unfold pairs. len. lia. Qed.
  Lemma prefix_pairs (d1 d2 : list F) : prefix d1 d2 -> prefix (pairs d1) (pairs d2).
  Proof. intros. unfold pairs. pfx. Qed.
  Hint Resolve prefix_pairs : pfx.
  Ltac plen := len; rewrite ?length_pairs in *; len.

  Lemma rsi_outcome data w :
    outcome (rsi data w) (w = 0 \/ Nat.max 1 (length data) < w) (Nat.max 1 (length data)).
  Proof.
    unfold rsi. call (wilder_outcome (map gain (pairs data)) w); plen; [fin|].
    call (wilder_outcome (map loss (pairs data)) w); plen; fin.
  Qed.
  Lemma rsi_causal w d1 d2 : prefix d1 d2 -> keeps (rsi d1 w) (rsi d2 w).
  Proof. intros. unfold rsi. kcall wilder_causal. kcall wilder_causal. ksteps. Qed.

  Lemma crsi_outcome data rsi_win streak_win rank_win :
    outcome (crsi data rsi_win streak_win rank_win)
      (rsi_win = 0 \/ streak_win = 0 \/ rank_win = 0 \/
       Nat.max 1 (length data) < rsi_win \/ Nat.max 1 (length data - 1) < streak_win)
      (Nat.max 1 (length data)).
  Proof.
    unfold crsi. call (rsi_outcome data rsi_win); [fin|].
    match goal with |- context [rsi ?d streak_win] => call (rsi_outcome d streak_win) end;
      plen; [fin|]. zap; len; try fin.
    right. split; [lia|]. eexists; split; [reflexivity|]. plen. lia.
  Qed.
  Lemma crsi_causal rw sw kw d1 d2 : prefix d1 d2 -> keeps (crsi d1 rw sw kw) (crsi d2 rw sw kw).
  Proof. intros. unfold crsi. kcall rsi_causal. kcall rsi_causal. ksteps. Qed.

  Lemma macd_outcome close short long :
    outcome (macd close short long)
      (short = 0 \/ long = 0 \/ length close < Nat.max short long) (length close).
  Proof.
    unfold macd. call (ewma_outcome close short); [fin|]. call (ewma_outcome close long); fin.
  Qed.
  Lemma macd_causal s l d1 d2 : prefix d1 d2 -> keeps (macd d1 s l) (macd d2 s l).
  Proof. intros. unfold macd. kcall ewma_causal. kcall ewma_causal. ksteps. Qed.

  Lemma cmo_outcome data w :
    outcome (cmo data w) False (Nat.max w (Nat.max 1 (length data))).
  Proof.
    unfold cmo. right. split; [easy|]. eexists; split; [reflexivity|].
    len. rewrite length_cmo_raw. lia.
  Qed.
  Lemma cmo_causal w d1 d2 : prefix d1 d2 -> keeps (cmo d1 w) (cmo d2 w).
  Proof. intros. unfold cmo. ksteps. Qed.

  Lemma cfo_outcome data w :
    outcome (cfo data w) (w = 0 \/ (2 ^ 32 <= N.of_nat w)%N) (length data).
  Proof. unfold cfo. call (lrf_outcome data w); fin. Qed.
  Lemma cfo_causal w d1 d2 : prefix d1 d2 -> keeps (cfo d1 w) (cfo d2 w).
  Proof. intros. unfold cfo. kcall lrf_causal. ksteps. Qed.

  Lemma elder_ray_outcome high low close w :
    outcome (elder_ray high low close w) (w = 0 \/ length close < w) (bars3 high low close).
  Proof. unfold elder_ray. call (ewma_outcome close w); fin. Qed.
  Lemma elder_ray_causal w h1 h2 l1 l2 c1 c2 :
    prefix h1 h2 -> prefix l1 l2 -> prefix c1 c2 ->
    keeps (elder_ray h1 l1 c1 w) (elder_ray h2 l2 c2 w).
  Proof. intros. unfold elder_ray. kcall ewma_causal. ksteps. Qed.

  Lemma hlc_windows_outcome high low close w :
    outcome (hlc_windows high low close w) (w = 0 \/ length close < w - 1)
            (bars3 high low close + 1 - w).
  Proof. unfold hlc_windows. zap; fin. Qed.
  Lemma hlc_windows_causal w h1 h2 l1 l2 c1 c2 :
    prefix h1 h2 -> prefix l1 l2 -> prefix c1 c2 ->
    keeps (hlc_windows h1 l1 c1 w) (hlc_windows (F := F) h2 l2 c2 w).
  Proof. intros. unfold hlc_windows. ksteps. Qed.

  Lemma wpr_outcome high low close w :
    outcome (wpr high low close w) (w = 0 \/ length close < w - 1)
            (Nat.max (w - 1) (bars3 high low close)).
  Proof.
    unfold wpr, usub. destruct (Nat.leb_spec 1 w); cbn [bind]; [|fin].
    call (hlc_windows_outcome high low close w); [fin|]. right. split; [lia|].
    eexists; split; [reflexivity|]. len. lia.
  Qed.
  Lemma wpr_causal w h1 h2 l1 l2 c1 c2 :
    prefix h1 h2 -> prefix l1 l2 -> prefix c1 c2 -> keeps (wpr h1 l1 c1 w) (wpr h2 l2 c2 w).
  Proof. intros. unfold wpr. ksteps. kcall hlc_windows_causal. ksteps. Qed.

  Lemma ppo_outcome data short long :
    outcome (ppo data short long)
      (short = 0 \/ long = 0 \/ length data < Nat.max short long) (length data).
  Proof.
    unfold ppo. call (ewma_outcome data short); [fin|]. call (ewma_outcome data long); fin.
  Qed.
  Lemma ppo_causal s l d1 d2 : prefix d1 d2 -> keeps (ppo d1 s l) (ppo d2 s l).
  Proof. intros. unfold ppo. kcall ewma_causal. kcall ewma_causal. ksteps. Qed.

  Lemma apo_outcome data short long :
    outcome (apo data short long)
      (short = 0 \/ long = 0 \/ length data < Nat.max short long) (length data).
  Proof. exact (macd_outcome data short long). Qed.
  Lemma apo_causal s l d1 d2 : prefix d1 d2 -> keeps (apo d1 s l) (apo d2 s l).
  Proof. exact (macd_causal s l d1 d2). Qed.

  Lemma pmo_outcome data win1 win2 :
    outcome (pmo data win1 win2) (win1 = 0 \/ win2 = 0 \/ length data < win1 + win2)
            (length data).
  Proof.
    unfold pmo. match goal with |- context [ewma ?d win1] => call (ewma_outcome d win1) end;
      plen; [fin|]. zap; try fin.
    call (ewma_outcome (skipn (win1 - 1) x) win2); len; fin.
  Qed.
  Lemma pmo_causal a b d1 d2 : prefix d1 d2 -> keeps (pmo d1 a b) (pmo d2 a b).
  Proof. intros. unfold pmo. kcall ewma_causal. ksteps. kcall ewma_causal. ksteps. Qed.

  Lemma ultimate_win_panic win1 win2 win3 (l : list (F * F)) :
    ultimate_win win1 win2 win3 l = Panic <-> win3 < win1 \/ win3 < win2.
  Proof.
    unfold ultimate_win, usub. destruct (Nat.leb_spec win1 win3); cbn [bind];
      [|split; [lia|easy]].
    destruct (Nat.leb_spec win2 win3); cbn [bind]; [|split; [lia|easy]].
    destruct (bp_sums _ _), (bp_sums _ _), (bp_sums _ _). split; [easy|lia].
  Qed.
  Lemma ultimate_outcome high low close win1 win2 win3 :
    outcome (ultimate high low close win1 win2 win3)
      (win3 = 0 \/ bars3 high low close = 0 \/
       (win3 < bars3 high low close /\ win3 < Nat.max win1 win2))
      (Nat.max win3 (bars3 high low close)).
  Proof.
    unfold ultimate. zap; try fin.
    match goal with |- context [windows win3 (map bp_tr ?z)] => set (bz := map bp_tr z) end.
    assert (Lb : length bz = bars3 high low close - 1).
    { unfold bz, bars3, bars2. len. lia. }
    assert (R : outcome (rmap (ultimate_win win1 win2 win3) (windows win3 bz))
               (win3 < bars3 high low close /\ win3 < Nat.max win1 win2)
               (length (windows win3 bz))).
    { apply rmap_outcome. split.
      - intros (x & Hx & P). apply ultimate_win_panic in P. apply In_windows in Hx as (i & Hi & _).
        lia.
      - intros [Hn Hz]. exists (firstn win3 (skipn 0 bz)). split.
        + apply In_windows. exists 0. split; [lia|easy].
        + apply ultimate_win_panic. lia. }
    clearbody bz. unfold bars3, bars2 in *. call R; [fin|]. fin.
  Qed.
  Lemma ultimate_causal a b c h1 h2 l1 l2 c1 c2 o1 o2 :
    prefix h1 h2 -> prefix l1 l2 -> prefix c1 c2 ->
    ultimate h1 l1 c1 a b c = Ok o1 -> ultimate h2 l2 c2 a b c = Ok o2 -> prefix o1 o2.
  Proof.
    intros Hh Hl Hc E1 E2. unfold ultimate in *.
    destruct (slice_from h1 1) as [sh1|] eqn:A1; [|easy].
    destruct (slice_from h2 1) as [sh2|] eqn:A2; [|easy].
    destruct (slice_from l1 1) as [sl1|] eqn:B1; [|easy].
    destruct (slice_from l2 1) as [sl2|] eqn:B2; [|easy].
    assert (prefix sh1 sh2).
    { destruct (@keeps_slice_from _ _ _ 1 Hh _ A1) as (x & Ex & P). congruence. }
    assert (prefix sl1 sl2).
    { destruct (@keeps_slice_from _ _ _ 1 Hl _ B1) as (x & Ex & P). congruence. }
    cbn [bind] in *. pose proof (prefix_length Hc).
    unfold usub, slice_to, slice_from, rwindows in *.
    destruct (Nat.leb_spec 1 (length c1)); [|easy]. destruct (Nat.leb_spec 1 (length c2)); [|easy].
    cbn [bind] in *.
    destruct (Nat.leb_spec (length c1 - 1) (length c1)); [|easy].
    destruct (Nat.leb_spec (length c2 - 1) (length c2)); [|easy]. cbn [bind] in *.
    destruct (Nat.eqb_spec c 0); cbn [bind] in *; [easy|].
    destruct (rmap _ _) as [r1|] eqn:R1; [|easy]. cbn [bind] in *.
    destruct (rmap _ _) as [r2|] eqn:R2 in E2; [|easy]. cbn [bind] in *.
    injection E1 as <-. injection E2 as <-. apply prefix_app_l.
    eapply prefix_rmap; [|exact R1|exact R2]. apply prefix_windows, prefix_map, prefix_zip4; try easy.
    - apply prefix_firstn_len; [easy|lia|lia].
    - now apply prefix_skipn.
  Qed.

  Lemma pgo_outcome high low close w :
    outcome (pgo high low close w) (w = 0 \/ bars3 high low close < w + 1)
            (bars3 high low close).
  Proof.
    unfold pgo. call (true_range_outcome high low close); [fin|].
    call (ewma_outcome x w); [fin|]. call (sma_outcome close w); [fin|].
    right. split; [unfold bars3, bars2 in *; lia|]. eexists; split; [reflexivity|].
    rewrite map_length, length_zip3. cbn [length]. rewrite L0, L1, L.
    unfold bars3, bars2 in *. lia.
  Qed.
  Lemma pgo_causal w h1 h2 l1 l2 c1 c2 :
    prefix h1 h2 -> prefix l1 l2 -> prefix c1 c2 -> keeps (pgo h1 l1 c1 w) (pgo h2 l2 c2 w).
  Proof.
    intros. unfold pgo. kcall true_range_causal. kcall ewma_causal. kcall sma_causal. ksteps.
  Qed.

  Lemma si_outcome open high low close limit :
    outcome (si open high low close limit) (bars4 open high low close = 0)
            (bars4 open high low close).
  Proof. unfold si. call (swing_outcome open high low close limit); fin. Qed.
  Lemma si_causal limit o1 o2 h1 h2 l1 l2 c1 c2 :
    prefix o1 o2 -> prefix h1 h2 -> prefix l1 l2 -> prefix c1 c2 ->
    keeps (si o1 h1 l1 c1 limit) (si o2 h2 l2 c2 limit).
  Proof. intros. unfold si. kcall swing_causal. ksteps. Qed.

  Lemma trix_outcome close w :
    outcome (trix close w) (w = 0 \/ length close < 3 * w - 2) (length close).
  Proof.
    unfold trix. call (ewma_outcome close w); [fin|]. unfold usub.
    destruct (Nat.leb_spec 1 w); cbn [bind]; [|lia]. unfold slice_from at 1.
    destruct (Nat.leb_spec (w - 1) (length x)); cbn [bind]; [|lia].
    call (ewma_outcome (skipn (w - 1) x) w); len; [fin|]. unfold slice_from at 1.
    destruct (Nat.leb_spec (w - 1) (length x0)); cbn [bind]; [|lia].
    call (ewma_outcome (skipn (w - 1) x0) w); len; [fin|]. unfold slice_from.
    destruct (Nat.leb_spec 1 (length x1)); cbn [bind]; [|lia]. fin.
  Qed.
  Lemma trix_causal w d1 d2 : prefix d1 d2 -> keeps (trix d1 w) (trix d2 w).
  Proof.
    intros. unfold trix. kcall ewma_causal. ksteps. kcall ewma_causal. ksteps.
    kcall ewma_causal. ksteps.
  Qed.

  Lemma tii_outcome data w :
    outcome (tii data w) (w = 0) (Nat.max (div_ceil2 w - 1) (length data)).
  Proof.
    unfold tii. cbv zeta. pose proof (div_ceil2_spec w). set (win := div_ceil2 w) in *.
    clearbody win. unfold usub. destruct (Nat.leb_spec 1 win); cbn [bind]; [|fin].
    call (sma_outcome data w); [fin|]. unfold rwindows.
    destruct (Nat.eqb_spec win 0); cbn [bind]; [lia|]. fin.
  Qed.
  Lemma tii_causal w d1 d2 : prefix d1 d2 -> keeps (tii d1 w) (tii d2 w).
  Proof. intros. unfold tii. cbv zeta. ksteps. kcall sma_causal. ksteps. Qed.

  Lemma stoch_outcome high low close w smooth :
    outcome (stoch high low close w smooth)
      (w = 0 \/ smooth = 0 \/ length close < w - 1)
      (w - 1 + Nat.max (smooth - 1) (bars3 high low close + 1 - w)).
  Proof.
    unfold stoch. call (hlc_windows_outcome high low close w); [left; split; [tauto|easy]|].
    set (m := bars3 high low close) in *. clearbody m.
    call (sma_outcome (map stoch_win x) smooth); len; [left; split; [tauto|easy]|].
    unfold usub. destruct (Nat.leb_spec 1 smooth); cbn [bind]; [|lia]. unfold slice_from at 1.
    destruct (Nat.leb_spec (smooth - 1) (length x0)); cbn [bind]; [|lia].
    call (sma_outcome (skipn (smooth - 1) x0) smooth); len; [lia|].
    destruct (Nat.leb_spec 1 w); cbn [bind]; [|lia].
    right. split; [lia|]. eexists; split; [reflexivity|]. len. lia.
  Qed.
  Lemma stoch_causal w s h1 h2 l1 l2 c1 c2 :
    prefix h1 h2 -> prefix l1 l2 -> prefix c1 c2 ->
    keeps (stoch h1 l1 c1 w s) (stoch h2 l2 c2 w s).
  Proof.
    intros. unfold stoch. kcall hlc_windows_causal. kcall sma_causal. ksteps. kcall sma_causal.
    ksteps.
  Qed.
  Lemma stochastic_outcome high low close w :
    outcome (stochastic high low close w) (w = 0 \/ length close < w - 1)
      (w - 1 + Nat.max 2 (bars3 high low close + 1 - w)).
  Proof.
    unfold stochastic. eapply outcome_iff; [| |apply (stoch_outcome high low close w 3)].
    - lia.
    - easy.
  Qed.
  Lemma stochastic_causal w h1 h2 l1 l2 c1 c2 :
    prefix h1 h2 -> prefix l1 l2 -> prefix c1 c2 ->
    keeps (stochastic h1 l1 c1 w) (stochastic h2 l2 c2 w).
  Proof. apply stoch_causal. Qed.

  Lemma stc_raw_outcome data w smooth :
    outcome (stc_raw data w smooth)
      (w = 0 \/ smooth = 0 \/ length data + 1 - w < smooth - 1) (length data + 1 - w).
  Proof.
    unfold stc_raw, rwindows. destruct (Nat.eqb_spec w 0); cbn [bind]; [fin|].
    eapply outcome_iff; [| |apply wilder_outcome]; len; [lia|easy].
  Qed.
  Lemma stc_raw_causal w s d1 d2 : prefix d1 d2 -> keeps (stc_raw d1 w s) (stc_raw d2 w s).
  Proof. intros. unfold stc_raw. ksteps. apply wilder_causal. pfx. Qed.
  Lemma stc_outcome close w short long :
    outcome (stc close w short long)
      (short = 0 \/ long = 0 \/ w = 0 \/ length close < short \/ length close < long - 1 + 2 * w)
      (length close).
  Proof.
    unfold stc, usub. destruct (Nat.leb_spec 1 long); cbn [bind]; [|fin].
    destruct (Nat.leb_spec 1 w); cbn [bind]; [|fin].
    call (macd_outcome close short long); [fin|].
    call (stc_raw_outcome (skipn (long - 1) x) w 2); rewrite skipn_length in *; [fin|].
    call (stc_raw_outcome (skipn 1 x0) w 2); rewrite skipn_length in *; [fin|].
    right. split; [lia|]. eexists; split; [reflexivity|].
    rewrite app_length, length_pad, skipn_length. lia.
  Qed.
  Lemma stc_causal w s l d1 d2 : prefix d1 d2 -> keeps (stc d1 w s l) (stc d2 w s l).
  Proof.
    intros. unfold stc. ksteps. kcall macd_causal. kcall stc_raw_causal. kcall stc_raw_causal.
    ksteps.
  Qed.

  Lemma relative_vigor_outcome open high low close w :
    outcome (relative_vigor open high low close w) (w = 0)
            (3 + Nat.max (w - 1) (bars4 open high low close - 3)).
  Proof.
    unfold relative_vigor. cbv zeta.
    match goal with |- context [bind (sma ?d w) _] => call (sma_outcome d w) end; len;
      [left; split; [tauto|easy]|].
    match goal with |- context [bind (sma ?d w) _] => call (sma_outcome d w) end; len;
      [left; split; [tauto|easy]|].
    right. split; [lia|]. eexists; split; [reflexivity|]. len. unfold bars4, bars3, bars2. lia.
  Qed.
  Lemma relative_vigor_causal w o1 o2 h1 h2 l1 l2 c1 c2 :
    prefix o1 o2 -> prefix h1 h2 -> prefix l1 l2 -> prefix c1 c2 ->
    keeps (relative_vigor o1 h1 l1 c1 w) (relative_vigor o2 h2 l2 c2 w).
  Proof.
    intros. unfold relative_vigor. cbv zeta. kcall sma_causal. kcall sma_causal. ksteps.
  Qed.

  (** [fisher] clamps to [-0.999999, 0.999999]; [clamp] panics unless the
      bounds are in order, which is a fact about the arithmetic. *)
  Definition fisher_bounds_ok : Prop :=
    fleb (flit (-999999) 1000000) (flit 999999 1000000) = true.
  Lemma fisher_step_ok w st (l : list F) :
    fisher_bounds_ok -> exists y, fisher_step w st l = Ok y.
  Proof. intros H. unfold fisher_step, fclamp. rewrite H. cbn [bind]. eauto. Qed.
  Lemma fisher_outcome high low w :
    fisher_bounds_ok ->
    outcome (fisher high low w) (w = 0) (Nat.max (w - 1) (bars2 high low)).
  Proof.
    intros H. unfold fisher. cbv zeta. zap; try fin.
    match goal with |- context [rscan ?f ?s ?l] =>
      assert (R : exists o, rscan f s l = Ok o) end.
    { match goal with |- exists o, rscan _ ?s ?l = Ok o => generalize s; induction l as [|y ws IH] end;
        intros s; cbn [rscan]; [eauto|].
      destruct (fisher_step_ok w s y H) as [[s' b] ->]. cbn [bind].
      destruct (IH s') as [o ->]. cbn [bind]; eauto. }
    destruct R as [o E]. rewrite E. apply length_rscan in E. cbn [bind].
    right. split; [lia|]. eexists; split; [reflexivity|]. len. lia.
  Qed.
  Lemma fisher_causal w h1 h2 l1 l2 o1 o2 :
    prefix h1 h2 -> prefix l1 l2 ->
    fisher h1 l1 w = Ok o1 -> fisher h2 l2 w = Ok o2 -> prefix o1 o2.
  Proof.
    intros Hh Hl. unfold fisher. cbv zeta. unfold usub, rwindows.
    destruct (1 <=? w); cbn [bind]; [|easy]. destruct (w =? 0); cbn [bind]; [easy|].
    intros E1 E2.
    destruct (rscan _ _ _) as [r1|] eqn:R1 in E1; [|easy].
    destruct (rscan _ _ _) as [r2|] eqn:R2 in E2; [|easy].
    cbn [bind] in *. injection E1 as <-. injection E2 as <-.
    apply prefix_app_l. eapply prefix_rscan; [|exact R1|exact R2]. pfx.
  Qed.

  Lemma rainbow_smas_ok n w : forall (s : list F), 0 < w -> w - 1 <= length s ->
    exists r, rainbow_smas n s w = Ok r /\ length r = n + 1 /\
      forall x, In x r -> length x = length s.
  Proof.
    induction n as [|n IH]; intros s Hw Hs; cbn [rainbow_smas].
    - exists [s]. cbn. intuition congruence.
    - call (sma_outcome s w); [lia|]. destruct (IH x) as (r & -> & Lr & Hr); [lia|lia|].
      cbn [bind]. exists (s :: r). split; [easy|]. cbn [length]. split; [lia|].
      intros y [<-|Hy]; [easy|]. rewrite (Hr y Hy). lia.
  Qed.
  Lemma rainbow_at_panic data smas lookback i :
    i < length data -> (forall s, In s smas -> i < length s) ->
    (rainbow_at data smas lookback i = Panic <-> lookback = 0 \/ i < lookback - 1).
  Proof.
    intros Hi Hs. unfold rainbow_at.
    destruct (@rmap_no_panic _ _ (fun s => idx s i) smas) as [vals ->].
    { intros s Hin. apply Hs in Hin. now icase s i; [lia|]. }
    cbn [bind]. unfold usub. destruct (Nat.leb_spec 1 lookback); cbn [bind]; [|split; [lia|easy]].
    destruct (Nat.leb_spec (lookback - 1) i); cbn [bind]; [|split; [lia|easy]].
    match goal with |- context [rmap (idx data) ?l] =>
      destruct (@rmap_no_panic _ _ (idx data) l) as [back ->] end.
    { intros x Hx. apply in_seq in Hx. icase data x; [lia|easy]. }
    cbn [bind]. icase data i; [lia|]. split; [easy|lia].
  Qed.
  Lemma rainbow_outcome data w lookback :
    outcome (rainbow data w lookback)
      (w = 0 \/ (10 * (w - 1) < length data /\ (lookback = 0 \/ 10 * (w - 1) < lookback - 1)))
      (Nat.max (10 * (w - 1)) (length data)).
  Proof.
    unfold rainbow. call (sma_outcome data w); [fin|].
    destruct (rainbow_smas_ok 9 w x) as (smas & E & _ & Hs); [lia|lia|]. rewrite E. clear E.
    cbn [bind]. unfold usub. destruct (Nat.leb_spec 1 w); cbn [bind]; [|lia].
    rewrite (Nat.mul_comm (w - 1) 10). set (k := 10 * (w - 1)) in *.
    assert (R : outcome (rmap (rainbow_at data smas lookback) (seq k (length data - k)))
      (k < length data /\ (lookback = 0 \/ k < lookback - 1)) (length (seq k (length data - k)))).
    { apply rmap_outcome. split.
      - intros (i & Hi & P). apply in_seq in Hi.
        apply rainbow_at_panic in P; [lia|lia|]. intros s Hin. apply Hs in Hin. lia.
      - intros [Hk Hl]. exists k. split; [apply in_seq; lia|].
        apply rainbow_at_panic; [lia| |lia]. intros s Hin. apply Hs in Hin. lia. }
    call R; [left; split; [tauto|easy]|]. right. split; [lia|].
    eexists; split; [reflexivity|]. len. lia.
  Qed.
  Lemma rainbow_smas_causal n w : forall s1 s2 r1 r2,
    prefix s1 s2 -> rainbow_smas n s1 w = Ok r1 -> rainbow_smas n s2 w = Ok r2 ->
    Forall2 prefix r1 r2.
  Proof.
    induction n as [|n IH]; intros s1 s2 r1 r2 H; cbn [rainbow_smas].
    - intros [= <-] [= <-]. now constructor.
    - destruct (sma s1 w) as [t1|] eqn:T1; [|easy]. destruct (sma s2 w) as [t2|] eqn:T2; [|easy].
      assert (prefix t1 t2).
      { destruct (sma_causal w s1 s2 H t1 T1) as (t & Et & P). congruence. }
      cbn [bind]. destruct (rainbow_smas n t1 w) as [q1|] eqn:Q1; [|easy].
      destruct (rainbow_smas n t2 w) as [q2|] eqn:Q2; [|easy]. cbn [bind].
      intros [= <-] [= <-]. constructor; [easy|]. eauto.
  Qed.
  Lemma rmap_idx_forall2 (a b : list (list F)) i :
    Forall2 prefix a b -> (forall s, In s a -> i < length s) ->
    rmap (fun s => idx s i) b = rmap (fun s => idx s i) a.
  Proof.
    induction 1 as [|x y a b P H IH]; intros L; cbn; [easy|].
    rewrite (idx_prefix x y) by (easy || apply L; now left).
    rewrite IH by (intros; apply L; now right). reflexivity.
  Qed.
  Lemma rainbow_causal w lookback d1 d2 o1 o2 :
    prefix d1 d2 -> rainbow d1 w lookback = Ok o1 -> rainbow d2 w lookback = Ok o2 ->
    prefix o1 o2.
  Proof.
    intros H E1 E2. unfold rainbow in *.
    destruct (sma d1 w) as [t1|] eqn:T1; [|easy]. destruct (sma d2 w) as [t2|] eqn:T2; [|easy].
    pose proof (outcome_length (sma_outcome d1 w) T1) as Lt1.
    assert (w <> 0) by (intros ->; now destruct (sma_outcome d1 0) as [[_ X]|[X _]]; [congruence|]).
    assert (Pt : prefix t1 t2).
    { destruct (sma_causal w d1 d2 H t1 T1) as (t & Et & P). congruence. }
    cbn [bind] in *.
    destruct (rainbow_smas_ok 9 w t1) as (q1 & Q1 & _ & Hq1); [lia|lia|].
    rewrite Q1 in E1. destruct (rainbow_smas 9 t2 w) as [q2|] eqn:Q2; [|easy].
    pose proof (rainbow_smas_causal 9 w t1 t2 q1 q2 Pt Q1 Q2) as Pq. cbn [bind] in *.
    unfold usub at 1 in E1. unfold usub at 1 in E2.
    destruct (Nat.leb_spec 1 w); [|lia]. cbn [bind] in *.
    destruct (rmap (rainbow_at d1 q1 lookback) _) as [r1|] eqn:R1; [|easy].
    destruct (rmap (rainbow_at d2 q2 lookback) _) as [r2|] eqn:R2; [|easy]. cbn [bind] in *.
    injection E1 as <-. injection E2 as <-. apply prefix_app_l.
    rewrite rmap_ext_in with (g := rainbow_at d2 q2 lookback) in R1.
    - eapply prefix_rmap; [|exact R1|exact R2]. apply prefix_seq. pose proof (prefix_length H). lia.
    - intros i Hi. apply in_seq in Hi. unfold rainbow_at.
      rewrite (rmap_idx_forall2 q1 q2) by (try easy; intros s Hs; apply Hq1 in Hs; lia).
      destruct (rmap _ q1); cbn [bind]; [|easy]. destruct (usub lookback 1) as [k|]; cbn [bind]; [|easy].
      destruct (usub i k) as [a'|]; cbn [bind]; [|easy].
      rewrite rmap_ext_in with (f := idx d1) (g := idx d2).
      + destruct (rmap (idx d2) _); cbn [bind]; [|easy].
        now rewrite (idx_prefix d1 d2) by (easy || lia).
      + intros j Hj. apply in_seq in Hj. symmetry. apply idx_prefix; [easy|lia].
  Qed.

  Lemma coppock_at_panic data short long x :
    long <= x < length data -> (coppock_at data short long x = Panic <-> x < short).
  Proof.
    intros H. unfold coppock_at, usub. icase data x; [lia|].
    destruct (Nat.leb_spec short x); cbn [bind]; [|split; [lia|easy]].
    icase data (x - short); [lia|].
    destruct (Nat.leb_spec long x); cbn [bind]; [|lia]. icase data (x - long); [lia|].
    split; [easy|lia].
  Qed.
  Lemma coppock_outcome data w short long :
    outcome (coppock data w short long)
      (w = 0 \/ (2 ^ 32 <= N.of_nat w)%N \/ (long < length data /\ long < short))
      (long + Nat.max (w - 1) (length data - long)).
  Proof.
    unfold coppock.
    assert (R : outcome (rmap (coppock_at data short long) (seq long (length data - long)))
      (long < length data /\ long < short) (length (seq long (length data - long)))).
    { apply rmap_outcome. split.
      - intros (i & Hi & P). apply in_seq in Hi. apply coppock_at_panic in P; lia.
      - intros [Hk Hl]. exists long. split; [apply in_seq; lia|]. apply coppock_at_panic; lia. }
    call R; [left; split; [tauto|easy]|]. rewrite seq_length in *.
    call (wma_outcome x w); [left; split; [tauto|easy]|]. right. split; [tauto|].
    eexists; split; [reflexivity|]. len. lia.
  Qed.
  Lemma coppock_causal w short long d1 d2 o1 o2 :
    prefix d1 d2 -> coppock d1 w short long = Ok o1 -> coppock d2 w short long = Ok o2 ->
    prefix o1 o2.
  Proof.
    intros H E1 E2. unfold coppock in *.
    destruct (rmap (coppock_at d1 short long) _) as [r1|] eqn:R1; [|easy].
    destruct (rmap (coppock_at d2 short long) _) as [r2|] eqn:R2; [|easy]. cbn [bind] in *.
    assert (P : prefix r1 r2).
    { rewrite rmap_ext_in with (g := coppock_at d2 short long) in R1.
      - eapply prefix_rmap; [|exact R1|exact R2]. apply prefix_seq. pose proof (prefix_length H). lia.
      - intros i Hi. apply in_seq in Hi. unfold coppock_at, usub.
        rewrite (idx_prefix d1 d2) by (easy || lia).
        destruct (idx d1 i); cbn [bind]; [|easy].
        destruct (short <=? i); cbn [bind]; [|easy].
        rewrite (idx_prefix d1 d2) by (easy || lia).
        destruct (idx d1 (i - short)); cbn [bind]; [|easy].
        destruct (long <=? i); cbn [bind]; [|easy].
        now rewrite (idx_prefix d1 d2) by (easy || lia). }
    pose proof (wma_causal w r1 r2 P) as K.
    destruct (wma r1 w) as [s1|]; [|easy]. destruct (K s1 eq_refl) as (s2 & E & Ps).
    rewrite E in E2. cbn [bind] in *. injection E1 as <-. injection E2 as <-. now apply prefix_app_l.
  Qed.

  Lemma roc_outcome data w : outcome (roc data w) (w = 0) (Nat.max (w - 1) (length data)).
  Proof. unfold roc. zap; fin. Qed.
  Lemma roc_causal w d1 d2 : prefix d1 d2 -> keeps (roc d1 w) (roc d2 w).
  Proof. intros. unfold roc. ksteps. Qed.

  Lemma bal_power_outcome open high low close w :
    outcome (bal_power open high low close w) (w = 0 \/ bars4 open high low close < w)
            (bars4 open high low close).
  Proof.
    unfold bal_power. eapply outcome_iff; [| |apply ewma_outcome]; len;
      unfold bars4, bars3, bars2; easy.
  Qed.
  Lemma bal_power_causal w o1 o2 h1 h2 l1 l2 c1 c2 :
    prefix o1 o2 -> prefix h1 h2 -> prefix l1 l2 -> prefix c1 c2 ->
    keeps (bal_power o1 h1 l1 c1 w) (bal_power o2 h2 l2 c2 w).
  Proof. intros. unfold bal_power. apply ewma_causal. pfx. Qed.

  Lemma disparity_outcome data w :
    outcome (disparity data w) (w = 0 \/ length data < w) (length data).
  Proof. unfold disparity. call (ewma_outcome data w); fin. Qed.
  Lemma disparity_causal w d1 d2 : prefix d1 d2 -> keeps (disparity d1 w) (disparity d2 w).
  Proof. intros. unfold disparity. kcall ewma_causal. ksteps. Qed.

  Lemma qstick_outcome open close w :
    outcome (qstick open close w) (w = 0 \/ bars2 open close < w) (bars2 open close).
  Proof.
    unfold qstick. eapply outcome_iff; [| |apply ewma_outcome]; len; unfold bars2; lia.
  Qed.
  Lemma qstick_causal w o1 o2 c1 c2 :
    prefix o1 o2 -> prefix c1 c2 -> keeps (qstick o1 c1 w) (qstick o2 c2 w).
  Proof. intros. unfold qstick. apply ewma_causal. pfx. Qed.

  Lemma cog_outcome data w : outcome (cog data w) (w = 0) (Nat.max (w - 1) (length data)).
  Proof. unfold cog. cbv zeta. zap; fin. Qed.
  Lemma cog_causal w d1 d2 : prefix d1 d2 -> keeps (cog d1 w) (cog d2 w).
  Proof. intros. unfold cog. cbv zeta. ksteps. Qed.

  Lemma psych_outcome data w : outcome (psych data w) (w = 0) (Nat.max w (length data)).
  Proof.
    unfold psych, rwindows. destruct (Nat.eqb_spec w 0); cbn [bind]; [fin|].
    right. split; [easy|]. eexists; split; [reflexivity|]. plen. lia.
  Qed.
  Lemma psych_causal w d1 d2 : prefix d1 d2 -> keeps (psych d1 w) (psych d2 w).
  Proof. intros. unfold psych. ksteps. Qed.

  Lemma tsi_outcome data short long :
    outcome (tsi data short long) (short = 0 \/ long = 0 \/ length data < short + long)
            (length data).
  Proof.
    unfold tsi. cbv zeta.
    match goal with |- context [bind (ewma ?d long) _] => call (ewma_outcome d long) end;
      plen; [fin|]. unfold usub. destruct (Nat.leb_spec 1 long); cbn [bind]; [|lia].
    call (ewma_outcome (skipn (long - 1) x) short); len; [fin|].
    match goal with |- context [bind (ewma ?d long) _] => call (ewma_outcome d long) end;
      plen; [fin|].
    call (ewma_outcome (skipn (long - 1) x1) short); len; [fin|]. fin.
  Qed.
  Lemma tsi_causal s l d1 d2 : prefix d1 d2 -> keeps (tsi d1 s l) (tsi d2 s l).
  Proof.
    intros. unfold tsi. cbv zeta. kcall ewma_causal. ksteps. kcall ewma_causal.
    kcall ewma_causal. kcall ewma_causal. ksteps.
  Qed.

  Lemma derivative_outcome data win1 win2 signal :
    outcome (derivative data win1 win2 signal)
      (win1 = 0 \/ win2 = 0 \/ signal = 0 \/ length data < 2 * win1 + win2 - 1) (length data).
  Proof.
    unfold derivative. call (rsi_outcome data win1); [fin|].
    call (ewma_outcome (skipn win1 x) win1); len; [fin|].
    unfold usub. destruct (Nat.leb_spec 1 win1); cbn [bind]; [|lia].
    call (ewma_outcome (skipn (win1 - 1) x0) win2); len; [fin|].
    call (sma_outcome x1 signal); fin.
  Qed.
  Lemma derivative_causal a b c d1 d2 :
    prefix d1 d2 -> keeps (derivative d1 a b c) (derivative d2 a b c).
  Proof.
    intros. unfold derivative. kcall rsi_causal. kcall ewma_causal. ksteps. kcall ewma_causal.
    kcall sma_causal. ksteps.
  Qed.

  Lemma cci_outcome high low close w :
    outcome (cci high low close w) (w = 0) (Nat.max (w - 1) (bars3 high low close)).
  Proof. unfold cci. zap; try fin. rewrite ?length_hlc3. right. split; [easy|].
    eexists; split; [reflexivity|]. len. rewrite length_hlc3. unfold bars3, bars2. lia.
  Qed.
  Lemma cci_causal w h1 h2 l1 l2 c1 c2 :
    prefix h1 h2 -> prefix l1 l2 -> prefix c1 c2 -> keeps (cci h1 l1 c1 w) (cci h2 l2 c2 w).
  Proof. intros. unfold cci. ksteps. Qed.

  Lemma length_deli_quotes high low : length (deli_quotes high low) = bars2 high low - 1.
  Proof. unfold deli_quotes, bars2. plen. lia. Qed.
  Lemma prefix_deli_quotes h1 h2 l1 l2 :
    prefix h1 h2 -> prefix l1 l2 -> prefix (deli_quotes h1 l1) (deli_quotes h2 l2).
  Proof. intros. unfold deli_quotes. pfx. Qed.
  Hint Resolve prefix_deli_quotes : pfx.
  Lemma deli_outcome high low w :
    outcome (deli high low w) (w = 0 \/ bars2 high low < 3 * w) (bars2 high low).
  Proof.
    unfold deli. cbv zeta. pose proof (length_deli_quotes high low) as Lq.
    set (q := deli_quotes high low) in *. set (m := bars2 high low) in *. clearbody q m.
    call (ewma_outcome q w); [fin|].
    call (ewma_outcome q (2 * w)); [fin|].
    unfold usub. destruct (Nat.leb_spec 1 (2 * w)); cbn [bind]; [|lia].
    unfold slice_from. rewrite map_length, combine_length.
    destruct (Nat.leb_spec (2 * w - 1) (Nat.min (length x) (length x0))); cbn [bind]; [|lia].
    match goal with |- context [bind (ewma ?d w) _] => call (ewma_outcome d w) end; len; fin.
  Qed.
  Lemma deli_causal w h1 h2 l1 l2 :
    prefix h1 h2 -> prefix l1 l2 -> keeps (deli h1 l1 w) (deli h2 l2 w).
  Proof.
    intros. unfold deli. cbv zeta. kcall ewma_causal. kcall ewma_causal. ksteps.
    kcall ewma_causal. ksteps.
  Qed.

  Lemma gator_outcome data jw jo tw to lw lo :
    outcome (gator data jw jo tw to lw lo)
      (jw = 0 \/ tw = 0 \/ lw = 0 \/ length data < Nat.max (Nat.max jw tw) lw - 1)
      (length data + Nat.max (Nat.max jo to) lo).
  Proof. unfold gator. call (alligator_outcome data jw jo tw to lw lo); fin. Qed.

  Lemma kdj_outcome high low close k_win d_win kf df :
    outcome (kdj high low close k_win d_win kf df)
      (k_win = 0 \/ d_win = 0 \/ length close < k_win - 1)
      (k_win - 1 + Nat.max (d_win - 1) (bars3 high low close + 1 - k_win)).
  Proof.
    unfold kdj. cbv zeta. call (stoch_outcome high low close k_win d_win);
      [left; split; [tauto|easy]|]. right. split; [tauto|].
    eexists; split; [reflexivity|]. len. easy.
  Qed.
  Lemma kdj_causal kw dw kf df h1 h2 l1 l2 c1 c2 :
    prefix h1 h2 -> prefix l1 l2 -> prefix c1 c2 ->
    keeps (kdj h1 l1 c1 kw dw kf df) (kdj h2 l2 c2 kw dw kf df).
  Proof. intros. unfold kdj. cbv zeta. kcall stoch_causal. ksteps. Qed.

  (** ** qqe *)

  Lemma qqe_step_ok (rm dar : list F) s x :
    0 < x < length rm -> x < length dar -> exists y, qqe_step rm dar s x = Ok (y, y).
  Proof.
    intros H1 H2. unfold qqe_step, usub. icase rm x; [lia|].
    destruct (Nat.leb_spec 1 x); cbn [bind]; [|lia]. icase rm (x - 1); [lia|].
    icase dar x; [lia|]. eauto.
  Qed.
  Lemma qqe_outcome data w smoothing :
    outcome (qqe data w smoothing)
      (w = 0 \/ smoothing = 0 \/ length data < 3 * w + smoothing - 2)
      (Nat.max (3 * w + smoothing - 1) (length data)).
  Proof.
    unfold qqe. call (rsi_outcome data w); [fin|]. rename x into r.
    call (ewma_outcome (skipn w r) smoothing); len; [fin|]. rename x into e.
    unfold usub at 1. destruct (Nat.leb_spec 1 smoothing); cbn [bind]; [|lia].
    set (rm := skipn (smoothing - 1) e).
    assert (Lrm : length rm = length e - (smoothing - 1)) by (unfold rm; len; easy).
    clearbody rm.
    match goal with |- context [bind (wilder ?d w) _] => call (wilder_outcome d w) end;
      plen; [fin|]. rename x into w1.
    unfold usub at 1. destruct (Nat.leb_spec 1 w); cbn [bind]; [|lia].
    call (wilder_outcome (skipn (w - 1) w1) w); len; [fin|]. rename x into w2.
    cbv zeta. unfold usub. destruct (Nat.leb_spec 1 (w * 2)); cbn [bind]; [|lia].
    match goal with |- context [rscan (qqe_step ?a ?b) ?s ?l] =>
      set (rm2 := a); set (dar := b); set (s0 := s); set (ix := l) end.
    assert (Ld : length dar = length w2 - (w - 1)) by (unfold dar; len; easy).
    assert (Lr : length rm2 = length rm - (w * 2 - 1)) by (unfold rm2; len; easy).
    assert (R : exists o, rscan (qqe_step rm2 dar) s0 ix = Ok o).
    { assert (Hx : forall x, In x ix -> 0 < x < length rm2 /\ x < length dar).
      { intros y Hy. apply in_seq in Hy. lia. }
      clearbody ix s0. revert s0. clear -Hx. induction ix as [|y ix IH]; intros s; cbn [rscan]; [eauto|].
      destruct (qqe_step_ok rm2 dar s y) as [v ->]; [apply Hx; now left|apply Hx; now left|].
      cbn [bind]. destruct (IH (fun z Hz => Hx z (or_intror Hz)) v) as [o ->]. cbn [bind]; eauto. }
    destruct R as [o E]. rewrite E. cbn [bind]. apply length_rscan in E.
    assert (Li : length ix = length dar - 1) by (unfold ix; rewrite seq_length; lia).
    right. split; [lia|]. eexists; split; [reflexivity|]. len. lia.
  Qed.
  Lemma qqe_causal w smoothing d1 d2 o1 o2 :
    prefix d1 d2 -> qqe d1 w smoothing = Ok o1 -> qqe d2 w smoothing = Ok o2 -> prefix o1 o2.
  Proof.
    intros H E1 E2. destruct (qqe_outcome d1 w smoothing) as [[_ X]|[B _]]; [congruence|].
    unfold qqe in *.
    destruct (rsi d1 w) as [r1|] eqn:A1; [|easy]. destruct (rsi d2 w) as [r2|] eqn:A2; [|easy].
    assert (Pr : prefix r1 r2).
    { destruct (rsi_causal w d1 d2 H r1 A1) as (t & Et & P). congruence. }
    pose proof (outcome_length (rsi_outcome d1 w) A1) as Lr. cbn [bind] in *.
    destruct (ewma (skipn w r1) smoothing) as [e1|] eqn:B1; [|easy].
    destruct (ewma (skipn w r2) smoothing) as [e2|] eqn:B2; [|easy].
    assert (Pe : prefix e1 e2).
    { destruct (ewma_causal smoothing (skipn w r1) (skipn w r2) ltac:(pfx) e1 B1) as (t & Et & P).
      congruence. }
    pose proof (outcome_length (ewma_outcome _ _) B1) as Le. cbn [bind] in *.
    destruct (usub smoothing 1) as [ks|] eqn:Ks; [|easy].
    assert (ks = smoothing - 1) by (unfold usub in Ks; destruct (_ <=? _); congruence). subst ks.
    cbn [bind] in *.
    set (rm1 := skipn (smoothing - 1) e1) in *. set (rm2 := skipn (smoothing - 1) e2) in *.
    assert (Prm : prefix rm1 rm2) by (unfold rm1, rm2; pfx).
    assert (Lrm : length rm1 = length e1 - (smoothing - 1)) by (unfold rm1; len; easy).
    clearbody rm1 rm2.
    destruct (wilder _ w) as [w1|] eqn:C1 in E1; [|easy].
    destruct (wilder _ w) as [w1'|] eqn:C2 in E2; [|easy].
    assert (Pw : prefix w1 w1').
    { edestruct (wilder_causal w) as (t & Et & P); [|exact C1|rewrite C2 in Et; congruence]. pfx. }
    pose proof (outcome_length (wilder_outcome _ _) C1) as Lw. plen. cbn [bind] in *.
    destruct (usub w 1) as [k|] eqn:Kw; [|easy].
    assert (k = w - 1) by (unfold usub in Kw; destruct (_ <=? _); congruence). subst k.
    cbn [bind] in *.
    destruct (wilder (skipn (w - 1) w1) w) as [w2|] eqn:D1; [|easy].
    destruct (wilder (skipn (w - 1) w1') w) as [w2'|] eqn:D2; [|easy].
    assert (Pw2 : prefix w2 w2').
    { edestruct (wilder_causal w) as (t & Et & P); [|exact D1|rewrite D2 in Et; congruence]. pfx. }
    pose proof (outcome_length (wilder_outcome _ _) D1) as Lw2. len. cbn [bind] in *.
    destruct (usub (w * 2) 1) as [k2|] eqn:K2; [|easy].
    assert (k2 = w * 2 - 1) by (unfold usub in K2; destruct (_ <=? _); congruence). subst k2.
    cbv zeta in *. cbn [bind] in *.
    match type of E1 with context [rscan (qqe_step ?a ?b) _ _] => set (ra := a) in *; set (da := b) in * end.
    match type of E2 with context [rscan (qqe_step ?a ?b) _ _] => set (rb := a) in *; set (db := b) in * end.
    assert (prefix ra rb) by (unfold ra, rb; pfx). assert (prefix da db) by (unfold da, db; pfx).
    assert (Lda : length da = length w2 - (w - 1)) by (unfold da; len; easy).
    assert (Lra : length ra = length rm1 - (w * 2 - 1)) by (unfold ra; len; easy).
    pose proof (prefix_length H1).
    destruct (rscan _ _ _) as [s1|] eqn:S1 in E1; [|easy].
    destruct (rscan _ _ _) as [s2|] eqn:S2 in E2; [|easy]. cbn [bind] in *.
    injection E1 as <-. injection E2 as <-. apply prefix_app_l.
    erewrite rscan_ext_in in S1.
    - eapply prefix_rscan; [|exact S1|exact S2]. apply prefix_seq. lia.
    - intros s x Hx. apply in_seq in Hx. unfold qqe_step, usub.
      destruct (1 <=? x) eqn:X; cbn [bind].
      + now rewrite !(idx_prefix ra rb), !(idx_prefix da db) by (easy || lia).
      + rewrite (idx_prefix ra rb) by (easy || lia). reflexivity.
  Qed.
End Shape.
#[global] Hint Resolve prefix_pairs prefix_deli_quotes : pfx.
