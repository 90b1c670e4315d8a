(** * Shape of trend.rs: panic domains, lengths and causality.

    Everything here holds for every arithmetic [FOps F]. *)

From Verif Require Export Tac Trend VolShape.
Local Unset Implicit Arguments.

Section Shape.
  Context {F : Type} {O : FOps F}.
  Implicit Types (data open high low close : list F) (w : nat).

  Ltac icase l i := destruct (idx_cases l i) as [[? ->]|[? [? ->]]]; cbn [bind].

  Lemma min6 a b c d :
    Nat.min (Nat.min (Nat.min (Nat.min (Nat.min (a - 1) (a - 1)) (b - 1)) (c - 1)) (d - 1)) (d - 1)
    = Nat.min (Nat.min (Nat.min a b) c) d - 1.
  Proof.
    now rewrite Nat.min_id, <- Nat.min_assoc, Nat.min_id, !Nat.sub_min_distr_r.
  Qed.
  Lemma swing_outcome open high low close limit :
    outcome (swing open high low close limit) (bars4 open high low close = 0)
            (bars4 open high low close - 1).
  Proof.
    unfold swing, usub, slice_to, slice_from.
    destruct (Nat.leb_spec 1 (length open)); cbn [bind]; [|fin].
    destruct (Nat.leb_spec (length open - 1) (length open)); cbn [bind]; [|lia].
    destruct (Nat.leb_spec 1 (length high)); cbn [bind]; [|fin].
    destruct (Nat.leb_spec 1 (length low)); cbn [bind]; [|fin].
    destruct (Nat.leb_spec 1 (length close)); cbn [bind]; [|fin].
    destruct (Nat.leb_spec (length close - 1) (length close)); cbn [bind]; [|lia].
    right. split; [unfold bars4, bars3, bars2; lia|].
    eexists; split; [reflexivity|].
    rewrite map_length, length_zip6, !firstn_length, !skipn_length.
    rewrite (Nat.min_l (length open - 1) (length open)), (Nat.min_l (length close - 1) (length close))
      by easy. unfold bars4, bars3, bars2.
    apply min6.
  Qed.
  Lemma swing_causal limit o1 o2 h1 h2 l1 l2 c1 c2 :
    prefix o1 o2 -> prefix h1 h2 -> prefix l1 l2 -> prefix c1 c2 ->
    keeps (swing o1 h1 l1 c1 limit) (swing o2 h2 l2 c2 limit).
  Proof. intros. unfold swing. ksteps. Qed.

  Lemma asi_outcome open high low close limit :
    outcome (asi open high low close limit) (bars4 open high low close = 0)
            (bars4 open high low close).
  Proof. unfold asi. call (swing_outcome open high low close limit); fin. Qed.
  Lemma asi_causal limit o1 o2 h1 h2 l1 l2 c1 c2 :
    prefix o1 o2 -> prefix h1 h2 -> prefix l1 l2 -> prefix c1 c2 ->
    keeps (asi o1 h1 l1 c1 limit) (asi o2 h2 l2 c2 limit).
  Proof. intros. unfold asi. kcall swing_causal. ksteps. Qed.

  Lemma shinohara_outcome high low close w :
    outcome (shinohara high low close w) (w = 0 \/ bars3 high low close < w)
            (bars3 high low close).
  Proof. unfold shinohara. zap; len; fin. Qed.
  Lemma shinohara_causal w h1 h2 l1 l2 c1 c2 :
    prefix h1 h2 -> prefix l1 l2 -> prefix c1 c2 ->
    keeps (shinohara h1 l1 c1 w) (shinohara h2 l2 c2 w).
  Proof. intros. unfold shinohara. ksteps. Qed.

  Lemma bar_pairs_outcome high low close :
    outcome (bar_pairs high low close) (bars3 high low close = 0) (bars3 high low close - 1).
  Proof. unfold bar_pairs. zap; fin. Qed.
  Lemma bar_pairs_causal h1 h2 l1 l2 c1 c2 :
    prefix h1 h2 -> prefix l1 l2 -> prefix c1 c2 ->
    keeps (bar_pairs h1 l1 c1) (bar_pairs (F := F) h2 l2 c2).
  Proof. intros. unfold bar_pairs. ksteps. Qed.

  Lemma adx_outcome high low close w smoothing :
    outcome (adx high low close w smoothing)
      (w = 0 \/ smoothing = 0 \/ bars3 high low close < w + smoothing - 1)
      (bars3 high low close).
  Proof.
    unfold adx. call (bar_pairs_outcome high low close); [fin|]. rename x into bars.
    call (wilder_outcome (map bar_tr bars) w); len; [fin|].
    call (wilder_outcome (map dm_pos bars) w); len; [fin|].
    call (wilder_outcome (map dm_neg bars) w); len; [fin|].
    unfold usub, slice_from. zap; len; try fin.
    match goal with |- context [wilder ?d smoothing] => call (wilder_outcome d smoothing) end;
      len; fin.
  Qed.
  Lemma adx_causal w smoothing h1 h2 l1 l2 c1 c2 :
    prefix h1 h2 -> prefix l1 l2 -> prefix c1 c2 ->
    keeps (adx h1 l1 c1 w smoothing) (adx h2 l2 c2 w smoothing).
  Proof.
    intros. unfold adx. kcall bar_pairs_causal. kcall wilder_causal. kcall wilder_causal.
    kcall wilder_causal. ksteps. kcall wilder_causal. ksteps.
  Qed.

  Lemma vortex_outcome high low close w :
    outcome (vortex high low close w) (w = 0 \/ bars3 high low close = 0)
            (Nat.max w (bars3 high low close)).
  Proof. unfold vortex. call (bar_pairs_outcome high low close); [fin|]. zap; fin. Qed.
  Lemma vortex_causal w h1 h2 l1 l2 c1 c2 :
    prefix h1 h2 -> prefix l1 l2 -> prefix c1 c2 ->
    keeps (vortex h1 l1 c1 w) (vortex h2 l2 c2 w).
  Proof. intros. unfold vortex. kcall bar_pairs_causal. ksteps. Qed.

  Lemma ulcer_outcome data w :
    outcome (ulcer data w) (w = 0) (Nat.max (2 * (w - 1)) (length data)).
  Proof.
    unfold ulcer. zap; try fin.
    match goal with |- context [sma ?d w] => call (sma_outcome d w) end; len; fin.
  Qed.
  Lemma ulcer_causal w d1 d2 : prefix d1 d2 -> keeps (ulcer d1 w) (ulcer d2 w).
  Proof. intros. unfold ulcer. ksteps. kcall sma_causal. ksteps. Qed.

  Lemma supertrend_outcome high low close w mult :
    outcome (supertrend high low close w mult) (w = 0 \/ bars3 high low close < w)
            (bars3 high low close).
  Proof. unfold supertrend. call (atr_outcome high low close w); fin. Qed.
  Lemma supertrend_causal w mult h1 h2 l1 l2 c1 c2 :
    prefix h1 h2 -> prefix l1 l2 -> prefix c1 c2 ->
    keeps (supertrend h1 l1 c1 w mult) (supertrend h2 l2 c2 w mult).
  Proof. intros. unfold supertrend. kcall atr_causal. ksteps. Qed.

  Lemma rwi_outcome high low close w :
    outcome (rwi high low close w) (w = 0 \/ bars3 high low close = 0)
            (Nat.max w (bars3 high low close)).
  Proof.
    unfold rwi. zap; try fin. all: call (true_range_outcome high low close); fin.
  Qed.
  Lemma rwi_causal w h1 h2 l1 l2 c1 c2 :
    prefix h1 h2 -> prefix l1 l2 -> prefix c1 c2 -> keeps (rwi h1 l1 c1 w) (rwi h2 l2 c2 w).
  Proof. intros. unfold rwi. ksteps. kcall true_range_causal. ksteps. Qed.

  (** [psar] indexes [low] by the range of [high]. *)
  Lemma psar_outcome high low af af_max :
    outcome (psar high low af af_max) (length high = 0 \/ length low < length high)
            (length high).
  Proof.
    unfold psar. set (a := unwrap_or af _). set (m := unwrap_or af_max _).
    icase high 0; [fin|]. icase low 0; [fin|]. zap.
    assert (R : forall s, rscan (psar_step a m high low) s (seq 0 (length high - 1)) = Panic <->
            length low < length high).
    { intros s.
      rewrite (rscan_panic_stateless _ (fun i => Nat.min (length high) (length low) <= i + 1)).
      - split.
        + intros (i & Hi & Hb). apply in_seq in Hi. lia.
        + intros H'. exists (length high - 2). split; [apply in_seq; lia|lia].
      - intros s' i. unfold psar_step.
        icase high (i + 1); [split; [lia|easy]|]. icase low (i + 1); [split; [lia|easy]|].
        icase high (Nat.max i 1 - 1); [lia|]. icase low (Nat.max i 1 - 1); [lia|].
        split; [easy|lia]. }
    match goal with |- context [rscan _ ?s _] => specialize (R s) end.
    destruct (rscan _ _ _) as [r|] eqn:E; cbn [bind].
    - right. assert (~ length low < length high) by (rewrite <- R; easy). split; [lia|].
      eexists; split; [reflexivity|]. apply length_rscan in E. len. lia.
    - left. split; [|easy]. right. now apply R.
  Qed.
  Lemma psar_causal af af_max h1 h2 l1 l2 o1 o2 :
    prefix h1 h2 -> prefix l1 l2 ->
    psar h1 l1 af af_max = Ok o1 -> psar h2 l2 af af_max = Ok o2 -> prefix o1 o2.
  Proof.
    intros Hh Hl E1 E2. destruct (psar_outcome h1 l1 af af_max) as [[_ X]|[B _]]; [congruence|].
    pose proof (prefix_length Hh). pose proof (prefix_length Hl).
    unfold psar in *. rewrite !(idx_prefix h1 h2), !(idx_prefix l1 l2) in E2 by (easy || lia).
    destruct (idx h1 0); cbn [bind] in *; [|easy]. destruct (idx l1 0); cbn [bind] in *; [|easy].
    unfold usub in *. destruct (Nat.leb_spec 1 (length h1)); [|easy].
    destruct (Nat.leb_spec 1 (length h2)); [|easy]. cbn [bind] in *.
    destruct (rscan (psar_step _ _ h1 l1) _ _) as [r1|] eqn:R1; [|easy].
    destruct (rscan (psar_step _ _ h2 l2) _ _) as [r2|] eqn:R2; [|easy]. cbn [bind] in *.
    injection E1 as <-. injection E2 as <-. apply prefix_cons.
    erewrite rscan_ext_in in R1.
    - eapply prefix_rscan; [|exact R1|exact R2]. apply prefix_seq. lia.
    - intros s i Hi. apply in_seq in Hi. unfold psar_step.
      rewrite !(idx_prefix h1 h2), !(idx_prefix l1 l2) by (easy || lia). reflexivity.
  Qed.

  Lemma dpo_outcome data w mode :
    outcome (dpo data w mode)
      (ma_bad (unwrap_or mode SMA) (length data) w \/ w < 3 \/ length data < w - w / 2 - 2)
      (w - 1 + Nat.min (length data - (w - w / 2 - 2))
                       (ma_len (unwrap_or mode SMA) (length data) w - (w - 1))).
  Proof.
    unfold dpo. assert (H2 : 2 * (w / 2) <= w < 2 * (w / 2) + 2)
      by (pose proof (Nat.div_mod w 2); pose proof (Nat.mod_upper_bound w 2); lia).
    call (ma_outcome data w (unwrap_or mode SMA)); [left; tauto|].
    cbv zeta. zap; try (left; split; [lia|reflexivity]).
    right. split; [intros [?|?]; [tauto|lia]|]. eexists; split; [reflexivity|]. len. lia.
  Qed.
  Lemma dpo_causal w mode d1 d2 : prefix d1 d2 -> keeps (dpo d1 w mode) (dpo d2 w mode).
  Proof. intros. unfold dpo. cbv zeta. kcall ma_causal. ksteps. Qed.

  Lemma aroon_outcome high low w :
    outcome (aroon high low w) False (Nat.max w (bars2 high low)).
  Proof. unfold aroon. fin. Qed.
  Lemma aroon_causal w h1 h2 l1 l2 :
    prefix h1 h2 -> prefix l1 l2 -> keeps (aroon h1 l1 w) (aroon h2 l2 w).
  Proof. intros. unfold aroon. ksteps. Qed.

  Lemma chandelier_outcome high low close w mult :
    outcome (chandelier high low close w mult) (w = 0 \/ bars3 high low close < w)
            (bars3 high low close).
  Proof.
    unfold chandelier. unfold rwindows. destruct (Nat.eqb_spec w 0); cbn [bind]; [fin|].
    call (atr_outcome high low close w); fin.
  Qed.
  Lemma chandelier_causal w mult h1 h2 l1 l2 c1 c2 :
    prefix h1 h2 -> prefix l1 l2 -> prefix c1 c2 ->
    keeps (chandelier h1 l1 c1 w mult) (chandelier h2 l2 c2 w mult).
  Proof. intros. unfold chandelier. ksteps. kcall atr_causal. ksteps. Qed.

  (** [zigzag] on well-formed bars. *)
  Lemma zz_init_ok d high low st idxs :
    0 < length high -> length high <= length low -> (forall i, In i idxs -> i < length high) ->
    length (zz_res st) = length high ->
    (fst (zz_end st) < length high) ->
    exists st', zz_init d high low st idxs = Ok st' /\ length (zz_res st') = length high /\
      fst (zz_end st') < length high.
  Proof.
    intros H0 H1. induction idxs as [|i idxs IH]; intros Hi L E; cbn; [eauto|].
    assert (i < length high) by (apply Hi; now left).
    icase high 0; [lia|]. icase low i; [lia|].
    destruct (fgeb _ _); [eexists; split; [reflexivity|]; cbn; rewrite length_upd; auto|].
    icase high i; [lia|]. icase low 0; [lia|].
    destruct (fgeb _ _); [eexists; split; [reflexivity|]; cbn; rewrite length_upd; auto|].
    apply IH; auto. intros; apply Hi; now right.
  Qed.
  Lemma zz_step_ok d high low st i :
    length high <= length low -> i < length high -> length (zz_res st) = length high ->
    exists st', zz_step d high low st i = Ok st' /\ length (zz_res st') = length high.
  Proof.
    intros H1 Hi L. destruct st as [res s e]. cbn in L. unfold zz_step.
    icase high i; [lia|].
    destruct (_ && _); [eexists; split; [reflexivity|easy]|].
    destruct (_ && _); [eexists; split; [reflexivity|cbn; now rewrite length_upd]|].
    icase low i; [lia|].
    destruct (_ <? _)%F.
    - destruct (_ <? _)%F; [eexists; split; [reflexivity|easy]|].
      destruct (fgtb _ _); [|eexists; split; [reflexivity|easy]].
      destruct (fgeb _ _); eexists; split; try reflexivity; cbn; now rewrite ?length_upd.
    - destruct (fgtb _ _); [|eexists; split; [reflexivity|easy]].
      destruct (fgeb _ _); eexists; split; try reflexivity; cbn; now rewrite ?length_upd.
  Qed.
  Lemma zz_loop_ok d high low idxs : forall st,
    length high <= length low -> (forall i, In i idxs -> i < length high) ->
    length (zz_res st) = length high ->
    exists st', zz_loop d high low st idxs = Ok st' /\ length (zz_res st') = length high.
  Proof.
    induction idxs as [|i idxs IH]; intros st H1 Hi L; cbn; [eauto|].
    destruct (zz_step_ok d high low st i) as (st' & -> & L'); auto; [apply Hi; now left|].
    cbn [bind]. apply IH; auto. intros; apply Hi; now right.
  Qed.
  Lemma zigzag_empty high low d : high = [] \/ low = [] -> zigzag high low d = Panic.
  Proof. intros [-> | ->]; unfold zigzag; [|reflexivity]. now destruct (idx low 0). Qed.
  Lemma zigzag_ok high low d :
    0 < length high -> length high <= length low ->
    exists o, zigzag high low d = Ok o /\ length o = length high.
  Proof.
    intros H0 H1. unfold zigzag. icase low 0; [lia|]. unfold usub.
    destruct (Nat.leb_spec 1 (length high)); [|lia]. cbn [bind].
    icase high (length high - 1); [lia|].
    match goal with |- context [zz_init ?d ?h ?l ?s ?i] =>
      destruct (zz_init_ok d h l s i) as (st1 & -> & L1 & E1) end; try easy.
    { intros i Hi. apply in_seq in Hi. lia. }
    { cbn [zz_res]. rewrite length_upd. apply repeat_length. }
    cbn [bind].
    assert (X : exists st2, (if fst (zz_end st1) <? length high - 1
        then zz_loop (unwrap_or d (flit 5 1)) high low st1
              (seq (fst (zz_end st1)) (length high - fst (zz_end st1)))
        else Ok st1) = Ok st2 /\ length (zz_res st2) = length high).
    { destruct (_ <? _); [|eauto]. apply zz_loop_ok; auto.
      intros i Hi. apply in_seq in Hi. lia. }
    destruct X as (st2 & -> & L2). cbn [bind].
    icase (zz_res st2) (length high - 1); [lia|].
    destruct (fisnan _); [|eauto]. destruct (fgtb _ _).
    - eexists; split; [reflexivity|]. now rewrite length_upd.
    - icase low (length low - 1); [lia|]. eexists; split; [reflexivity|]. now rewrite length_upd.
  Qed.

  Lemma decay_outcome data w : outcome (decay data w) False (length data).
  Proof. unfold decay. fin. Qed.
  Lemma decay_causal w d1 d2 : prefix d1 d2 -> keeps (decay d1 w) (decay d2 w).
  Proof. intros. unfold decay. ksteps. Qed.

  Lemma cks_outcome high low close win1 win2 mult :
    outcome (cks high low close win1 win2 mult)
      (win1 = 0 \/ win2 = 0 \/ bars3 high low close < win1)
      (Nat.max (win1 + win2 - 1) (bars3 high low close)).
  Proof.
    unfold cks. zap; try fin. all: call (atr_outcome high low close win1); fin.
  Qed.
  Lemma cks_causal win1 win2 mult h1 h2 l1 l2 c1 c2 :
    prefix h1 h2 -> prefix l1 l2 -> prefix c1 c2 ->
    keeps (cks h1 l1 c1 win1 win2 mult) (cks h2 l2 c2 win1 win2 mult).
  Proof. intros. unfold cks. ksteps. kcall atr_causal. ksteps. Qed.

  Lemma atr_stop_outcome high low close w mult :
    outcome (atr_stop high low close w mult) (w = 0 \/ bars3 high low close < w)
            (bars3 high low close).
  Proof.
    unfold atr_stop. unfold rwindows. destruct (Nat.eqb_spec w 0); cbn [bind]; [fin|].
    call (atr_outcome high low close w); fin.
  Qed.
  Lemma atr_stop_causal w mult h1 h2 l1 l2 c1 c2 :
    prefix h1 h2 -> prefix l1 l2 -> prefix c1 c2 ->
    keeps (atr_stop h1 l1 c1 w mult) (atr_stop h2 l2 c2 w mult).
  Proof. intros. unfold atr_stop. ksteps. kcall atr_causal. ksteps. Qed.

  Lemma displaced_outcome data win off mo :
    outcome (displaced data win off mo) (win = 0 \/ length data < win - 1)
            (length data + Nat.max off mo).
  Proof. unfold displaced. call (wilder_outcome data win); fin. Qed.
  (** [alligator] runs on past the last bar by the largest offset. *)
  Lemma alligator_outcome data jw jo tw to lw lo :
    outcome (alligator data jw jo tw to lw lo)
      (jw = 0 \/ tw = 0 \/ lw = 0 \/ length data < Nat.max (Nat.max jw tw) lw - 1)
      (length data + Nat.max (Nat.max jo to) lo).
  Proof.
    unfold alligator. cbv zeta. set (mo := Nat.max (Nat.max jo to) lo).
    call (displaced_outcome data jw jo mo); [fin|].
    call (displaced_outcome data tw to mo); [fin|].
    call (displaced_outcome data lw lo mo); fin.
  Qed.

  Lemma midpoints_outcome high low w :
    outcome (midpoints high low w) (w = 0) (bars2 high low + 1 - w).
  Proof. unfold midpoints. zap; fin. Qed.
  Lemma midpoints_causal w h1 h2 l1 l2 :
    prefix h1 h2 -> prefix l1 l2 -> keeps (midpoints h1 l1 w) (midpoints h2 l2 w).
  Proof. intros. unfold midpoints. ksteps. Qed.
  (** [ichimoku] runs on past the last bar by the base window. *)
  Lemma ichimoku_outcome high low close cw bw lw lag :
    outcome (ichimoku high low close cw bw lw lag) (cw = 0 \/ bw = 0 \/ lw = 0)
      (bw + Nat.min (Nat.min (Nat.min (Nat.max (cw - 1) (bars2 high low))
                                      (Nat.max (bw - 1) (bars2 high low)))
                             (Nat.max (lw - 1) (bars2 high low)))
                    (Nat.max lag (length close))).
  Proof.
    unfold ichimoku, usub. destruct (Nat.leb_spec 1 cw); cbn [bind]; [|fin].
    call (midpoints_outcome high low cw); [fin|].
    destruct (Nat.leb_spec 1 bw); cbn [bind]; [|fin].
    call (midpoints_outcome high low bw); [fin|].
    destruct (Nat.leb_spec 1 lw); cbn [bind]; [|fin].
    call (midpoints_outcome high low lw); [fin|]. cbv zeta.
    right. split; [lia|]. eexists; split; [reflexivity|].
    rewrite length_zip5, !app_length, !map_length, !combine_length, !app_length, !length_pad,
      skipn_length, L, L0, L1.
    set (m := bars2 high low).
    replace (cw - 1 + (m + 1 - cw)) with (Nat.max (cw - 1) m) by (clearbody m; lia).
    replace (bw - 1 + (m + 1 - bw)) with (Nat.max (bw - 1) m) by (clearbody m; lia).
    replace (lw - 1 + bw + (m + 1 - lw)) with (bw + Nat.max (lw - 1) m) by (clearbody m; lia).
    replace (length close - lag + (lag + bw)) with (bw + Nat.max lag (length close)) by lia.
    rewrite !(Nat.add_comm _ bw), !Nat.add_min_distr_l, Nat.min_id. reflexivity.
  Qed.

  Lemma hurst_point_panic (l : list F) x : hurst_point l x = Panic <-> x = 0.
  Proof. unfold hurst_point. destruct (Nat.eqb_spec x 0); split; easy. Qed.
  Lemma hurst_win_panic sizes (l : list F) : hurst_win sizes l = Panic <-> In 0 sizes.
  Proof.
    unfold hurst_win. destruct (rmap (hurst_point l) sizes) as [r|] eqn:E; cbn [bind].
    - split; [easy|]. intros H. assert (rmap (hurst_point l) sizes = Panic); [|congruence].
      apply rmap_panic_iff. exists 0. split; [easy|]. now apply hurst_point_panic.
    - split; [|easy]. intros _. apply rmap_panic_iff in E as (x & Hx & P).
      apply hurst_point_panic in P. now subst.
  Qed.
  (** When the loop that builds the sub-window sizes ends, with sizes [sz]. *)
  Lemma hurst_outcome fuel data w mw sz :
    hurst_sizes fuel w (flog10 (fofnat (unwrap_or mw 4))) = Some sz ->
    exists r, hurst fuel data w mw = Some r /\
      outcome r (w = 0 \/ (w <= length data /\ In 0%N sz)) (Nat.max (w - 1) (length data)).
  Proof.
    intros E. unfold hurst. rewrite E. eexists; split; [reflexivity|]. cbv zeta. zap; try fin.
    set (sizes := map N.to_nat sz ++ [w]).
    assert (R : outcome (rmap (hurst_win sizes) (windows w data)) (w <= length data /\ In 0%N sz)
                        (length (windows w data))).
    { apply rmap_outcome.
      assert (Z : In 0 sizes <-> In 0%N sz).
      { unfold sizes. rewrite in_app_iff, in_map_iff. cbn [In]. split.
        - intros [(x & Hx & Hi)|[?|[]]]; [|lia]. replace 0%N with x by lia. easy.
        - intros Hi. left. now exists 0%N. }
      split.
      - intros (x & Hx & P). apply hurst_win_panic in P. apply In_windows in Hx as (i & Hi & _).
        split; [lia|]. now apply Z.
      - intros [Hn Hz]. exists (firstn w (skipn 0 data)). split.
        + apply In_windows. exists 0. split; [lia|easy].
        + apply hurst_win_panic. now apply Z. }
    call R; [left; split; [tauto|easy]|]. right. split; [tauto|].
    eexists; split; [reflexivity|]. len. lia.
  Qed.
  Lemma hurst_causal fuel w mw d1 d2 r1 r2 :
    prefix d1 d2 -> hurst fuel d1 w mw = Some r1 -> hurst fuel d2 w mw = Some r2 ->
    forall o1 o2, r1 = Ok o1 -> r2 = Ok o2 -> prefix o1 o2.
  Proof.
    intros H. unfold hurst. destruct (hurst_sizes _ _ _) as [sz|]; [|easy].
    intros [= <-] [= <-]. intros o1 o2. unfold usub, rwindows.
    destruct (1 <=? w); cbn [bind]; [|easy]. destruct (w =? 0); cbn [bind]; [easy|].
    destruct (rmap _ (windows w d1)) as [r1|] eqn:R1; [|easy].
    destruct (rmap _ (windows w d2)) as [r2|] eqn:R2; [|easy]. cbn [bind].
    intros [= <-] [= <-]. apply prefix_app_l. eapply prefix_rmap; [|exact R1|exact R2]. pfx.
  Qed.
End Shape.
