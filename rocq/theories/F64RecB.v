(** * F64RecB: rounding errors of further functions built on the recursive averages:
      [zlma], [qstick], [elder_ray], [keltner] and [dpo]. *)

From Coq Require Import Reals Lra Lia ZArith.
From Flocq Require Import Core Relative Plus_error IEEE754.BinarySingleNaN.
From Verif Require Import Spec BaseFacts Tac SmoothShape VolShape DistShape TrendShape MomShape XReal Select RSpec XRFacts Bars DistReal VolumeReal VolatReal B64 F64 Smooth SmoothVals Momentum Trend Volume Volatility Correlation CorrReal Dcor F64Facts MomReal TrendReal F64Range F64Err F64Rec F64Win F64Var Distribution.
Local Unset Implicit Arguments.
Local Open Scope R_scope.

Ltac units M w HM Sw Hw :=
  pose proof (sized_pos M HM) as PM; pose proof (sized_small M w HM Sw) as B1; pose proof uu_pos as PU; pose proof uu_le as UL;
  pose proof (sized_mul M 1 HM ltac:(unfold small_window; lia)) as SM; cbn [INR] in SM; rewrite Rmult_1_l in SM; pose proof (eta_small M HM) as EM; pose proof eta_pos as EP;
  assert (UM : 0 < uu * M) by (apply Rmult_lt_0_compat; lra); assert (UM2 : uu * M <= / 1024 * M) by (apply Rmult_le_compat_r; lra);
  assert (P1 : 1 <= INR w) by (change 1 with (INR 1); apply le_INR; lia);
  assert (B899 : bpow radix2 890 * 8 <= bpow radix2 899) by (change 8 with (bpow radix2 3); rewrite <- bpow_plus; apply bpow_le; lia);
  assert (WM : 2 * (uu * M) <= (INR w + 1) * uu * M) by (rewrite Rmult_assoc; apply Rmult_le_compat_r; lra);
  assert (WU : (INR w + 1) * uu <= / 4096) by (apply Rmult_le_reg_r with M; lra).

Lemma sized_times M c : sized M -> M <= bpow radix2 890 -> 1 <= c <= 8 -> sized (c * M).
Proof.
  intros [L _] MB Hc. pose proof (bpow_gt_0 radix2 (-900)).
  assert (B : bpow radix2 890 * 8 <= bpow radix2 900) by (change 8 with (bpow radix2 3); rewrite <- bpow_plus; apply bpow_le; lia).
  split; nra.
Qed.
(** An average of [w] bars of a series each of whose items was computed to within 8
    rounding units. *)
Lemma ewma_of_near m (g : nat -> f64) (r : nat -> R) a n w M : (1 <= w <= n)%nat -> small_window w -> sized M -> M <= bpow radix2 890 ->
  (forall j, (j < n)%nat -> near (g j) (r (a + j)%nat) (8 * (uu * M)) /\ Rabs (r (a + j)%nat) <= 3 * M) ->
  exists o, @ewma f64 (B64 m) (series g n) w = Ok o /\ length o = n /\
  forall i, (w - 1 <= i < n)%nat -> exists x, nth_error o i = Some x /\
    near x (ewma_from w a r (a + i)) (24 * (INR w + 1) * uu * M) /\ Rabs (ewma_from w a r (a + i)) <= 3 * M.
Proof.
  intros Hw Sw HM MB H. units M w HM Sw Hw.
  pose proof (sized_times M 3 HM MB ltac:(lra)) as H3.
  destruct (ewma_tracks m (series g n) r a w (3 * M) (8 * (uu * M))) as (o & E & L & V); rewrite ?length_series in *; try easy.
  { apply sized_grow; [easy|lra|]. lra. }
  { intros j Hj. exists (g j). unfold series. rewrite nth_error_map', nth_error_seq by easy. destruct (H j Hj). now split. }
  exists o. split; [exact E|]. split; [exact L|]. intros i Hi. destruct (V i Hi) as (x & Hx & N & A). exists x. split; [exact Hx|]. split; [|exact A].
  eapply near_weaken; [exact N|].
  replace (6 * (INR w + 1) * uu * (3 * M + 8 * (uu * M))) with (18 * ((INR w + 1) * uu * M) + 48 * (((INR w + 1) * uu) * (uu * M))) by ring.
  assert (((INR w + 1) * uu) * (uu * M) <= / 4096 * (uu * M)) by (apply Rmult_le_compat_r; lra).
  replace (24 * (INR w + 1) * uu * M) with (24 * ((INR w + 1) * uu * M)) by ring. lra.
Qed.

Theorem zlma_f64_error m (f : nat -> f64) n w M : (1 <= w)%nat -> ((w - 1) / 2 + w <= n)%nat -> small_window w -> sized M -> M <= bpow radix2 890 ->
  (forall k, (k < n)%nat -> fin (f k) /\ Rabs (B2R (f k)) <= M) ->
  let lag := ((w - 1) / 2)%nat in
  exists o, @zlma f64 (B64 m) (series f n) w = Ok o /\
  forall i, (lag + w - 1 <= i < n)%nat -> exists x, nth_error o i = Some x /\ fin x /\
    Rabs (B2R x - ewma_from w lag (fun j => 2 * B2R (f j) - B2R (f (j - lag)%nat)) i) <= 24 * (INR w + 1) * uu * M.
Proof.
  intros Hw Hn Sw HM MB H lag. fold lag in Hn. units M w HM Sw Hw.
  set (r := fun j => 2 * B2R (f j) - B2R (f (j - lag)%nat)).
  destruct (ewma_of_near m (fun j => @fsub f64 (B64 m) (@fmul f64 (B64 m) (@flit f64 (B64 m) 2 1) (f (lag + j)%nat)) (f j)) r lag (n - lag) w M) as (o & E & L & V); try easy; try lia.
  { intros j Hj. unfold r. replace (lag + j - lag)%nat with j by lia. destruct (H (lag + j)%nat ltac:(lia)) as [F1 A1]. destruct (H j ltac:(lia)) as [F2 A2].
    pose proof (lit_near 2 ltac:(easy)) as N0. change (b64_of_Z 2) with (b64_lit 2 1) in N0.
    pose proof (near_mul _ _ _ _ _ _ 2 M (2 * M) N0 (near_exact _ F1) ltac:(rewrite Rabs_pos_eq; lra) A1 ltac:(lra) ltac:(lra)) as Q1.
    apply abs_le in A1. apply abs_le in A2.
    assert (A : Rabs (2 * B2R (f (lag + j)%nat) - B2R (f j)) <= 3 * M) by (apply le_abs; lra).
    pose proof (near_sub _ _ _ _ _ _ (4 * M) Q1 (near_exact _ F2) ltac:(lra) ltac:(lra)) as Q2. split; [|exact A].
    eapply near_weaken; [exact Q2|]. lra. }
  unfold zlma, usub. rewrite (proj2 (Nat.leb_le 1 w)) by lia. cbn [bind]. fold lag. unfold slice_from. rewrite length_series, (proj2 (Nat.leb_le lag n)) by lia. cbn [bind].
  match goal with |- context [ewma ?l w] => replace l with (series (fun j => @fsub f64 (B64 m) (@fmul f64 (B64 m) (@flit f64 (B64 m) 2 1) (f (lag + j)%nat)) (f j)) (n - lag)) end.
  2:{ unfold series. apply nth_error_ext. intros j. rewrite !nth_error_map', nth_error_combine, nth_error_skipn, !nth_error_map'.
      destruct (le_lt_dec (n - lag) j) as [K|K].
      - rewrite (proj2 (nth_error_None (seq 0 (n - lag)) j)) by (rewrite seq_length; lia). rewrite (proj2 (nth_error_None (seq 0 n) (lag + j))) by (rewrite seq_length; lia). destruct (nth_error (seq 0 n) j); reflexivity.
      - rewrite !nth_error_seq by lia. reflexivity. }
  rewrite E. cbn [bind]. eexists. split; [reflexivity|]. intros i Hi.
  destruct (V (i - lag)%nat ltac:(lia)) as (x & Hx & [F N] & _). replace (lag + (i - lag))%nat with i in N by lia.
  exists x. rewrite nth_error_app2, length_pad by (rewrite length_pad; lia). now split.
Qed.

Theorem qstick_f64_error m (op c : nat -> f64) n w M : (1 <= w <= n)%nat -> small_window w -> sized M -> M <= bpow radix2 890 ->
  (forall k, (k < n)%nat -> fin (op k) /\ fin (c k) /\ Rabs (B2R (op k)) <= M /\ Rabs (B2R (c k)) <= M) ->
  exists o, @qstick f64 (B64 m) (series op n) (series c n) w = Ok o /\
  forall i, (w - 1 <= i < n)%nat -> exists x, nth_error o i = Some x /\ fin x /\
    Rabs (B2R x - ewma_from w 0 (fun k => B2R (c k) - B2R (op k)) i) <= 24 * (INR w + 1) * uu * M.
Proof.
  intros Hw Sw HM MB H. units M w HM Sw Hw.
  destruct (ewma_of_near m (fun j => @fsub f64 (B64 m) (c j) (op j)) (fun k => B2R (c k) - B2R (op k)) 0 n w M) as (o & E & L & V); try easy.
  { intros j Hj. cbn [plus]. destruct (H j Hj) as (F1 & F2 & A1 & A2). apply abs_le in A1. apply abs_le in A2.
    assert (A : Rabs (B2R (c j) - B2R (op j)) <= 2 * M) by (apply le_abs; lra).
    pose proof (near_sub _ _ _ _ _ _ (2 * M) (near_exact _ F2) (near_exact _ F1) ltac:(lra) ltac:(lra)) as Q2. split; [|lra].
    eapply near_weaken; [exact Q2|]. lra. }
  exists o. split; [unfold qstick; rewrite combine_series, map_map; exact E|].
  intros i Hi. destruct (V i Hi) as (x & Hx & [F N] & _). exists x. now split.
Qed.

Theorem elder_ray_f64_error m (h l c : nat -> f64) n w M : (1 <= w <= n)%nat -> small_window w -> sized M -> M <= bpow radix2 890 ->
  (forall k, (k < n)%nat -> fin (h k) /\ fin (l k) /\ fin (c k) /\ Rabs (B2R (h k)) <= M /\ Rabs (B2R (l k)) <= M /\ Rabs (B2R (c k)) <= M) ->
  exists o, @elder_ray f64 (B64 m) (series h n) (series l n) (series c n) w = Ok o /\
  forall i, (w - 1 <= i < n)%nat -> exists x y, nth_error o i = Some (x, y) /\
    near x (B2R (h i) - ewma_from w 0 (fun k => B2R (c k)) i) (8 * (INR w + 1) * uu * M) /\
    near y (B2R (l i) - ewma_from w 0 (fun k => B2R (c k)) i) (8 * (INR w + 1) * uu * M).
Proof.
  intros Hw Sw HM MB H. units M w HM Sw Hw. set (r := fun k => B2R (c k)).
  destruct (ewma_tracks m (series c n) r 0 w M 0) as (o1 & E1 & L1 & V1); rewrite ?length_series in *; try easy.
  { now rewrite Rplus_0_r. }
  { intros j Hj. exists (c j). unfold series. rewrite nth_error_map', nth_error_seq by easy. destruct (H j Hj) as (_ & _ & F & _ & _ & A). split; [reflexivity|]. split; [now apply near_exact|easy]. }
  cbn [plus] in V1. rewrite Rplus_0_r, Rplus_0_l in V1.
  unfold elder_ray. rewrite E1. cbn [bind]. eexists. split; [reflexivity|]. intros i Hi.
  destruct (V1 i Hi) as (x & Hx & N & A). destruct (H i ltac:(lia)) as (F1 & F2 & _ & A1 & A2 & _).
  unfold zip3. rewrite nth_error_map', !nth_error_combine, Hx. unfold series. rewrite !nth_error_map', nth_error_seq by lia. cbn [option_map].
  do 2 eexists. split; [reflexivity|].
  set (d := 6 * (INR w + 1) * uu * M) in *.
  assert (D : 12 * (uu * M) <= d <= / 512 * M). { unfold d. replace (6 * (INR w + 1) * uu * M) with (6 * ((INR w + 1) * uu * M)) by ring. lra. }
  assert (G : forall y, fin y -> Rabs (B2R y) <= M -> near (Bminus mode_NE y x) (B2R y - ewma_from w 0 r i) (8 * (INR w + 1) * uu * M)).
  { intros y Fy Ay. apply abs_le in Ay. apply abs_le in A. assert (Q : Rabs (B2R y - ewma_from w 0 r i) <= 2 * M) by (apply le_abs; lra).
    pose proof (near_sub _ _ _ _ _ _ (3 * M) (near_exact _ Fy) N ltac:(lra) ltac:(lra)) as Q2. eapply near_weaken; [exact Q2|].
    replace (8 * (INR w + 1) * uu * M) with (4 / 3 * d) by (unfold d; field). lra. }
  split; now apply G.
Qed.

Theorem keltner_f64_error m (h l c : nat -> f64) n w M : (1 <= w < n)%nat -> small_window w -> sized M -> M <= bpow radix2 890 ->
  (forall k, (k < n)%nat -> fin (h k) /\ fin (l k) /\ fin (c k) /\ Rabs (B2R (h k)) <= M /\ Rabs (B2R (l k)) <= M /\ Rabs (B2R (c k)) <= M /\ B2R (l k) <= B2R (h k)) ->
  let mid := ewma_from w 0 (fun k => B2R (c k)) in
  let a := wilder_from w 1 (true_range_of (fun k => B2R (h k)) (fun k => B2R (l k)) (fun k => B2R (c k))) in
  exists o, @keltner f64 (B64 m) (series h n) (series l n) (series c n) w = Ok o /\
  forall i, (w <= i < n)%nat -> exists x u b, nth_error o i = Some (x, u, b) /\
    near x (mid i) (6 * (INR w + 1) * uu * M) /\
    near u (mid i + 2 * a i) (60 * (INR w + 1) * uu * M) /\ near b (mid i - 2 * a i) (60 * (INR w + 1) * uu * M).
Proof.
  intros Hw Sw HM MB H mid a. units M w HM Sw Hw.
  destruct (ewma_tracks m (series c n) (fun k => B2R (c k)) 0 w M 0) as (o1 & E1 & L1 & V1); rewrite ?length_series in *; try easy; try lia.
  { now rewrite Rplus_0_r. }
  { intros j Hj. exists (c j). unfold series. rewrite nth_error_map', nth_error_seq by easy. destruct (H j Hj) as (_ & _ & F & _ & _ & A & _). split; [reflexivity|]. split; [now apply near_exact|easy]. }
  cbn [plus] in V1. rewrite Rplus_0_r, Rplus_0_l in V1. fold mid in V1.
  destruct (atr_f64_error m h l c n w M Hw Sw HM MB H) as (o2 & E2 & V2). fold a in V2.
  unfold keltner. rewrite E1, E2. cbn [bind]. eexists. split; [reflexivity|]. intros i Hi.
  destruct (V1 i ltac:(lia)) as (x & Hx & N1 & A1). destruct (V2 i Hi) as (y & Hy & N2).
  rewrite nth_error_map', nth_error_combine, Hx, Hy. cbn [option_map]. do 3 eexists. split; [reflexivity|].
  set (e := (INR w + 1) * uu * M) in *.
  assert (D : 2 * (uu * M) <= e <= / 4096 * M) by lra.
  assert (N2' : near y (a i) (20 * e)).
  { destruct N2 as [F N2]. split; [easy|]. eapply Rle_trans; [exact N2|]. unfold e. rewrite !Rmult_assoc. apply Rmult_le_compat_l; [lra|]. apply Rmult_le_compat_r; lra. }
  assert (A2 : Rabs (a i) <= 2 * M).
  { unfold a. apply le_abs. apply wilder_from_bounds; try lia. intros j Hj. apply abs_le. unfold true_range_of.
    destruct (H j ltac:(lia)) as (_ & _ & _ & X1 & X2 & _ & X4). destruct (H (j - 1)%nat ltac:(lia)) as (_ & _ & _ & _ & _ & X3 & _). apply abs_le in X1. apply abs_le in X2. apply abs_le in X3.
    apply le_abs. unfold Rmax, Rmin. repeat destruct (Rle_dec _ _); lra. }
  pose proof (lit_near 2 ltac:(easy)) as N0. change (b64_of_Z 2) with (b64_lit 2 1) in N0.
  pose proof (near_mul _ _ _ _ _ _ 2 (2 * M) (5 * M) N0 N2' ltac:(rewrite Rabs_pos_eq; lra) A2 ltac:(lra) ltac:(lra)) as Q1.
  replace (6 * (INR w + 1) * uu * M) with (6 * e) in * by (unfold e; ring). replace (60 * (INR w + 1) * uu * M) with (60 * e) by (unfold e; ring).
  split; [exact N1|]. apply abs_le in A1. apply abs_le in A2.
  assert (Q2 : Rabs (mid i + 2 * a i) <= 5 * M) by (apply le_abs; lra). assert (Q3 : Rabs (mid i - 2 * a i) <= 5 * M) by (apply le_abs; lra).
  split.
  - pose proof (near_add _ _ _ _ _ _ (6 * M) N1 Q1 ltac:(lra) ltac:(lra)) as Q4. eapply near_weaken; [exact Q4|]. lra.
  - pose proof (near_sub _ _ _ _ _ _ (6 * M) N1 Q1 ltac:(lra) ltac:(lra)) as Q4. eapply near_weaken; [exact Q4|]. lra.
Qed.

Theorem dpo_f64_error m (d : nat -> f64) n w M : (3 <= w <= n)%nat -> small_window w -> sized M -> M <= bpow radix2 890 ->
  (forall k, (k < n)%nat -> fin (d k) /\ Rabs (B2R (d k)) <= M) ->
  exists o, @dpo f64 (B64 m) (series d n) w None = Ok o /\
  forall i, (w - 1 <= i < n)%nat -> exists x, nth_error o i = Some x /\ fin x /\
    Rabs (B2R x - (B2R (d (i - (w / 2 + 1))%nat) - mean (last_bars w (fun k => B2R (d k)) i))) <= 7 * INR w * uu * M.
Proof.
  intros Hw Sw HM MB H. units M w HM Sw Hw.
  destruct (@sma_values f64 (B64 m) (series d n) w ltac:(lia)) as (a & E & A). rewrite length_series in A.
  destruct (@dpo_values f64 (B64 m) d n w None a (w - 1) _ Hw E A ltac:(lia)) as (o & E2 & (_ & _ & V)). exists o. split; [exact E2|]. intros i Hi.
  eexists. split; [apply V; exact Hi|]. pose proof (Nat.div_le_upper_bound w 2 w ltac:(lia) ltac:(lia)).
  assert (W3 : 3 <= INR w) by (replace 3 with (INR 3) by (cbn; lra); apply le_INR; lia).
  rewrite last_bars_win by lia. set (l := last_bars w d i : list f64). assert (Ll : length l = w) by (unfold l; rewrite <- (last_bars_win w d n i) by lia; apply length_win; rewrite ?length_series; lia).
  assert (Hl : forall x, In x l -> fin x /\ Rabs (B2R x) <= M). { intros x Hx. unfold l, last_bars in Hx. apply in_map_iff in Hx as (k & <- & Hk). apply in_seq in Hk. apply H. lia. }
  pose proof (mean_near m l M ltac:(lia) ltac:(now rewrite Ll) HM Hl) as N. rewrite Ll in N.
  assert (ML : Rabs (mean (@map f64 R B2R l)) <= M).
  { apply mean_abs; [destruct l; [cbn in Ll; lia|easy]|]. intros x Hx. apply in_map_iff in Hx as (y & <- & Hy). now apply Hl. }
  assert (EQ : last_bars w (fun k => B2R (d k)) i = @map f64 R B2R l) by (unfold l, last_bars; now rewrite map_map). rewrite EQ.
  destruct (H (i - (w / 2 + 1))%nat ltac:(lia)) as [F1 A1]. apply abs_le in A1. apply abs_le in ML.
  set (q := INR w * uu * M). replace (5 * INR w * uu * M) with (5 * q) in N by (unfold q; ring). replace (7 * INR w * uu * M) with (7 * q) by (unfold q; ring).
  assert (Q0 : 3 * (uu * M) <= q <= / 4096 * M). { unfold q. split; [rewrite Rmult_assoc; apply Rmult_le_compat_r; lra|]. eapply Rle_trans; [|exact B1]. rewrite !Rmult_assoc. apply Rmult_le_compat_r; lra. }
  assert (Q : Rabs (B2R (d (i - (w / 2 + 1))%nat) - mean (@map f64 R B2R l)) <= 2 * M) by (apply le_abs; lra).
  pose proof (near_sub _ _ _ _ _ _ (3 * M) (near_exact _ F1) N ltac:(lra) ltac:(lra)) as [F Q2].
  split; [exact F|]. eapply Rle_trans; [exact Q2|]. lra.
Qed.

Lemma sd_abs l M : l <> [] -> (forall y, In y l -> Rabs y <= M) -> 0 <= sqrt (var l) <= 2 * M.
Proof.
  intros NE B. assert (PM : 0 <= M) by (destruct l as [|y l]; [easy|]; pose proof (B y (or_introl eq_refl)); pose proof (Rabs_pos y); lra).
  split; [apply sqrt_pos|]. rewrite <- (sqrt_square (2 * M)) by lra. apply sqrt_le_1; [apply var_nonneg|nra|].
  unfold var. pose proof (mean_abs l M NE B) as MA.
  eapply Rle_trans; [apply Rle_abs|]. apply mean_abs; [destruct l; easy|]. intros y Hy. apply in_map_iff in Hy as (x & <- & Hx). specialize (B x Hx).
  assert (D2 : Rabs (x - mean l) <= 2 * M) by (eapply Rle_trans; [apply Rabs_triang|]; rewrite Rabs_Ropp; lra).
  replace ((x - mean l) ^ 2) with ((x - mean l) * (x - mean l)) by ring. rewrite Rabs_mult. pose proof (Rabs_pos (x - mean l)). nra.
Qed.
Theorem bbands_f64_error m (f : nat -> f64) n w M : (1 <= w <= n)%nat -> small_window w -> sized M -> sized (M * M) -> M <= bpow radix2 440 ->
  (forall k, (k < n)%nat -> fin (f k) /\ Rabs (B2R (f k)) <= M) ->
  let mid := ewma_from w 0 (fun k => B2R (f k)) in
  let s := fun i => 2 * sqrt (var (last_bars w (fun k => B2R (f k)) i)) in
  exists o, @bbands f64 (B64 m) (series f n) w None None = Ok o /\
  forall i, (w - 1 <= i < n)%nat -> exists u x b, nth_error o i = Some (u, x, b) /\
    near u (mid i + s i) (40 * sqrt (INR w * uu) * M) /\ near x (mid i) (6 * (INR w + 1) * uu * M) /\ near b (mid i - s i) (40 * sqrt (INR w * uu) * M).
Proof.
  intros Hw Sw HM HX MB H mid s. units M w HM Sw Hw.
  destruct (ewma_tracks m (series f n) (fun k => B2R (f k)) 0 w M 0) as (o1 & E1 & L1 & V1); rewrite ?length_series in *; try easy.
  { now rewrite Rplus_0_r. }
  { intros j Hj. exists (f j). unfold series. rewrite nth_error_map', nth_error_seq by easy. destruct (H j Hj) as (F & A). split; [reflexivity|]. split; [now apply near_exact|easy]. }
  cbn [plus] in V1. rewrite Rplus_0_r, Rplus_0_l in V1. fold mid in V1.
  destruct (std_dev_f64_error m (series f n) w M ltac:(lia) Sw HM HX MB) as (o2 & E2 & V2).
  { intros x Hx. unfold series in Hx. apply in_map_iff in Hx as (k & <- & Hk). apply in_seq in Hk. apply H. lia. }
  rewrite length_series in V2.
  unfold bbands, vstd_dev. cbn [unwrap_or ma]. rewrite E1, E2. cbn [bind]. eexists. split; [reflexivity|]. intros i Hi.
  destruct (V1 i Hi) as (x & Hx & N1 & A1). destruct (V2 i Hi) as (y & Hy & N2).
  rewrite nth_error_map', nth_error_combine, nth_error_map', Hx, Hy. cbn [option_map]. do 3 eexists. split; [reflexivity|].
  rewrite last_bars_win in N2 by lia. set (l := last_bars w (fun k => B2R (f k)) i).
  assert (EQ : @map f64 R B2R (last_bars w f i) = l) by (unfold l, last_bars; now rewrite map_map). rewrite EQ in N2.
  assert (Ll : length l = w) by (unfold l, last_bars; now rewrite map_length, seq_length).
  destruct (sd_abs l M) as [S0 S2]; [destruct l; [cbn in Ll; lia|easy]| |].
  { intros y' Hy'. unfold l, last_bars in Hy'. apply in_map_iff in Hy' as (k & <- & Hk). apply in_seq in Hk. apply H. lia. }
  assert (SI : s i = 2 * sqrt (var l)) by reflexivity. rewrite SI. clearbody l. set (sd := sqrt (var l)) in *.
  pose proof (small_uu w Sw) as UK. set (K := INR w * uu) in *. assert (KU : uu <= K) by (unfold K; nra).
  assert (KQ : K = sqrt K * sqrt K) by (symmetry; apply sqrt_sqrt; lra). pose proof (sqrt_pos K) as QP. set (q := sqrt K) in *.
  assert (Q1 : q <= / 64) by nra.
  assert (QK : K <= / 64 * q) by nra.
  assert (KM : K * M <= / 64 * (q * M)) by (rewrite <- Rmult_assoc; apply Rmult_le_compat_r; lra).
  assert (UK2 : uu * M <= K * M) by (apply Rmult_le_compat_r; lra).
  assert (QM : q * M <= / 64 * M) by (apply Rmult_le_compat_r; lra).
  assert (WK : (INR w + 1) * uu * M <= 2 * (K * M)). { unfold K. replace (2 * (INR w * uu * M)) with (2 * INR w * uu * M) by ring. apply Rmult_le_compat_r; [lra|]. apply Rmult_le_compat_r; lra. }
  pose proof (lit_near 2 ltac:(easy)) as N0. change (b64_of_Z 2) with (b64_lit 2 1) in N0.
  replace (16 * q * M) with (16 * (q * M)) in N2 by ring. replace (40 * q * M) with (40 * (q * M)) by ring.
  pose proof (near_mul _ _ _ _ _ _ (2 * M) 2 (6 * M) N2 N0 ltac:(rewrite Rabs_pos_eq; lra) ltac:(rewrite Rabs_pos_eq; lra) ltac:(lra) ltac:(lra)) as Q2.
  rewrite (Rmult_comm sd 2) in Q2.
  replace (6 * (INR w + 1) * uu * M) with (6 * ((INR w + 1) * uu * M)) in * by ring. set (e := (INR w + 1) * uu * M) in *.
  apply abs_le in A1. assert (Q3 : Rabs (mid i + 2 * sd) <= 5 * M) by (apply le_abs; lra). assert (Q4 : Rabs (mid i - 2 * sd) <= 5 * M) by (apply le_abs; lra).
  split; [|split; [exact N1|]].
  - pose proof (near_add _ _ _ _ _ _ (6 * M) N1 Q2 ltac:(lra) ltac:(lra)) as Q5. eapply near_weaken; [exact Q5|]. lra.
  - pose proof (near_sub _ _ _ _ _ _ (6 * M) N1 Q2 ltac:(lra) ltac:(lra)) as Q5. eapply near_weaken; [exact Q5|]. lra.
Qed.

(** ** Six averages in a row *)
Lemma ewma_chain m (o : list f64) (r : nat -> R) a N w M e : (1 <= w)%nat -> (2 * w - 1 <= N)%nat -> small_window w -> sized M -> M <= bpow radix2 890 ->
  length o = N -> 0 <= e <= 42 * ((INR w + 1) * uu * M) ->
  (forall i, (w - 1 <= i < N)%nat -> exists x, nth_error o i = Some x /\ near x (r (a + i)%nat) e /\ Rabs (r (a + i)%nat) <= M) ->
  exists o', @ewma f64 (B64 m) (skipn (w - 1) o) w = Ok o' /\ length o' = (N - (w - 1))%nat /\
  forall i, (w - 1 <= i < N - (w - 1))%nat -> exists x, nth_error o' i = Some x /\
    near x (ewma_from w (a + (w - 1)) r (a + (w - 1) + i)) (e + 7 * ((INR w + 1) * uu * M)) /\ Rabs (ewma_from w (a + (w - 1)) r (a + (w - 1) + i)) <= M.
Proof.
  intros Hw HN Sw HM MB L He V. units M w HM Sw Hw.
  destruct (ewma_tracks m (skipn (w - 1) o) r (a + (w - 1)) w M e) as (o' & E' & L' & V'); try easy.
  { rewrite skipn_length, L. lia. }
  { apply sized_grow; [easy|lra|]. lra. }
  { intros j Hj. rewrite skipn_length, L in Hj. destruct (V (w - 1 + j)%nat ltac:(lia)) as (x & Hx & N1). exists x. rewrite nth_error_skipn. split; [exact Hx|].
    now replace (a + (w - 1) + j)%nat with (a + (w - 1 + j))%nat by lia. }
  rewrite skipn_length, L in L', V'. exists o'. split; [exact E'|]. split; [exact L'|]. intros i Hi. destruct (V' i Hi) as (x & Hx & N1 & A1). exists x. split; [exact Hx|]. split; [|exact A1].
  eapply near_weaken; [exact N1|].
  replace (6 * (INR w + 1) * uu * (M + e)) with (6 * ((INR w + 1) * uu * M) + 6 * ((INR w + 1) * uu) * e) by ring.
  assert (6 * ((INR w + 1) * uu) * e <= 6 * / 4096 * e) by (apply Rmult_le_compat_r; lra). lra.
Qed.

Lemma t3_weights m (v : f64) : fin v -> 0 <= B2R v <= 1 -> let V := B2R v in
  let p2 := @powi2 f64 (B64 m) v in let p3 := @powi3 f64 (B64 m) v in
  near (@fneg f64 (B64 m) p3) (- V ^ 3) (3 * uu) /\
  near (@fadd f64 (B64 m) (@fmul f64 (B64 m) (@flit f64 (B64 m) 3 1) p2) (@fmul f64 (B64 m) (@flit f64 (B64 m) 3 1) p3)) (3 * V ^ 2 + 3 * V ^ 3) (23 * uu) /\
  near (@fsub f64 (B64 m) (@fsub f64 (B64 m) (@fmul f64 (B64 m) (@flit f64 (B64 m) (-3) 1) v) (@fmul f64 (B64 m) (@flit f64 (B64 m) 6 1) p2)) (@fmul f64 (B64 m) (@flit f64 (B64 m) 3 1) p3)) (-3 * V - 6 * V ^ 2 - 3 * V ^ 3) (48 * uu) /\
  near (@fadd f64 (B64 m) (@fadd f64 (B64 m) (@fadd f64 (B64 m) (@flit f64 (B64 m) 1 1) (@fmul f64 (B64 m) (@flit f64 (B64 m) 3 1) v)) (@fmul f64 (B64 m) (@flit f64 (B64 m) 3 1) p2)) p3) (1 + 3 * V + 3 * V ^ 2 + V ^ 3) (33 * uu).
Proof.
  intros Fv Hv V p2 p3. pose proof uu_pos as PU. pose proof uu_le as UL. pose proof eta_uu as EU. pose proof eta_pos as EP.
  assert (BB : 100 <= bpow radix2 1000) by (apply Rle_trans with (bpow radix2 7); [simpl; lra|apply bpow_le; lia]).
  assert (V2 : 0 <= V * V <= 1) by (split; [|unfold V in *]; nra). assert (V3 : 0 <= V * (V * V) <= 1) by (unfold V in *; nra).
  replace (V ^ 2) with (V * V) by ring. replace (V ^ 3) with (V * (V * V)) by ring.
  assert (N : near v V 0) by now apply near_exact.
  assert (N2 : near p2 (V * V) (101 / 100 * uu)).
  { eapply near_weaken; [apply (near_mul v v V V 0 0 1 1 1 N N); rewrite ?Rabs_pos_eq; unfold V in *; lra|lra]. }
  assert (N3 : near p3 (V * (V * V)) (205 / 100 * uu)).
  { eapply near_weaken; [apply (near_mul v _ V (V * V) 0 _ 1 1 (101 / 100) N N2); rewrite ?Rabs_pos_eq; unfold V in *; lra|lra]. }
  pose proof (lit_near 3 ltac:(easy)) as L3. change (b64_of_Z 3) with (b64_lit 3 1) in L3.
  pose proof (lit_near (-3) ltac:(easy)) as LM3. change (b64_of_Z (-3)) with (b64_lit (-3) 1) in LM3.
  pose proof (lit_near 6 ltac:(easy)) as L6. change (b64_of_Z 6) with (b64_lit 6 1) in L6.
  pose proof (lit_near 1 ltac:(easy)) as L1. change (b64_of_Z 1) with (b64_lit 1 1) in L1.
  assert (A1 : near (@fmul f64 (B64 m) (@flit f64 (B64 m) 3 1) v) (3 * V) (31 / 10 * uu)).
  { eapply near_weaken; [apply (near_mul _ v 3 V 0 0 3 1 3 L3 N); rewrite ?Rabs_pos_eq; unfold V in *; lra|lra]. }
  assert (A1m : near (@fmul f64 (B64 m) (@flit f64 (B64 m) (-3) 1) v) (-3 * V) (31 / 10 * uu)).
  { eapply near_weaken; [apply (near_mul _ v (-3) V 0 0 3 1 3 LM3 N); [rewrite Rabs_left; lra| | |]; rewrite ?Rabs_pos_eq; unfold V in *; lra|lra]. }
  assert (A2 : near (@fmul f64 (B64 m) (@flit f64 (B64 m) 3 1) p2) (3 * (V * V)) (62 / 10 * uu)).
  { eapply near_weaken; [apply (near_mul _ p2 3 (V * V) 0 _ 3 1 (31 / 10) L3 N2); rewrite ?Rabs_pos_eq; lra|lra]. }
  assert (A26 : near (@fmul f64 (B64 m) (@flit f64 (B64 m) 6 1) p2) (6 * (V * V)) (123 / 10 * uu)).
  { eapply near_weaken; [apply (near_mul _ p2 6 (V * V) 0 _ 6 1 (61 / 10) L6 N2); rewrite ?Rabs_pos_eq; lra|lra]. }
  assert (A3 : near (@fmul f64 (B64 m) (@flit f64 (B64 m) 3 1) p3) (3 * (V * (V * V))) (93 / 10 * uu)).
  { eapply near_weaken; [apply (near_mul _ p3 3 (V * (V * V)) 0 _ 3 1 (31 / 10) L3 N3); rewrite ?Rabs_pos_eq; lra|lra]. }
  clearbody p2 p3. assert (V01 : 0 <= V <= 1) by exact Hv. clearbody V.
  split; [|split; [|split]].
  - eapply near_weaken; [apply near_opp, N3|lra].
  - eapply near_weaken; [apply (near_add _ _ _ _ _ _ (61 / 10) A2 A3); rewrite ?Rabs_pos_eq; lra|lra].
  - assert (B : near (@fsub f64 (B64 m) (@fmul f64 (B64 m) (@flit f64 (B64 m) (-3) 1) v) (@fmul f64 (B64 m) (@flit f64 (B64 m) 6 1) p2)) (-3 * V - 6 * (V * V)) (25 * uu)).
    { eapply near_weaken; [apply (near_sub _ _ _ _ _ _ (91 / 10) A1m A26); [rewrite Rabs_left1|]; lra|lra]. }
    eapply near_weaken; [apply (near_sub _ _ _ _ _ _ (122 / 10) B A3); [rewrite Rabs_left1|]; lra|lra].
  - assert (B1 : near (@fadd f64 (B64 m) (@flit f64 (B64 m) 1 1) (@fmul f64 (B64 m) (@flit f64 (B64 m) 3 1) v)) (1 + 3 * V) (73 / 10 * uu)).
    { eapply near_weaken; [apply (near_add _ _ _ _ _ _ (41 / 10) L1 A1); rewrite ?Rabs_pos_eq; lra|lra]. }
    assert (B2 : near (@fadd f64 (B64 m) (@fadd f64 (B64 m) (@flit f64 (B64 m) 1 1) (@fmul f64 (B64 m) (@flit f64 (B64 m) 3 1) v)) (@fmul f64 (B64 m) (@flit f64 (B64 m) 3 1) p2)) (1 + 3 * V + 3 * (V * V)) (21 * uu)).
    { eapply near_weaken; [apply (near_add _ _ _ _ _ _ (71 / 10) B1 A2); rewrite ?Rabs_pos_eq; lra|lra]. }
    eapply near_weaken; [apply (near_add _ _ _ _ _ _ (81 / 10) B2 N3); rewrite ?Rabs_pos_eq; lra|lra].
Qed.

Lemma near_weighted (c x : f64) C X ec f Cm M : near c C ec -> near x X f -> Rabs C <= Cm -> Rabs X <= M -> 0 <= ec <= 48 * uu -> 0 <= f <= M / 50 -> 1 <= Cm <= 12 -> sized M ->
  near (Bmult mode_NE c x) (C * X) (Cm * f + ec * M + f / 20 + 3 * (Cm + 1) * (uu * M)).
Proof.
  intros Nc Nx HC HX He Hf Hm HM. pose proof (sized_pos M HM) as PM. pose proof uu_pos as PU. pose proof uu_le as UL.
  pose proof (sized_mul M 1 HM ltac:(unfold small_window; lia)) as SM. cbn [INR] in SM. rewrite Rmult_1_l in SM. pose proof (eta_small M HM) as EM. pose proof eta_pos as EP.
  assert (UM : 0 < uu * M) by (apply Rmult_lt_0_compat; lra).
  assert (EF : ec * f <= / 20 * f) by (apply Rmult_le_compat_r; lra).
  assert (LL : (Cm + ec) * (M + f) <= (Cm + 1) * (2 * M)) by (apply Rmult_le_compat; lra).
  assert (LB : (Cm + 1) * (2 * M) <= 26 * M) by (replace (26 * M) with (13 * (2 * M)) by ring; apply Rmult_le_compat_r; lra).
  eapply near_weaken; [apply (near_mul c x C X ec f Cm M ((Cm + 1) * (2 * M)) Nc Nx HC HX LL); lra|].
  replace (uu * ((Cm + 1) * (2 * M))) with (2 * ((Cm + 1) * (uu * M))) by ring. replace (3 * (Cm + 1) * (uu * M)) with (3 * ((Cm + 1) * (uu * M))) by ring.
  assert (2 * (uu * M) <= (Cm + 1) * (uu * M)) by (apply Rmult_le_compat_r; lra). lra.
Qed.

Theorem t3_f64_error m (f : nat -> f64) n w factor M : (1 <= w)%nat -> (6 * w - 5 <= n)%nat -> small_window w -> sized M -> M <= bpow radix2 890 ->
  (forall k, (k < n)%nat -> fin (f k) /\ Rabs (B2R (f k)) <= M) ->
  let v := unwrap_or factor (@flit f64 (B64 m) 7 10) in fin v -> 0 <= B2R v <= 1 -> let V := B2R v in
  let e1 := ewma_from w 0 (fun j => B2R (f j)) in
  let e2 := ewma_from w (w - 1) e1 in
  let e3 := ewma_from w (2 * (w - 1)) e2 in
  let e4 := ewma_from w (3 * (w - 1)) e3 in
  let e5 := ewma_from w (4 * (w - 1)) e4 in
  let e6 := ewma_from w (5 * (w - 1)) e5 in
  exists o, @t3 f64 (B64 m) (series f n) w factor = Ok o /\
  forall i, (6 * w - 6 <= i < n)%nat -> exists x, nth_error o i = Some x /\ fin x /\
    Rabs (B2R x - (- V ^ 3 * e6 i + (3 * V ^ 2 + 3 * V ^ 3) * e5 i + (-3 * V - 6 * V ^ 2 - 3 * V ^ 3) * e4 i + (1 + 3 * V + 3 * V ^ 2 + V ^ 3) * e3 i))
    <= 900 * (INR w + 1) * uu * M.
Proof.
  intros Hw Hn Sw HM MB H v Fv Hv V e1 e2 e3 e4 e5 e6. units M w HM Sw Hw. set (q := (INR w + 1) * uu * M) in *.
  assert (Q0 : 0 <= q) by lra.
  destruct (ewma_tracks m (series f n) (fun k => B2R (f k)) 0 w M 0) as (o1 & E1 & L1 & V1); rewrite ?length_series in *; try easy; try lia.
  { now rewrite Rplus_0_r. }
  { intros j Hj. exists (f j). unfold series. rewrite nth_error_map', nth_error_seq by easy. destruct (H j Hj). split; [reflexivity|]. split; [now apply near_exact|easy]. }
  cbn [plus] in V1. rewrite Rplus_0_r, Rplus_0_l in V1. fold e1 in V1. replace (6 * (INR w + 1) * uu * M) with (6 * q) in V1 by (unfold q; ring).
  destruct (ewma_chain m o1 e1 0 n w M (6 * q) Hw ltac:(lia) Sw HM MB L1 ltac:(fold q; lra) V1) as (o2 & E2 & L2 & V2). cbn [plus] in V2. fold e2 q in V2.
  destruct (ewma_chain m o2 e2 (w - 1) (n - (w - 1)) w M (6 * q + 7 * q) Hw ltac:(lia) Sw HM MB L2 ltac:(fold q; lra) V2) as (o3 & E3 & L3 & V3). replace (w - 1 + (w - 1))%nat with (2 * (w - 1))%nat in V3 by lia. fold e3 q in V3.
  destruct (ewma_chain m o3 e3 (2 * (w - 1)) ((n - (w - 1)) - (w - 1)) w M (6 * q + 7 * q + 7 * q) Hw ltac:(lia) Sw HM MB L3 ltac:(fold q; lra) V3) as (o4 & E4 & L4 & V4). replace (2 * (w - 1) + (w - 1))%nat with (3 * (w - 1))%nat in V4 by lia. fold e4 q in V4.
  destruct (ewma_chain m o4 e4 (3 * (w - 1)) (((n - (w - 1)) - (w - 1)) - (w - 1)) w M (6 * q + 7 * q + 7 * q + 7 * q) Hw ltac:(lia) Sw HM MB L4 ltac:(fold q; lra) V4) as (o5 & E5 & L5 & V5). replace (3 * (w - 1) + (w - 1))%nat with (4 * (w - 1))%nat in V5 by lia. fold e5 q in V5.
  destruct (ewma_chain m o5 e5 (4 * (w - 1)) ((((n - (w - 1)) - (w - 1)) - (w - 1)) - (w - 1)) w M (6 * q + 7 * q + 7 * q + 7 * q + 7 * q) Hw ltac:(lia) Sw HM MB L5 ltac:(fold q; lra) V5) as (o6 & E6 & L6 & V6). replace (4 * (w - 1) + (w - 1))%nat with (5 * (w - 1))%nat in V6 by lia. fold e6 q in V6.
  unfold t3. fold v.
  assert (CL : @fclamp_val f64 (B64 m) v (@flit f64 (B64 m) 0 1) (@flit f64 (B64 m) 1 1) = v).
  { unfold fclamp_val. change (@fltb f64 (B64 m) v (@flit f64 (B64 m) 0 1)) with (Bltb v (b64_of_Z 0)). rewrite ltb_xval, (xval_fin v Fv), xval_of_Z by easy. cbn [xltb].
    rewrite (proj2 (Rltb_false (B2R v) 0)) by lra. change (@fltb f64 (B64 m) (@flit f64 (B64 m) 1 1) v) with (Bltb (b64_of_Z 1) v). rewrite ltb_xval, (xval_fin v Fv), xval_of_Z by easy. cbn [xltb].
    now rewrite (proj2 (Rltb_false 1 (B2R v))) by lra. }
  rewrite CL.
  rewrite E1. unfold usub, slice_from. rewrite (proj2 (Nat.leb_le 1 w)) by lia. cbn [bind].
  rewrite L1, (proj2 (Nat.leb_le (w - 1) _)) by lia. cbn [bind]. rewrite E2. cbn [bind].
  rewrite L2, (proj2 (Nat.leb_le (w - 1) _)) by lia. cbn [bind]. rewrite E3. cbn [bind].
  rewrite L3, (proj2 (Nat.leb_le (w - 1) _)) by lia. cbn [bind]. rewrite E4. cbn [bind].
  rewrite L4, (proj2 (Nat.leb_le (w - 1) _)) by lia. cbn [bind]. rewrite E5. cbn [bind].
  rewrite L5, (proj2 (Nat.leb_le (w - 1) _)) by lia. cbn [bind]. rewrite E6. cbn [bind].
  eexists. split; [reflexivity|]. intros i Hi.
  destruct (V3 (i - 2 * (w - 1))%nat ltac:(lia)) as (x3 & X3 & N3 & A3). destruct (V4 (i - 3 * (w - 1))%nat ltac:(lia)) as (x4 & X4 & N4 & A4).
  destruct (V5 (i - 4 * (w - 1))%nat ltac:(lia)) as (x5 & X5 & N5 & A5). destruct (V6 (i - 5 * (w - 1))%nat ltac:(lia)) as (x6 & X6 & N6 & A6).
  replace (2 * (w - 1) + (i - 2 * (w - 1)))%nat with i in N3, A3 by lia. replace (3 * (w - 1) + (i - 3 * (w - 1)))%nat with i in N4, A4 by lia.
  replace (4 * (w - 1) + (i - 4 * (w - 1)))%nat with i in N5, A5 by lia. replace (5 * (w - 1) + (i - 5 * (w - 1)))%nat with i in N6, A6 by lia.
  rewrite nth_error_app2, length_pad by (rewrite length_pad; lia). rewrite nth_error_map'. unfold zip4, zip3. rewrite !nth_error_combine.
  rewrite (nth_error_app2 (pad (w - 1) _)), (nth_error_app2 (pad ((w - 1) * 2) _)), (nth_error_app2 (pad ((w - 1) * 3) _)), !length_pad by (rewrite length_pad; lia).
  replace (i - (w - 1) * 2)%nat with (i - 2 * (w - 1))%nat by lia. replace (i - 2 * (w - 1) - (w - 1))%nat with (i - 3 * (w - 1))%nat by lia.
  replace (i - 2 * (w - 1) - (w - 1) * 2)%nat with (i - 4 * (w - 1))%nat by lia. replace (i - 2 * (w - 1) - (w - 1) * 3)%nat with (i - 5 * (w - 1))%nat by lia.
  rewrite X3, X4, X5, X6. cbn [option_map]. eexists. split; [reflexivity|].
  destruct (t3_weights m v Fv Hv) as (W1 & W2 & W3 & W4). fold V in W1, W2, W3, W4.
  set (c1 := fneg _) in *. set (c2 := fadd (fmul _ (powi2 v)) _) in *. set (c3 := fsub (fsub _ _) _) in *. set (c4 := fadd (fadd (fadd _ _) _) _) in *. clearbody c1 c2 c3 c4.
  assert (V01 : 0 <= V <= 1) by exact Hv. assert (VV : 0 <= V ^ 2 <= 1) by (replace (V ^ 2) with (V * V) by ring; nra). assert (VVV : 0 <= V ^ 3 <= 1) by (replace (V ^ 3) with (V * V ^ 2) by ring; nra).
  assert (K1 : Rabs (- V ^ 3) <= 1) by (apply le_abs; lra). assert (K2 : Rabs (3 * V ^ 2 + 3 * V ^ 3) <= 6) by (apply le_abs; lra).
  assert (K3 : Rabs (-3 * V - 6 * V ^ 2 - 3 * V ^ 3) <= 12) by (apply le_abs; lra). assert (K4 : Rabs (1 + 3 * V + 3 * V ^ 2 + V ^ 3) <= 8) by (apply le_abs; lra).
  set (C1 := - V ^ 3) in *. set (C2 := 3 * V ^ 2 + 3 * V ^ 3) in *. set (C3 := -3 * V - 6 * V ^ 2 - 3 * V ^ 3) in *. set (C4 := 1 + 3 * V + 3 * V ^ 2 + V ^ 3) in *. clearbody C1 C2 C3 C4.
  assert (P1' : near (Bmult mode_NE c1 x6) (C1 * e6 i) (48 * q)). { eapply near_weaken; [apply (near_weighted _ _ _ _ _ _ 1 M W1 N6); try easy; lra|lra]. }
  assert (P2' : near (Bmult mode_NE c2 x5) (C2 * e5 i) (230 * q)). { eapply near_weaken; [apply (near_weighted _ _ _ _ _ _ 6 M W2 N5); try easy; lra|lra]. }
  assert (P3' : near (Bmult mode_NE c3 x4) (C3 * e4 i) (370 * q)). { eapply near_weaken; [apply (near_weighted _ _ _ _ _ _ 12 M W3 N4); try easy; lra|lra]. }
  assert (P4' : near (Bmult mode_NE c4 x3) (C4 * e3 i) (192 * q)). { eapply near_weaken; [apply (near_weighted _ _ _ _ _ _ 8 M W4 N3); try easy; lra|lra]. }
  assert (AB : forall a b A, Rabs a <= A -> Rabs b <= M -> Rabs (a * b) <= A * M). { intros a b A Ha Hb. rewrite Rabs_mult. apply Rmult_le_compat; try easy; apply Rabs_pos. }
  pose proof (abs_le _ _ (AB _ _ _ K1 A6)) as T1. pose proof (abs_le _ _ (AB _ _ _ K2 A5)) as T2. pose proof (abs_le _ _ (AB _ _ _ K3 A4)) as T3. pose proof (abs_le _ _ (AB _ _ _ K4 A3)) as T4.
  set (t1 := C1 * e6 i) in *. set (t2 := C2 * e5 i) in *. set (t3' := C3 * e4 i) in *. set (t4 := C4 * e3 i) in *.
  assert (G1 : Rabs (t1 + t2) <= 7 * M) by (apply le_abs; lra). assert (G2 : Rabs (t1 + t2 + t3') <= 19 * M) by (apply le_abs; lra). assert (G3 : Rabs (t1 + t2 + t3' + t4) <= 27 * M) by (apply le_abs; lra).
  pose proof (near_add _ _ _ _ _ _ (8 * M) P1' P2' ltac:(lra) ltac:(lra)) as S1.
  pose proof (near_add _ _ _ _ _ _ (20 * M) S1 P3' ltac:(lra) ltac:(lra)) as S2.
  pose proof (near_add _ _ _ _ _ _ (28 * M) S2 P4' ltac:(lra) ltac:(lra)) as [F E].
  split; [exact F|]. eapply Rle_trans; [exact E|]. replace (900 * (INR w + 1) * uu * M) with (900 * q) by (unfold q; ring). lra.
Qed.
