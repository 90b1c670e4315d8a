(** * AgreeReal: identities between functions, in exact arithmetic. *)

From Coq Require Import Reals Lra Lia Permutation Sorted.
From Flocq Require Import Core.Raux.
From Verif Require Import Base Num XReal Spec RSpec BaseFacts XRFacts Bars SmoothReal SmoothReal2 OrderStat VolatReal MomReal VolumeReal.
From Verif Require Import Distribution Smooth Volatility Trend Momentum Volume.
Local Unset Implicit Arguments.
Local Open Scope R_scope.

(** A call returns a list that has the number [x] at bar [i]. *)
Definition at_bar (r : result (list xr)) (i : nat) (x : R) : Prop := exists o, r = Ok o /\ nth_error o i = Some (Fin x).
Lemma at_aligned r o n k f i : r = Ok o -> aligned o n k NaN (fun i => Fin (f i)) -> (k <= i < n)%nat -> at_bar r i (f i).
Proof. intros E (_ & _ & V) H. exists o. split; [easy|]. now apply V. Qed.

(** The end point of a regression line is three times the linearly weighted average
    less twice the simple one. *)
Theorem lrf_agrees l w i : (2 <= w)%nat -> (N.of_nat w < 2 ^ 31)%N -> (w - 1 <= i < length l)%nat ->
  exists x y, at_bar (wma (map Fin l) w) i x /\ at_bar (sma (map Fin l) w) i y /\
  at_bar (lrf (map Fin l) w) i (3 * x - 2 * y).
Proof.
  intros Hw Hb Hi.
  destruct (wma_real l w ltac:(lia)) as (o1 & E1 & A1); [lia|]. destruct (sma_real l w ltac:(lia)) as (o2 & E2 & A2).
  destruct (lrf_real l w Hw Hb) as (o & m & b & E & A & Q).
  do 2 eexists. split; [exact (at_aligned _ _ _ _ _ i E1 A1 Hi)|]. split; [exact (at_aligned _ _ _ _ _ i E2 A2 Hi)|].
  match goal with |- at_bar _ _ ?t => replace t with (m i * INR w + b i) end; [exact (at_aligned _ _ _ _ (fun i => m i * INR w + b i) i E A Hi)|].
  specialize (Q i Hi). set (ys := win w l i) in *. assert (L : length ys = w) by (apply length_win; lia).
  set (n := INR w) in *. assert (Hn : 2 <= n) by (unfold n; change 2 with (INR 2); now apply le_INR).
  set (sx := n * (n + 1) / 2). set (sxx := n * (n + 1) * (2 * n + 1) / 6). set (den := n * sxx - sx * sx).
  assert (Hden : 0 < den).
  { replace den with (n * n * ((n + 1) * (n - 1)) / 12) by (unfold den, sxx, sx; field).
    apply Rdiv_lt_0_compat; [|lra]. apply Rmult_lt_0_compat; apply Rmult_lt_0_compat; lra. }
  set (sxy := Rsum (map (fun p => INR (fst p) * snd p) (combine (seq 1 (length ys)) ys))). set (sy := Rsum ys).
  set (m0 := (n * sxy - sx * sy) / den). set (b0 := (sy * sxx - sx * sxy) / den).
  assert (G : (m0, b0) = (m i, b i)).
  { destruct (Req_EM_T m0 (m i)) as [H1|H1], (Req_EM_T b0 (b i)) as [H2|H2]; [congruence| | |].
    all: exfalso; assert (NE : (m0, b0) <> (m i, b i)) by congruence; pose proof (Q m0 b0 NE) as P1.
    all: assert (P2 : sq_err m0 b0 ys < sq_err (m i) (b i) ys); [|lra].
    all: apply lsq_normal; [| |lia|congruence]; rewrite L; fold n; [fold sx sy|fold sx sxx]; [|rewrite <- L; fold sxy].
    all: unfold m0, b0; field_simplify_eq; [|lra]; unfold den; ring. }
  injection G as <- <-.
  assert (W : wmean (map INR (seq 1 w)) ys = sxy / sx).
  { unfold wmean, wsum. rewrite Rsum_seq. fold n sx. f_equal. unfold sxy. rewrite L. f_equal.
    generalize ys, (seq 1 w). clear. intros ys q. revert ys. induction q as [|k q IH]; intros [|y ys]; cbn [map combine]; try easy. now rewrite IH. }
  rewrite W. unfold mean. rewrite L. fold n sy. unfold m0, b0, den, sxx, sx. field. repeat split; try lra.
  replace (n * (n * (n + 1) * (2 * n + 1)) * 4 - n * (n + 1) * (n * (n + 1)) * 6) with (24 * den) by (unfold den, sxx, sx; field). lra.
Qed.

(** The upper and lower lines of a Donchian channel are the quantiles 100 and 0. *)
Lemma sorted_last s d x : StronglySorted Rle s -> In x s -> x <= nth (length s - 1) s d.
Proof.
  induction 1 as [|a s SS IH H]; [easy|]. cbn [length]. intros [<-|I].
  - destruct s as [|b s]; [cbn; lra|]. replace (S (length (b :: s)) - 1)%nat with (S (length (b :: s) - 1))%nat by (cbn; lia).
    change (a <= nth (length (b :: s) - 1) (b :: s) d). rewrite Forall_forall in H. apply H. apply nth_In. cbn. lia.
  - destruct s as [|b s]; [easy|]. replace (S (length (b :: s)) - 1)%nat with (S (length (b :: s) - 1))%nat by (cbn; lia). change (x <= nth (length (b :: s) - 1) (b :: s) d). now apply IH.
Qed.
Lemma sorted_first s d x : StronglySorted Rle s -> In x s -> nth 0 s d <= x.
Proof. intros [|a s' SS H] I; [easy|]. destruct I as [<-|I]; cbn; [lra|]. rewrite Forall_forall in H. now apply H. Qed.
Theorem quantile_agrees h l n w i : (0 < w)%nat -> (Z.of_nat w <= 2 ^ 64)%Z -> (w - 1 <= i < n)%nat ->
  exists o u d, donchian (xseries h n) (xseries l n) w = Ok o /\ nth_error o i = Some (Fin u, Fin ((u + d) / 2), Fin d) /\
  at_bar (quantile (xseries h n) w (Fin 100)) i u /\ at_bar (quantile (xseries l n) w (Fin 0)) i d.
Proof.
  intros Hw Hb Hi. destruct (donchian_real h l n w Hw) as (o & E & _ & _ & V). exists o, (highest w h i), (lowest w l i).
  split; [easy|]. split; [now apply V|].
  assert (X : forall f, xseries f n = map Fin (map f (seq 0 n))) by (intros; unfold xseries, series; now rewrite map_map).
  assert (W : forall f : nat -> R, win w (map f (seq 0 n)) i = last_bars w f i) by (intros; apply last_bars_win; lia).
  rewrite !X. split.
  - destruct (quantile_real (map h (seq 0 n)) w 100 Hw Hb) as (q & EQ & _ & _ & Q). exists q. split; [easy|].
    set (s := Rsort (last_bars w h i)). assert (P : Permutation (last_bars w h i) s) by apply Rsort_perm.
    rewrite (Q i s); [|rewrite map_length, seq_length; lia|now rewrite W|apply Rsort_sorted]. do 2 f_equal.
    replace (OrderStat.clamp 100 0 100 / 100) with 1 by (unfold OrderStat.clamp, Rmin, Rmax; repeat destruct Rle_dec; lra). rewrite Rmult_1_r.
    unfold interpolate. rewrite INR_IZR_INZ, Zfloor_IZR, Zceil_IZR, Nat2Z.id.
    assert (L : length s = w) by (rewrite <- (Permutation_length P); apply length_last_bars).
    set (z := nth (w - 1) s 0). replace (z + (IZR (Z.of_nat (w - 1)) - IZR (Z.of_nat (w - 1))) * (z - z)) with z by ring.
    apply (is_max_unique (last_bars w h i)); [|apply Rmax_list_spec, last_bars_nonempty; lia]. split.
    + eapply Permutation_in; [symmetry; exact P|]. apply nth_In. lia.
    + intros x Hx. unfold z. rewrite <- L. apply sorted_last; [apply Rsort_sorted|]. eapply Permutation_in; [exact P|easy].
  - destruct (quantile_real (map l (seq 0 n)) w 0 Hw Hb) as (q & EQ & _ & _ & Q). exists q. split; [easy|].
    set (s := Rsort (last_bars w l i)). assert (P : Permutation (last_bars w l i) s) by apply Rsort_perm.
    rewrite (Q i s); [|rewrite map_length, seq_length; lia|now rewrite W|apply Rsort_sorted]. do 2 f_equal.
    replace (OrderStat.clamp 0 0 100 / 100) with 0 by (unfold OrderStat.clamp, Rmin, Rmax; repeat destruct Rle_dec; lra). rewrite Rmult_0_r.
    unfold interpolate. change 0 with (IZR 0) at 1 2 3 5. rewrite Zfloor_IZR, Zceil_IZR. cbn [Z.to_nat].
    assert (L : length s = w) by (rewrite <- (Permutation_length P); apply length_last_bars).
    set (z := nth 0 s 0). replace (z + (0 - 0) * (z - z)) with z by ring.
    apply (is_min_unique (last_bars w l i)); [|apply Rmin_list_spec, last_bars_nonempty; lia]. split.
    + eapply Permutation_in; [symmetry; exact P|]. apply nth_In. lia.
    + intros x Hx. unfold z. apply sorted_first; [apply Rsort_sorted|]. eapply Permutation_in; [exact P|easy].
Qed.

(** Williams %R is the unsmoothed stochastic less 100. *)
Theorem wpr_agrees h l c n w i : (0 < w)%nat -> (w - 1 <= i < n)%nat -> (forall k, (k < n)%nat -> l k <= c k <= h k) ->
  (forall i, (w - 1 <= i < n)%nat -> highest w h i - lowest w l i <> 0) ->
  exists o k d j, kdj (xseries h n) (xseries l n) (xseries c n) w 1 None None = Ok o /\ nth_error o i = Some (Fin k, d, j) /\
  at_bar (wpr (xseries h n) (xseries l n) (xseries c n) w) i (k - 100).
Proof.
  intros Hw Hi H N. destruct (kdj_real h l c n w 1 None None Hw ltac:(lia) ltac:(lia) N) as (o & E & (_ & _ & V) & _).
  destruct (wpr_real h l c n w Hw ltac:(lia) H) as (p & E' & _ & _ & V'). specialize (V i ltac:(lia)). specialize (V' i Hi).
  rewrite nth_error_map in V. destruct (nth_error o i) as [[[k d] j]|] eqn:G; [|easy]. cbn in V. injection V as ->.
  exists o. do 3 eexists. split; [exact E|]. split; [exact G|]. exists p. split; [exact E'|]. rewrite V'. cbv zeta.
  specialize (N i Hi). destruct (Req (highest w h i - lowest w l i) 0) eqn:R; [unfold Req in R; destruct (Req_EM_T _ _) in R; easy|].
  do 2 f_equal. unfold mean, last_bars. cbn. replace (i + 1 - 1)%nat with i by lia. unfold percent_k. field. lra.
Qed.

(** [ppo] is [macd] in per cent of the long average. *)
Theorem ppo_agrees f n s l i : (0 < s <= n)%nat -> (0 < l <= n)%nat ->
  (forall i, (Nat.max s l - 1 <= i < n)%nat -> ewma_from l 0 f i <> 0) -> (Nat.max s l - 1 <= i < n)%nat ->
  exists x y, at_bar (macd (xseries f n) s l) i x /\ at_bar (ewma (xseries f n) l) i y /\
  at_bar (ppo (xseries f n) s l) i (100 * x / y).
Proof.
  intros Hs Hl N Hi. destruct (macd_real f n s l Hs Hl) as (o1 & E1 & A1).
  destruct (ewma_from_at f l 0 n) as (o2 & E2 & A2); [lia|]. destruct (ppo_real f n s l Hs Hl N) as (o3 & E3 & A3).
  do 2 eexists. split; [exact (at_aligned _ _ _ _ _ i E1 A1 Hi)|]. split.
  - exists o2. split; [exact E2|]. apply A2. lia.
  - pose proof (at_aligned _ _ _ _ _ i E3 A3 Hi) as P. specialize (N i Hi). cbv beta in P |- *.
    match goal with |- at_bar _ _ ?t => match type of P with at_bar _ _ ?u => replace t with u; [exact P|] end end. cbn [plus]. field. easy.
Qed.

(** With the same volume at every bar, the volume-weighted average is the simple one. *)
Theorem vwma_agrees d n w v i : (0 < w)%nat -> v <> 0 -> (w - 1 <= i < n)%nat ->
  exists x, at_bar (sma (xseries d n) w) i x /\ at_bar (vwma (xseries d n) (xseries (fun _ => v) n) w) i x.
Proof.
  intros Hw Hv Hi.
  assert (C : forall i, Rsum (last_bars w (fun _ => v) i) = INR w * v).
  { intros. unfold last_bars. rewrite Rsum_const, seq_length. ring. }
  assert (Hn : INR w <> 0) by (apply INR_neq0; lia).
  assert (X : forall f, xseries f n = map Fin (map f (seq 0 n))) by (intros; unfold xseries, series; now rewrite map_map).
  destruct (vwma_real d (fun _ => v) n w Hw) as (o & E & A); [intros; rewrite C; now apply Rmult_integral_contrapositive|].
  destruct (sma_real (map d (seq 0 n)) w Hw) as (p & E' & A'). rewrite map_length, seq_length in A'.
  rewrite <- X in E'. eexists. split; [exact (at_aligned _ _ _ _ _ i E' A' Hi)|].
  pose proof (at_aligned _ _ _ _ _ i E A Hi) as P. cbv beta in P.
  match goal with |- at_bar _ _ ?t => match type of P with at_bar _ _ ?u => replace t with u end end; [exact P|].
  change (map d (seq 0 n)) with (series d n). rewrite last_bars_win by lia. unfold wmean, mean, wsum. rewrite C, length_last_bars, combine_last_bars, map_last_bars. cbn [fst snd].
  unfold last_bars. rewrite <- map_map with (f := d) (g := fun x => v * x), Rsum_map_scale. rewrite map_id. field. easy.
Qed.

(** [t3] with the factor 0 is what [tema] has beyond three times the distance of [dema]
    from [ewma]: the third average. *)
Theorem t3_agrees l w i : (0 < w)%nat -> (6 * w - 6 <= i < length l)%nat ->
  exists x y z, at_bar (ewma (map Fin l) w) i x /\ at_bar (dema (map Fin l) w) i y /\ at_bar (tema (map Fin l) w) i z /\
  at_bar (t3 (map Fin l) w (Some (Fin 0))) i (z - 3 * (y - x)).
Proof.
  intros Hw Hi. destruct (ewma_real_from l w ltac:(lia)) as (o1 & E1 & A1). destruct (dema_real l w Hw ltac:(lia)) as (o2 & E2 & A2).
  destruct (tema_real l w Hw ltac:(lia)) as (o3 & E3 & A3). destruct (t3_real l w (Some 0) Hw ltac:(lia)) as (o4 & E4 & A4).
  do 3 eexists. split; [exact (at_aligned _ _ _ _ _ i E1 A1 ltac:(lia))|]. split; [exact (at_aligned _ _ _ _ _ i E2 A2 ltac:(lia))|].
  split; [exact (at_aligned _ _ _ _ _ i E3 A3 ltac:(lia))|]. pose proof (at_aligned _ _ _ _ _ i E4 A4 Hi) as P. cbv beta zeta in P |- *.
  match goal with |- at_bar _ _ ?t => match type of P with at_bar _ _ ?u => replace t with u end end; [exact P|].
  replace (clamp01 0) with 0 by (unfold clamp01, Rmin, Rmax; repeat destruct Rle_dec; lra).
  replace (2 * (w - 1))%nat with (2 * w - 2)%nat by lia. ring.
Qed.
(** [trix] is the rate of change of that average. *)
Lemma ewma_from_ext w k f g i : (forall j, (k <= j)%nat -> (j <= i \/ j < k + w)%nat -> f j = g j) -> ewma_from w k f i = ewma_from w k g i.
Proof.
  intros H. unfold ewma_from. f_equal; [f_equal|]; apply map_ext_in; intros j Hj; apply in_seq in Hj; apply H; lia.
Qed.
Theorem trix_agrees f n w i : (0 < w)%nat -> (6 * w - 5 <= i < n)%nat ->
  (forall i, (i < n)%nat -> ewma_from w (2 * (w - 1)) (ewma_from w (w - 1) (ewma_from w 0 f)) i <> 0) ->
  exists x y, at_bar (t3 (xseries f n) w (Some (Fin 0))) (i - 1) x /\ at_bar (t3 (xseries f n) w (Some (Fin 0))) i y /\
  at_bar (trix (xseries f n) w) i (100 * (y - x) / x).
Proof.
  intros Hw Hi N. destruct (trix_real f n w Hw ltac:(lia)) as (o & E & A); [exact N|].
  assert (X : xseries f n = map Fin (map f (seq 0 n))) by (unfold xseries, series; now rewrite map_map).
  assert (Ln : length (map f (seq 0 n)) = n) by now rewrite map_length, seq_length.
  destruct (t3_real (map f (seq 0 n)) w (Some 0) Hw ltac:(lia)) as (p & E' & A'). rewrite Ln in A'. rewrite <- X in E'.
  assert (T : forall j, (6 * w - 6 <= j < n)%nat ->
    at_bar (t3 (xseries f n) w (Some (Fin 0))) j (ewma_from w (2 * (w - 1)) (ewma_from w (w - 1) (ewma_from w 0 f)) j)).
  { intros j Hj. pose proof (at_aligned _ _ _ _ _ j E' A' Hj) as P. cbv beta zeta in P.
    match goal with |- at_bar _ _ ?t => match type of P with at_bar _ _ ?u => replace t with u end end; [exact P|].
    replace (clamp01 0) with 0 by (unfold clamp01, Rmin, Rmax; repeat destruct Rle_dec; lra).
    replace (ewma_from w (2 * (w - 1)) (ewma_from w (w - 1) (ewma_from w 0 (fun j => nth j (map f (seq 0 n)) 0))) j) with
      (ewma_from w (2 * (w - 1)) (ewma_from w (w - 1) (ewma_from w 0 f)) j); [ring|].
    apply ewma_from_ext. intros a Ha Ha'. apply ewma_from_ext. intros b Hb Hb'. apply ewma_from_ext. intros d Hd Hd'.
    change (map f (seq 0 n)) with (series f n). unfold series. rewrite (nth_indep _ 0 (f 0%nat)) by lia. rewrite map_nth, seq_nth by lia. easy. }
  do 2 eexists. split; [apply T; lia|]. split; [apply T; lia|]. pose proof (at_aligned _ _ _ _ _ i E A ltac:(lia)) as P. cbv beta in P.
  match goal with |- at_bar _ _ ?t => match type of P with at_bar _ _ ?u => replace t with u end end; [exact P|].
  pose proof (N (i - 1)%nat ltac:(lia)). field. easy.
Qed.

(** When every bar trades more or less than the one before, the positive and the negative
    volume index share out the moves of the price. *)
Theorem pvi_agrees c v n i : (forall k, (k < n)%nat -> c k <> 0) -> (forall k, (S k < n)%nat -> v (S k) <> v k) -> (1 <= i < n)%nat ->
  exists p q, nth_error (pvi (xseries c n) (xseries v n)) i = Some (Fin p) /\
  nth_error (nvi (xseries c n) (xseries v n)) i = Some (Fin q) /\ p * q = 10000 * (c i / c 0%nat).
Proof.
  intros N V Hi. destruct (pvi_real c v n N) as (_ & _ & P). destruct (nvi_real c v n N) as (_ & _ & Q).
  do 2 eexists. split; [now apply P|]. split; [now apply Q|]. destruct Hi as [_ Hi]. clear P Q.
  induction i as [|i IH]; [cbn; field; apply N; lia|]. cbn [compound]. replace (S i - 1)%nat with i by lia.
  specialize (IH ltac:(lia)). specialize (V i Hi). pose proof (N 0%nat ltac:(lia)). pose proof (N i ltac:(lia)).
  set (A := compound (fun k => Rltb (v (k - 1)%nat) (v k)) c i) in *. set (B := compound (fun k => Rltb (v k) (v (k - 1)%nat)) c i) in *.
  assert (G : A * B * (c (S i) / c i) = 10000 * (c (S i) / c 0%nat)) by (rewrite IH; field; easy).
  rcase; try lra; rewrite <- G; ring.
Qed.

(** [tvi] with a minimum tick of 0 is [obv] as long as no close repeats. *)
Theorem tvi_agrees c v n : (0 < n)%nat -> (forall k, (S k < n)%nat -> c (S k) <> c k) ->
  tvi (xseries c n) (xseries v n) (Fin 0) = obv (xseries c n) (xseries v n).
Proof.
  intros Hn N. destruct (tvi_real 0 c v n Hn) as (o & E & A). destruct (obv_real c v n) as (p & E' & A'). rewrite E, E'. f_equal.
  rewrite (aligned_eq _ _ _ _ _ A), (aligned_eq _ _ _ _ _ A'). f_equal. apply map_ext_in. intros i Hi. apply in_seq in Hi. f_equal. unfold sum_bars. f_equal. apply map_ext_in.
  intros k Hk. apply in_seq in Hk. destruct k as [|k]; [lia|]. specialize (N k ltac:(lia)). cbn [tvi_dir]. replace (S k - 1)%nat with k by lia.
  unfold fgtb. rewrite !x_sub, !x_ltb. rcase; try lra.
Qed.

(** ** A window of one bar leaves a series as it is *)

Lemma aligned_data o l f : aligned o (length l) 0 NaN (fun i => Fin (f i)) -> (forall i, (i < length l)%nat -> f i = nth i l 0) -> o = map Fin l.
Proof.
  intros A H. rewrite (aligned_eq _ _ _ _ _ A). unfold pad. cbn [repeat app]. rewrite Nat.sub_0_r.
  rewrite (series_complete l 0) at 2. unfold series. rewrite map_map. apply map_ext_in. intros i Hi. apply in_seq in Hi. f_equal. apply H. lia.
Qed.
Lemma win_one (l : list R) i : (i < length l)%nat -> win 1 l i = [nth i l 0].
Proof.
  intros H. unfold win. replace (i + 1 - 1)%nat with i by lia. revert i H. induction l as [|x l IH]; cbn; [lia|]. intros [|i] H; [easy|]. apply IH. lia.
Qed.
Lemma ewma_from_one k f i : (k <= i)%nat -> ewma_from 1 k f i = f i.
Proof.
  intros H. unfold ewma_from. replace (2 / (INR 1 + 1)) with 1 by (cbn; lra). cbn [seq map]. replace (mean [f k]) with (f k) by (unfold mean; cbn; field).
  destruct (Nat.eq_dec i k) as [->|N]; [replace (k + 1 - (k + 1))%nat with 0%nat by lia; easy|].
  replace (i + 1 - (k + 1))%nat with (S (i - k - 1)) by lia. rewrite seq_S, map_app. cbn [map]. unfold ema. rewrite fold_left_app. cbn [fold_left].
  replace (k + 1 + (i - k - 1))%nat with i by lia. ring.
Qed.
Section One.
  Variable l : list R.
  Theorem sma_one : sma (map Fin l) 1 = Ok (map Fin l).
  Proof.
    destruct (sma_real l 1 ltac:(lia)) as (o & E & A). rewrite E. f_equal. apply (aligned_data _ _ _ A).
    intros i Hi. rewrite win_one by easy. unfold mean. cbn. field.
  Qed.
  Theorem wma_one : wma (map Fin l) 1 = Ok (map Fin l).
  Proof.
    destruct (wma_real l 1 ltac:(lia) ltac:(easy)) as (o & E & A). rewrite E. f_equal. apply (aligned_data _ _ _ A).
    intros i Hi. rewrite win_one by easy. unfold wmean, wsum. cbn. field.
  Qed.
  Theorem pwma_one : pwma (map Fin l) 1 = Ok (map Fin l).
  Proof.
    destruct (pwma_real l 1 ltac:(lia)) as (o & E & A). rewrite E. f_equal. apply (aligned_data _ _ _ A).
    intros i Hi. rewrite win_one by easy. unfold wmean, wsum. cbn. field.
  Qed.
  Theorem trima_one : trima (map Fin l) 1 = Ok (map Fin l).
  Proof.
    destruct (trima_real l 1 ltac:(lia)) as (o & E & A). rewrite E. f_equal. apply (aligned_data _ _ _ A).
    intros i Hi. cbn zeta. change ((1 + 1) / 2)%nat with 1%nat. change (1 + 1 - 1)%nat with 1%nat. replace (i + 1 - 1)%nat with i by lia.
    cbn [seq map]. rewrite win_one by easy. unfold mean. cbn. field.
  Qed.
  Hypothesis some : l <> [].
  Lemma some_length : (1 <= length l)%nat. Proof. destruct l; [easy|cbn; lia]. Qed.
  Theorem ewma_one : ewma (map Fin l) 1 = Ok (map Fin l).
  Proof.
    pose proof some_length. destruct (ewma_real_from l 1 ltac:(lia)) as (o & E & A). rewrite E. f_equal. apply (aligned_data _ _ _ A).
    intros i Hi. apply ewma_from_one. lia.
  Qed.
  Theorem dema_one : dema (map Fin l) 1 = Ok (map Fin l).
  Proof.
    pose proof some_length. destruct (dema_real l 1 ltac:(lia) ltac:(lia)) as (o & E & A). rewrite E. f_equal. apply (aligned_data _ _ _ A).
    intros i Hi. cbv zeta. rewrite !ewma_from_one by lia. ring.
  Qed.
  Theorem tema_one : tema (map Fin l) 1 = Ok (map Fin l).
  Proof.
    pose proof some_length. destruct (tema_real l 1 ltac:(lia) ltac:(lia)) as (o & E & A). rewrite E. f_equal. apply (aligned_data _ _ _ A).
    intros i Hi. cbv zeta. rewrite !ewma_from_one by lia. ring.
  Qed.
  Theorem t3_one v : t3 (map Fin l) 1 (option_map Fin v) = Ok (map Fin l).
  Proof.
    pose proof some_length. destruct (t3_real l 1 v ltac:(lia) ltac:(lia)) as (o & E & A). rewrite E. f_equal. apply (aligned_data _ _ _ A).
    intros i Hi. cbv zeta. rewrite !ewma_from_one by lia. ring.
  Qed.
  Theorem zlma_one : zlma (map Fin l) 1 = Ok (map Fin l).
  Proof.
    pose proof some_length. destruct (zlma_real l 1 ltac:(lia) ltac:(cbn; lia)) as (o & E & A). rewrite E. f_equal. apply (aligned_data _ _ _ A).
    intros i Hi. cbv zeta. change ((1 - 1) / 2)%nat with 0%nat. rewrite !ewma_from_one by lia. rewrite Nat.sub_0_r. ring.
  Qed.
  Theorem wilder_one : wilder (map Fin l) 1 = Ok (map Fin l).
  Proof. reflexivity. Qed.
End One.
Theorem hull_one l : hull (map Fin l) 1 = Ok (map Fin l).
Proof.
  unfold hull. change (div_ceil2 1) with 1%nat. rewrite wma_one. cbn [bind].
  assert (E : N.to_nat (ftoN (ffloor (fsqrt (fofnat 1)))) = 1%nat).
  { rewrite x_nat, x_sqrt by (cbn; lra). cbn [INR]. rewrite sqrt_1. change (@ffloor xr XR (Fin 1)) with (Fin (IZR (Zfloor (IZR 1)))).
    rewrite Zfloor_IZR, ftoN_int by lia. reflexivity. }
  rewrite E. rewrite <- (wma_one l). f_equal. clear E.
  induction l as [|x l IH]; cbn [map combine]; [easy|]. rewrite IH, x_lit, x_mul, x_sub. do 2 f_equal. ring.
Qed.
(** [lrf] is the exception: one point has no regression line, and every value is NaN;
    [fwma] refuses such a window. *)
Theorem lrf_one_refuted l : lrf (map Fin l) 1 = Ok (pad (length l) NaN).
Proof.
  assert (W : windows 1 (map Fin l) = map (fun x => [x]) (map Fin l)).
  { generalize (map Fin l). intros d. unfold windows. rewrite Nat.add_sub. induction d as [|x d IH]; [easy|].
    cbn [length seq map]. f_equal. rewrite <- seq_shift, map_map. rewrite <- IH. reflexivity. }
  unfold lrf, umul, rwindows. change (N.of_nat 1 * N.of_nat (1 + 1) <? two64)%N with true. cbn [bind usub Nat.leb Nat.eqb]. rewrite W, !map_map.
  cbn [Nat.sub pad repeat app]. f_equal. unfold pad.
  assert (V : forall x, lrf_win (fdiv (fofN (N.of_nat 1 * N.of_nat (1 + 1))) (flit 2 1)) (fdiv (fmul (fdiv (fofN (N.of_nat 1 * N.of_nat (1 + 1))) (flit 2 1)) (fofnat (2 * 1 + 1))) (flit 3 1))
    (fsub (fmul (fofnat 1) (fdiv (fmul (fdiv (fofN (N.of_nat 1 * N.of_nat (1 + 1))) (flit 2 1)) (fofnat (2 * 1 + 1))) (flit 3 1)))
      (fmul (fdiv (fofN (N.of_nat 1 * N.of_nat (1 + 1))) (flit 2 1)) (fdiv (fofN (N.of_nat 1 * N.of_nat (1 + 1))) (flit 2 1)))) 1 (map fofnat (seq 1 1)) [Fin x] = NaN).
  { intros x. replace (fdiv (fofN (N.of_nat 1 * N.of_nat (1 + 1))) (flit 2 1)) with (Fin 1)
      by (rewrite x_lit; change (fofN (N.of_nat 1 * N.of_nat (1 + 1))) with (Fin 2); rewrite x_div by lra; f_equal; lra).
    replace (fdiv (fmul (Fin 1) (fofnat (2 * 1 + 1))) (flit 3 1)) with (Fin 1)
      by (rewrite x_lit, x_nat, x_mul, x_div by lra; f_equal; cbn; lra).
    replace (fsub (fmul (fofnat 1) (Fin 1)) (fmul (Fin 1) (Fin 1))) with (Fin 0) by (rewrite x_nat, !x_mul, x_sub; f_equal; cbn; ring).
    unfold lrf_win. cbn [map seq combine fold_left]. rewrite !x_lit, !x_nat, !x_mul, !x_add, !x_mul, !x_sub.
    assert (D : forall a, a = 0 -> fdiv (Fin a) (Fin 0) = NaN) by (intros a ->; cbn; unfold Req; destruct (Req_EM_T 0 0); easy).
    rewrite D by (cbn; ring). reflexivity. }
  clear W. induction l as [|x l IH]; [easy|]. cbn [map repeat length]. rewrite V. f_equal. exact IH.
Qed.
Theorem fwma_one_panics {F} {FO : FOps F} (l : list F) : fwma l 1 = Panic.
Proof. reflexivity. Qed.
