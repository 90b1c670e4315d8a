(** * Line: a straight line of prices.

    When the price moves by the same amount [d] at every bar, each average prints
    the price of a fixed number of bars ago -- its lag -- at every bar, from the first
    printed value on, whatever the line.  Spreads and differences of averages print
    one number. *)

From Coq Require Import Reals Lra Lia List NArith.
From Verif Require Import Base Num XReal Spec RSpec Bars BaseFacts XRFacts Smooth Volume Volatility Momentum Trend Distribution.
From Verif Require Import SmoothReal SmoothReal2 DistReal MomReal VolatReal VolumeReal TrendReal F64Rec Dispatch Forget.
Import ListNotations.
Local Unset Implicit Arguments.
Local Open Scope R_scope.

(** ** Specification *)

(** The price at bar [k] of a line through [a]; [k] need not be a whole number. *)
Definition price (a d k : R) : R := a + d * k.
Definition line (a d : R) (k : nat) : R := price a d (INR k).
(** From bar [k] on the output is the price of [lag] bars ago. *)
Definition lags (lag : R) (a d : R) (n k : nat) (o : list xr) : Prop := forall i, (k <= i < n)%nat -> nth_error o i = Some (Fin (price a d (INR i - lag))).
(** From bar [k] on the output is [c]. *)
Definition level (c : R) (n k : nat) (o : list xr) : Prop := forall i, (k <= i < n)%nat -> nth_error o i = Some (Fin c).

(** ** Sums *)
Lemma lags_of lag a d n k k' na o F : aligned o n k' na (fun i => Fin (F i)) -> (k' <= k)%nat -> (forall i, (k <= i < n)%nat -> F i = price a d (INR i - lag)) -> lags lag a d n k o.
Proof. intros A Hk H i Hi. rewrite (aligned_at _ _ _ _ _ _ A) by lia. now rewrite H. Qed.
Lemma level_of c n k k' na o F : aligned o n k' na (fun i => Fin (F i)) -> (k' <= k)%nat -> (forall i, (k <= i < n)%nat -> F i = c) -> level c n k o.
Proof. intros A Hk H i Hi. rewrite (aligned_at _ _ _ _ _ _ A) by lia. now rewrite H. Qed.
Lemma sum_from s w : Rsum (map INR (seq s w)) = INR w * (INR s + (INR w - 1) / 2).
Proof.
  revert s. induction w as [|w IH]; intros s; [cbn; lra|]. cbn [seq map]. rewrite Rsum_cons, IH, !S_INR. field.
Qed.
Lemma mean_line a d s w : (0 < w)%nat -> mean (map (line a d) (seq s w)) = price a d (INR s + (INR w - 1) / 2).
Proof.
  intros Hw. unfold mean. rewrite map_length, seq_length. unfold line, price. rewrite Rsum_map_add, Rsum_const, seq_length, Rsum_map_scale, sum_from. field. apply not_0_INR. lia.
Qed.
Lemma mean_bars_line a d w i f : (0 < w <= i + 1)%nat -> (forall k, (i < k + w)%nat -> (k <= i)%nat -> f k = line a d k) -> mean (last_bars w f i) = price a d (INR i - (INR w - 1) / 2).
Proof.
  intros Hw H. rewrite (last_bars_ext w f (line a d)) by (try lia; intros; apply H; lia). unfold last_bars. rewrite mean_line by lia. f_equal. rewrite minus_INR, plus_INR by lia. cbn. field.
Qed.
Lemma wsum_affine {A} p q (f : A -> R) ws : forall l, length l = length ws -> wsum ws (map (fun k => p + q * f k) l) = p * Rsum ws + q * wsum ws (map f l).
Proof.
  induction ws as [|x ws IH]; intros [|y l] L; try easy; [unfold wsum; cbn; lra|]. injection L as L. unfold wsum in *. cbn [map combine fst snd]. rewrite !Rsum_cons, IH by easy. ring.
Qed.
(** The centre of the weights, counted in bars from the oldest. *)
Lemma wmean_line ws a d s : Rsum ws <> 0 -> wmean ws (map (line a d) (seq s (length ws))) = price a d (INR s + wmean ws (map INR (seq 0 (length ws)))).
Proof.
  intros S. unfold wmean. replace (map (line a d) (seq s (length ws))) with (map (fun k => price a d (INR s) + d * INR k) (seq 0 (length ws))).
  - rewrite wsum_affine by now rewrite seq_length. unfold price. field. easy.
  - rewrite (shift_bars s _ 0), Nat.add_0_l. apply map_ext_in. intros k Hk. apply in_seq in Hk. unfold line, price. rewrite minus_INR by lia. ring.
Qed.

(** ** Averages over a window *)
Theorem sma_line a d n w : (0 < w)%nat -> exists o, sma (xseries (line a d) n) w = Ok o /\ lags ((INR w - 1) / 2) a d n (w - 1) o.
Proof.
  intros Hw. destruct (sma_from (line a d) w 0 n Hw) as (o & E & A). exists o. split; [exact E|]. eapply lags_of; [exact A|lia|]. intros i Hi. cbn [plus]. apply mean_bars_line; [lia|easy].
Qed.
Lemma weighted_line a d n w (fn : list xr -> result (list xr)) ws c : (0 < w)%nat -> Rsum ws <> 0 -> length ws = w -> wmean ws (map INR (seq 0 w)) = INR w - 1 - c ->
  (forall l, exists o, fn (map Fin l) = Ok o /\ aligned o (length l) (w - 1) NaN (fun i => Fin (wmean ws (win w l i)))) ->
  exists o, fn (xseries (line a d) n) = Ok o /\ lags c a d n (w - 1) o.
Proof.
  intros Hw S L C R. rewrite xseries_map. destruct (R (series (line a d) n)) as (o & E & A). exists o. split; [exact E|]. rewrite series_length in A. eapply lags_of; [exact A|lia|]. intros i Hi. cbv beta. rewrite last_bars_win by lia. unfold last_bars. rewrite <- L at 2.
  rewrite wmean_line by easy. rewrite L, C. f_equal. rewrite minus_INR, plus_INR by lia. cbn. ring.
Qed.
Lemma wma_sum s w : Rsum (map (fun k => INR (s + k) * INR k) (seq 0 w)) = INR s * (INR w * (INR w - 1) / 2) + INR w * (INR w - 1) * (2 * INR w - 1) / 6.
Proof.
  induction w as [|w IH]; [cbn; lra|]. rewrite seq_S, map_app, Rsum_app, IH. cbn [plus map]. rewrite Rsum_cons, Rsum_nil, plus_INR, S_INR. field.
Qed.
Lemma wsum_bars (u f : nat -> R) l : wsum (map u l) (map f l) = Rsum (map (fun k => u k * f k) l).
Proof. induction l as [|x l IH]; [easy|]. unfold wsum in *. cbn [map combine fst snd]. now rewrite !Rsum_cons, IH. Qed.
Lemma wma_centre w : (0 < w)%nat -> wmean (map INR (seq 1 w)) (map INR (seq 0 w)) = INR w - 1 - (INR w - 1) / 3.
Proof.
  intros Hw. unfold wmean. rewrite Rsum_seq. rewrite <- seq_shift, map_map, wsum_bars. rewrite (map_ext _ (fun k => INR (1 + k) * INR k)) by easy. rewrite wma_sum. pose proof (INR_pos w Hw). cbn [INR]. field. lra.
Qed.
Theorem wma_line a d n w : (0 < w)%nat -> (N.of_nat w < 2 ^ 32)%N -> exists o, wma (xseries (line a d) n) w = Ok o /\ lags ((INR w - 1) / 3) a d n (w - 1) o.
Proof.
  intros Hw Hb. apply (weighted_line a d n w (fun x => wma x w) (map INR (seq 1 w))); [easy| |now rewrite map_length, seq_length|now apply wma_centre|intros l; now apply wma_real].
  rewrite Rsum_seq. pose proof (INR_pos w Hw). apply Rgt_not_eq. nra.
Qed.

Lemma rev_bars f w : rev (map f (seq 0 w)) = map (fun k => f (w - 1 - k)%nat : R) (seq 0 w).
Proof.
  induction w as [|w IH]; [easy|]. rewrite seq_S, map_app, rev_app_distr, IH. cbn [map rev app plus]. rewrite <- seq_S. cbn [seq map]. rewrite Nat.sub_0_r. replace (S w - 1)%nat with w by lia. f_equal.
  rewrite <- seq_shift, map_map. apply map_ext_in. intros k Hk. apply in_seq in Hk. f_equal. lia.
Qed.
(** Weights that read the same backwards. *)
Lemma symmetric_centre u w : (0 < w)%nat -> Rsum (map u (seq 0 w)) <> 0 -> (forall k, (k < w)%nat -> u (w - 1 - k)%nat = u k) -> wmean (map u (seq 0 w)) (map INR (seq 0 w)) = INR w - 1 - (INR w - 1) / 2.
Proof.
  intros Hw S H. unfold wmean. rewrite wsum_bars. set (W := Rsum (map u (seq 0 w))) in *. set (X := Rsum (map (fun k => u k * INR k) (seq 0 w))).
  assert (E : X = (INR w - 1) * W - X).
  { unfold X at 1. rewrite <- Rsum_rev, rev_bars. rewrite (map_ext_in _ (fun k => (INR w - 1) * u k - u k * INR k)).
    - now rewrite Rsum_map_sub, Rsum_map_scale.
    - intros k Hk. apply in_seq in Hk. rewrite H by lia. rewrite !minus_INR by lia. cbn [INR]. ring. }
  assert (X = (INR w - 1) * W / 2) by lra. rewrite H0. field. exact S.
Qed.
Lemma binom_sym n : forall k, (k <= n)%nat -> binom n (n - k) = binom n k.
Proof.
  induction n as [|n IH]; intros k Hk; [now replace k with 0%nat by lia|]. destruct k as [|k]; [rewrite Nat.sub_0_r, binom_diag; now destruct n|]. destruct (Nat.eq_dec k n) as [->|N]; [rewrite Nat.sub_diag, binom_diag; easy|].
  replace (S n - S k)%nat with (S (n - S k)) by lia. cbn [binom]. rewrite (IH (S k)) by lia. replace (S (n - S k)) with (n - k)%nat by lia. rewrite (IH k) by lia. apply N.add_comm.
Qed.
Theorem pwma_line a d n w : (0 < w < 64)%nat -> exists o, pwma (xseries (line a d) n) w = Ok o /\ lags ((INR w - 1) / 2) a d n (w - 1) o.
Proof.
  intros Hw. assert (S : Rsum (map (fun k => IZR (Z.of_N (binom (w - 1) k))) (seq 0 w)) <> 0).
  { pose proof (Rsum_binom (w - 1)) as B. replace (S (w - 1)) with w in B by lia. unfold RN in B. rewrite B. apply not_0_IZR. pose proof (N.pow_nonzero 2 (N.of_nat (w - 1)) ltac:(lia)). lia. }
  apply (weighted_line a d n w (fun x => pwma x w) (map (fun k => IZR (Z.of_N (binom (w - 1) k))) (seq 0 w))); [lia|exact S|now rewrite map_length, seq_length| |intros l; now apply pwma_real].
  apply symmetric_centre; [lia|exact S|]. intros k Hk. now rewrite binom_sym by lia.
Qed.
Theorem trima_line a d n w : (0 < w <= n)%nat -> exists o, trima (xseries (line a d) n) w = Ok o /\ lags ((INR w - 1) / 2) a d n (w - 1) o.
Proof.
  intros Hw. rewrite xseries_map. destruct (trima_real (series (line a d) n) w) as (o & E & A); [rewrite series_length; lia|]. exists o. split; [exact E|]. rewrite series_length in A. cbv zeta in A. eapply lags_of; [exact A|lia|]. intros i Hi. cbv beta.
  pose proof (div_ceil2_spec w) as D. unfold div_ceil2 in D. set (p := ((w + 1) / 2)%nat) in *. set (q := (w + 1 - p)%nat). assert (Q : (0 < q)%nat /\ (0 < p)%nat /\ (p + q = w + 1)%nat) by lia.
  rewrite (map_ext_in _ (line (price a d (- ((INR p - 1) / 2))) d)).
  - rewrite mean_line by lia. unfold price. assert (EQ : INR q = INR w + 1 - INR p) by (unfold q; rewrite minus_INR, plus_INR by lia; cbn; ring). rewrite minus_INR, plus_INR by lia. rewrite EQ. cbn [INR]. field.
  - intros j Hj. apply in_seq in Hj. rewrite last_bars_win by lia. rewrite (mean_bars_line a d) by (try lia; easy). unfold line, price. ring.
Qed.
(** The half-length average counts twice, less the full one, smoothed once more: for even windows the lag is
    [(sqrt w - 2) / 3], for odd ones [(sqrt w - 1) / 3]. *)
Theorem hull_line a d n w : (0 < w)%nat -> (N.of_nat w < 2 ^ 32)%N -> (w + Nat.sqrt w - 2 <= n)%nat ->
  exists o, hull (xseries (line a d) n) w = Ok o /\ lags ((INR (Nat.sqrt w) - (if Nat.even w then 2 else 1)) / 3) a d n (w + Nat.sqrt w - 2) o.
Proof.
  intros Hw Hb Hn. rewrite xseries_map. destruct (hull_real (series (line a d) n) w Hw Hb) as (o & E & A); [now rewrite series_length|]. exists o. split; [exact E|]. rewrite series_length in A. cbv zeta in A. eapply lags_of; [exact A|lia|]. intros i Hi. cbv beta.
  pose proof (sqrt_pos_le w Hw) as Hq. set (q := Nat.sqrt w) in *. pose proof (div_ceil2_spec w) as D. unfold div_ceil2 in D. set (h := ((w + 1) / 2)%nat) in *.
  assert (EH : 2 * INR h = INR w + (if Nat.even w then 0 else 1)).
  { assert (2 * h = w + if Nat.even w then 0 else 1)%nat. { unfold h. destruct (Nat.even w) eqn:EV; [apply Nat.even_spec in EV as (m & ->)|assert (O : Nat.odd w = true) by (unfold Nat.odd; now rewrite EV); apply Nat.odd_spec in O as (m & ->)].
      - replace (2 * m + 1)%nat with (1 + m * 2)%nat by lia. rewrite Nat.div_add by lia. cbn. lia. - replace (2 * m + 1 + 1)%nat with ((m + 1) * 2)%nat by lia. rewrite Nat.div_mul by lia. lia. }
    replace 2 with (INR 2) by reflexivity. rewrite <- mult_INR, H, plus_INR. now destruct (Nat.even w). }
  assert (LW : forall m j, (0 < m)%nat -> (m <= j + 1)%nat -> (j < n)%nat -> wmean (map INR (seq 1 m)) (win m (series (line a d) n) j) = price a d (INR j - (INR m - 1) / 3)).
  { intros m j Hm Hj Hj'. rewrite last_bars_win by lia. unfold last_bars. pose proof (wmean_line (map INR (seq 1 m)) a d (j + 1 - m)) as W. rewrite map_length, seq_length in W. rewrite W.
    - rewrite wma_centre by easy. f_equal. rewrite minus_INR, plus_INR by lia. cbn. ring.
    - rewrite Rsum_seq. pose proof (INR_pos m Hm). apply Rgt_not_eq. nra. }
  match goal with |- wmean _ ?m = _ => replace m with (map (line (price a d (- (2 * (INR h - 1) / 3 - (INR w - 1) / 3))) d) (seq (i + 1 - q) q)) end.
  - pose proof (wmean_line (map INR (seq 1 q)) (price a d (- (2 * (INR h - 1) / 3 - (INR w - 1) / 3))) d (i + 1 - q)) as W. rewrite map_length, seq_length in W. rewrite W.
    + rewrite wma_centre by lia. rewrite minus_INR, plus_INR by lia. unfold price. cbn [INR]. destruct (Nat.even w); [replace (INR w) with (2 * INR h) by lra|replace (INR w) with (2 * INR h - 1) by lra]; field.
    + rewrite Rsum_seq. pose proof (INR_pos q ltac:(lia)). apply Rgt_not_eq. nra.
  - apply map_ext_in. intros j Hj. apply in_seq in Hj. rewrite !LW by lia. unfold line, price. field.
Qed.
(** The least-squares line through points of a line is that line: no lag. *)
Theorem lrf_line a d n w : (2 <= w)%nat -> (N.of_nat w < 2 ^ 31)%N -> exists o, lrf (xseries (line a d) n) w = Ok o /\ lags 0 a d n (w - 1) o.
Proof.
  intros Hw Hb. rewrite xseries_map. destruct (lrf_real (series (line a d) n) w Hw Hb) as (o & m & b & E & A & U). exists o. split; [exact E|]. rewrite series_length in A, U. eapply lags_of; [exact A|lia|]. intros i Hi. cbv beta. specialize (U i Hi).
  set (b' := price a d (INR i - INR w)). assert (Z : sq_err d b' (win w (series (line a d) n) i) = 0).
  { rewrite last_bars_win by lia. unfold sq_err, last_bars. rewrite map_length, seq_length. rewrite (shift_bars 1 (line a d)). replace (i + 1 - w + 1)%nat with (1 + (i + 1 - w))%nat by lia.
    rewrite <- (map_id (seq 1 w)), (shift_bars (i + 1 - w) (fun x => x)), combine_bars, map_map, Nat.min_id. rewrite (map_ext_in _ (fun _ => 0)); [rewrite Rsum_const; ring|]. intros k Hk. apply in_seq in Hk. cbn [fst snd]. unfold line, b', price. rewrite !minus_INR, plus_INR by lia. cbn [INR]. ring. }
  assert (P : 0 <= sq_err (m i) (b i) (win w (series (line a d) n) i)) by (apply Rsum_nonneg; intros x Hx; apply in_map_iff in Hx as (k & <- & _); apply pow2_ge_0).
  assert (M : (d, b') = (m i, b i)). { destruct (Req_dec d (m i)) as [->|N]; [destruct (Req_dec b' (b i)) as [->|N]; [easy|]|]; exfalso; (specialize (U d b') || specialize (U (m i) b')); rewrite ?Z in U. - specialize (U ltac:(congruence)). lra. - specialize (U ltac:(congruence)). lra. }
  injection M as <- <-. unfold b', price. ring.
Qed.

(** ** Recursive averages *)

(** The seed already has the lag to which the recurrence tends, so it has it from the first value on. *)
Lemma ewma_from_line w k f a d i : (0 < w)%nat -> (k + w - 1 <= i)%nat -> (forall j, (k <= j <= i)%nat -> f j = line a d j) -> ewma_from w k f i = price a d (INR i - (INR w - 1) / 2).
Proof.
  intros Hw Hi. pose proof (INR_pos w Hw) as P. induction Hi as [|i Hi IH]; intros H.
  - unfold ewma_from. replace (k + w - 1 + 1 - (k + w))%nat with 0%nat by lia. cbn [seq map ema fold_left]. unfold ema. cbn [fold_left]. rewrite (map_ext_in _ (line a d)) by (intros j Hj; apply in_seq in Hj; apply H; lia). rewrite mean_line by easy. f_equal. rewrite minus_INR, plus_INR by lia. cbn. field.
  - rewrite ewma_from_next by lia. rewrite IH by (intros; apply H; lia). rewrite H by lia. unfold line, price. rewrite S_INR. field. lra.
Qed.
Theorem ewma_line a d n w : (0 < w <= n)%nat -> exists o, ewma (xseries (line a d) n) w = Ok o /\ lags ((INR w - 1) / 2) a d n (w - 1) o.
Proof.
  intros Hw. destruct (ewma_from_at (line a d) w 0 n Hw) as (o & E & A). exists o. split; [exact E|]. eapply lags_of; [exact A|lia|]. intros i Hi. cbn [plus]. apply ewma_from_line; [lia|lia|easy].
Qed.
(** [w - 1] in the long run; the seed lags less, and the difference dies out. *)
Lemma wilder_from_line w a d m : (0 < w)%nat -> wilder_from w 0 (line a d) (w - 1 + m) = price a d (INR (w - 1 + m) - (INR w - 1)) + d * INR w / 2 * (1 - 1 / INR w) ^ S m.
Proof.
  intros Hw. pose proof (INR_pos w Hw) as P. induction m as [|m IH].
  - unfold wilder_from. replace (w - 1 + 0 + 1 - (0 + w - 1))%nat with 1%nat by lia. cbn [seq map]. unfold ema. cbn [fold_left plus]. rewrite Nat.add_0_r. destruct (Nat.eq_dec w 1) as [->|N].
    + set (s := mean _). unfold line, price. cbn. field.
    + rewrite mean_line by lia. unfold line, price. rewrite minus_INR by lia. cbn [INR pow]. field. lra.
  - replace (w - 1 + S m)%nat with (S (w - 1 + m)) by lia. unfold wilder_from at 1. replace (S (w - 1 + m) + 1 - (0 + w - 1))%nat with (S (w - 1 + m + 1 - (0 + w - 1))) by lia. rewrite seq_S, map_app. unfold ema. rewrite fold_left_app. fold (ema (1 / INR w) (mean (map (line a d) (seq 0 (w - 1)))) (map (line a d) (seq (0 + w - 1) (w - 1 + m + 1 - (0 + w - 1))))).
    fold (wilder_from w 0 (line a d) (w - 1 + m)). rewrite IH. cbn [map fold_left]. replace (0 + w - 1 + (w - 1 + m + 1 - (0 + w - 1)))%nat with (S (w - 1 + m)) by lia. unfold line, price. rewrite S_INR. cbn [pow]. field. lra.
Qed.
Theorem wilder_line a d n w : (0 < w <= n)%nat -> exists o, wilder (xseries (line a d) n) w = Ok o /\
  forall m, (w - 1 + m < n)%nat -> nth_error o (w - 1 + m) = Some (Fin (price a d (INR (w - 1 + m) - ((INR w - 1) - INR w / 2 * (1 - 1 / INR w) ^ S m)))).
Proof.
  intros Hw. destruct (wilder_from_at (line a d) w 0 n Hw) as (o & E & A). exists o. split; [exact E|]. intros m Hm. rewrite (aligned_at _ _ _ _ _ _ A) by lia. cbn [plus]. rewrite wilder_from_line by lia. do 2 f_equal. unfold price. field.
Qed.
Lemma nth_line a d n j : (j < n)%nat -> nth j (series (line a d) n) 0 = line a d j.
Proof. intros H. unfold series. rewrite (nth_indep _ 0 (line a d 0)) by (rewrite map_length, seq_length; lia). rewrite map_nth, seq_nth by lia. reflexivity. Qed.
Lemma ewma_again w k f a d lag i : (0 < w)%nat -> (k + w - 1 <= i)%nat -> (forall j, (k <= j <= i)%nat -> f j = price a d (INR j - lag)) -> ewma_from w k f i = price a d (INR i - (lag + (INR w - 1) / 2)).
Proof. intros Hw Hi H. rewrite (ewma_from_line w k f (price a d (- lag)) d i Hw Hi); [unfold price; ring|]. intros j Hj. rewrite H by easy. unfold line, price. ring. Qed.
(** The doubled and the tripled average do not lag. *)
Theorem dema_line a d n w : (0 < w)%nat -> (2 * w - 1 <= n)%nat -> exists o, dema (xseries (line a d) n) w = Ok o /\ lags 0 a d n (2 * w - 2) o.
Proof.
  intros Hw Hn. rewrite xseries_map. destruct (dema_real (series (line a d) n) w Hw) as (o & E & A); [now rewrite series_length|]. exists o. split; [exact E|]. rewrite series_length in A. cbv zeta in A. eapply lags_of; [exact A|lia|]. intros i Hi. cbv beta.
  set (e1 := ewma_from w 0 _). assert (H1 : forall j, (w - 1 <= j <= i)%nat -> e1 j = price a d (INR j - (INR w - 1) / 2)) by (intros j Hj; apply ewma_from_line; try lia; intros; apply nth_line; lia).
  rewrite (ewma_again w (w - 1) e1 a d _ i Hw ltac:(lia) H1), H1 by lia. unfold price. ring.
Qed.
Theorem tema_line a d n w : (0 < w)%nat -> (3 * w - 2 <= n)%nat -> exists o, tema (xseries (line a d) n) w = Ok o /\ lags 0 a d n (3 * w - 3) o.
Proof.
  intros Hw Hn. rewrite xseries_map. destruct (tema_real (series (line a d) n) w Hw) as (o & E & A); [now rewrite series_length|]. exists o. split; [exact E|]. rewrite series_length in A. cbv zeta in A. eapply lags_of; [exact A|lia|]. intros i Hi. cbv beta.
  set (e1 := ewma_from w 0 _). assert (H1 : forall j, (w - 1 <= j <= i)%nat -> e1 j = price a d (INR j - (INR w - 1) / 2)) by (intros j Hj; apply ewma_from_line; try lia; intros; apply nth_line; lia).
  set (e2 := ewma_from w (w - 1) e1). assert (H2 : forall j, (2 * w - 2 <= j <= i)%nat -> e2 j = price a d (INR j - ((INR w - 1) / 2 + (INR w - 1) / 2))) by (intros j Hj; apply ewma_again; try lia; intros; apply H1; lia).
  rewrite (ewma_again w (2 * w - 2) e2 a d _ i Hw ltac:(lia) H2), H1, H2 by lia. unfold price. field.
Qed.
(** Tillson's average lags [3 (1 - v)] times as long as the plain one. *)
Theorem t3_line a d n w factor : (0 < w)%nat -> (6 * w - 5 <= n)%nat ->
  let v := clamp01 (match factor with Some v => v | None => 7 / 10 end) in
  exists o, t3 (xseries (line a d) n) w (option_map Fin factor) = Ok o /\ lags (3 * (1 - v) * ((INR w - 1) / 2)) a d n (6 * w - 6) o.
Proof.
  intros Hw Hn v0. rewrite xseries_map. destruct (t3_real (series (line a d) n) w factor Hw) as (o & E & A); [now rewrite series_length|]. exists o. split; [exact E|]. rewrite series_length in A. cbv zeta in A. fold v0 in A. eapply lags_of; [exact A|lia|]. intros i Hi. cbv beta. set (g := (INR w - 1) / 2).
  set (e1 := ewma_from w 0 _). assert (H1 : forall j, (w - 1 <= j <= i)%nat -> e1 j = price a d (INR j - g)) by (intros j Hj; apply ewma_from_line; try lia; intros; apply nth_line; lia).
  set (e2 := ewma_from w (w - 1) e1). assert (H2 : forall j, (2 * (w - 1) <= j <= i)%nat -> e2 j = price a d (INR j - (g + g))) by (intros j Hj; apply ewma_again; try lia; intros; apply H1; lia).
  set (e3 := ewma_from w (2 * (w - 1)) e2). assert (H3 : forall j, (3 * (w - 1) <= j <= i)%nat -> e3 j = price a d (INR j - (g + g + g))) by (intros j Hj; apply ewma_again; try lia; intros; apply H2; lia).
  set (e4 := ewma_from w (3 * (w - 1)) e3). assert (H4 : forall j, (4 * (w - 1) <= j <= i)%nat -> e4 j = price a d (INR j - (g + g + g + g))) by (intros j Hj; apply ewma_again; try lia; intros; apply H3; lia).
  set (e5 := ewma_from w (4 * (w - 1)) e4). assert (H5 : forall j, (5 * (w - 1) <= j <= i)%nat -> e5 j = price a d (INR j - (g + g + g + g + g))) by (intros j Hj; apply ewma_again; try lia; intros; apply H4; lia).
  rewrite (ewma_again w (5 * (w - 1)) e5 a d _ i Hw ltac:(lia) H5), H3, H4, H5 by lia. fold g. unfold price. ring.
Qed.
(** No lag for odd windows, half a bar for even ones. *)
Theorem zlma_line a d n w : (0 < w)%nat -> ((w - 1) / 2 + w <= n)%nat -> exists o, zlma (xseries (line a d) n) w = Ok o /\ lags (if Nat.even w then / 2 else 0) a d n ((w - 1) / 2 + w - 1) o.
Proof.
  intros Hw Hn. rewrite xseries_map. destruct (zlma_real (series (line a d) n) w Hw) as (o & E & A); [now rewrite series_length|]. exists o. split; [exact E|]. rewrite series_length in A. cbv zeta in A. eapply lags_of; [exact A|lia|]. intros i Hi. cbv beta. set (lag := ((w - 1) / 2)%nat) in *.
  rewrite (ewma_again w lag _ a d (- INR lag)).
  - f_equal. assert (H : (2 * lag + (if Nat.even w then 2 else 1) = w)%nat).
    { unfold lag. destruct (Nat.even w) eqn:EV; [apply Nat.even_spec in EV as (m & ->)|assert (O : Nat.odd w = true) by (unfold Nat.odd; now rewrite EV); apply Nat.odd_spec in O as (m & ->)].
      - replace (2 * m - 1)%nat with (1 + (m - 1) * 2)%nat by lia. rewrite Nat.div_add by lia. cbn [Nat.div Nat.divmod fst]. lia. - replace (2 * m + 1 - 1)%nat with (m * 2)%nat by lia. rewrite Nat.div_mul by lia. lia. }
    apply (f_equal INR) in H. rewrite plus_INR, mult_INR in H. destruct (Nat.even w); cbn [INR] in H; lra.
  - easy.
  - lia.
  - intros j Hj. rewrite !nth_line by lia. unfold line, price. rewrite minus_INR by lia. ring.
Qed.

(** ** Differences and spreads *)
Theorem macd_line a d n s l : (0 < s <= n)%nat -> (0 < l <= n)%nat -> exists o, macd (xseries (line a d) n) s l = Ok o /\ level (d * (INR l - INR s) / 2) n (Nat.max s l - 1) o.
Proof.
  intros Hs Hl. destruct (macd_real (line a d) n s l Hs Hl) as (o & E & A). exists o. split; [exact E|]. eapply level_of; [exact A|lia|]. intros i Hi. cbv beta. rewrite !(ewma_from_line _ _ _ a d) by (try lia; easy). unfold price. field.
Qed.
Theorem dpo_line a d n w : (3 <= w <= n)%nat -> exists o, dpo (xseries (line a d) n) w None = Ok o /\ level (- (d * (if Nat.even w then 3 else 2) / 2)) n (w - 1) o.
Proof.
  intros Hw. destruct (dpo_real (line a d) n w Hw) as (o & E & A). exists o. split; [exact E|]. eapply level_of; [exact A|lia|]. intros i Hi. cbv beta. rewrite (mean_bars_line a d) by (try lia; easy).
  assert (H : (2 * (w / 2) + (if Nat.even w then 0 else 1) = w)%nat). { destruct (Nat.even w) eqn:EV; [apply Nat.even_spec in EV as (m & ->)|assert (O : Nat.odd w = true) by (unfold Nat.odd; now rewrite EV); apply Nat.odd_spec in O as (m & ->)].
    - rewrite (Nat.mul_comm 2 m), Nat.div_mul by lia. lia. - replace (2 * m + 1)%nat with (1 + m * 2)%nat by lia. rewrite Nat.div_add by lia. cbn. lia. }
  assert (Q : (w / 2 + 1 <= i)%nat) by (destruct (Nat.even w); lia). apply (f_equal INR) in H. rewrite plus_INR, mult_INR in H. unfold line, price. rewrite minus_INR, plus_INR by lia. destruct (Nat.even w); cbn [INR] in *; nra.
Qed.
Lemma sum_dev2 s w c : Rsum (map (fun k => (INR k - c) ^ 2) (seq s w)) = INR w * ((INR s + (INR w - 1) / 2 - c) ^ 2 + (INR w ^ 2 - 1) / 12).
Proof. induction w as [|w IH]; [cbn; lra|]. rewrite seq_S, map_app, Rsum_app, IH. cbn [map]. rewrite Rsum_cons, Rsum_nil, plus_INR, S_INR. field. Qed.
Lemma var_line a d w i : (0 < w <= i + 1)%nat -> var (last_bars w (line a d) i) = d ^ 2 * ((INR w ^ 2 - 1) / 12).
Proof.
  intros Hw. unfold var. rewrite (mean_bars_line a d) by (try lia; easy). unfold mean, last_bars. rewrite map_map, !map_length, seq_length. set (c := INR i - (INR w - 1) / 2).
  rewrite (map_ext _ (fun k => d ^ 2 * (INR k - c) ^ 2)) by (intros k; unfold line, price; ring). rewrite Rsum_map_scale, sum_dev2. unfold c. rewrite minus_INR, plus_INR by lia. cbn [INR]. field. apply not_0_INR. lia.
Qed.
Theorem variance_line a d n w : (0 < w)%nat -> exists o, variance (xseries (line a d) n) w = Ok o /\ level (d ^ 2 * ((INR w ^ 2 - 1) / 12)) n (w - 1) o.
Proof.
  intros Hw. rewrite xseries_map. destruct (variance_real (series (line a d) n) w Hw) as (o & E & A). exists o. split; [exact E|]. rewrite series_length in A. eapply level_of; [exact A|lia|]. intros i Hi. cbv beta. rewrite last_bars_win by lia. apply var_line. lia.
Qed.
Lemma sd_line a d w i : (0 < w <= i + 1)%nat -> sqrt (var (last_bars w (line a d) i)) = Rabs d * sqrt ((INR w ^ 2 - 1) / 12).
Proof.
  intros Hw. rewrite var_line by lia. assert (1 <= INR w) by (apply (le_INR 1); lia). rewrite sqrt_mult by nra. f_equal. rewrite <- Rsqr_pow2. apply sqrt_Rsqr_abs.
Qed.
Theorem std_dev_line a d n w : (0 < w)%nat -> exists o, std_dev (xseries (line a d) n) w = Ok o /\ level (Rabs d * sqrt ((INR w ^ 2 - 1) / 12)) n (w - 1) o.
Proof.
  intros Hw. rewrite xseries_map. destruct (std_dev_real (series (line a d) n) w Hw) as (o & E & A). exists o. split; [exact E|]. rewrite series_length in A. eapply level_of; [exact A|lia|]. intros i Hi. cbv beta. rewrite last_bars_win by lia. apply sd_line. lia.
Qed.
(** With the default two deviations the price of a rising line never leaves the bands: it is [(w - 1) / 2] bars'
    moves above the middle, which is less than two deviations. *)
Theorem bbands_line a d n w : (0 < w <= n)%nat -> exists o, bbands (xseries (line a d) n) w None None = Ok o /\
  lags ((INR w - 1) / 2) a d n (w - 1) (map (fun '(_, m, _) => m) o) /\
  forall i, (w - 1 <= i < n)%nat -> exists u m b, nth_error o i = Some (Fin u, Fin m, Fin b) /\ u - m = 2 * (Rabs d * sqrt ((INR w ^ 2 - 1) / 12)) /\ m - b = 2 * (Rabs d * sqrt ((INR w ^ 2 - 1) / 12)) /\ b <= line a d i <= u.
Proof.
  intros Hw. destruct (bbands_real (line a d) n w None Hw) as (o & E & A). exists o. split; [exact E|]. cbv zeta in A. cbn [unwrap_or] in A.
  assert (M : forall i, (w - 1 <= i < n)%nat -> ewma_from w 0 (line a d) i = price a d (INR i - (INR w - 1) / 2)) by (intros i Hi; apply ewma_from_line; [lia|lia|easy]). split.
  - pose proof (aligned_map _ _ _ _ NaN _ (fun '(_, m, _) => m) A eq_refl : aligned _ _ _ _ (fun i => Fin (ewma_from w 0 (line a d) i))) as A2. eapply lags_of; [exact A2|lia|exact M].
  - intros i Hi. rewrite (aligned_at _ _ _ _ _ _ A) by lia. eexists _, _, _. split; [reflexivity|]. rewrite sd_line by lia. split; [ring|]. split; [ring|]. rewrite M by lia. set (t := sqrt _). assert (1 <= INR w) by (apply (le_INR 1); lia).
    assert (T : (INR w - 1) / 2 <= 2 * t). { unfold t. apply Rle_trans with (2 * sqrt (((INR w - 1) / 4) ^ 2)); [rewrite sqrt_pow2 by lra; lra|]. apply Rmult_le_compat_l; [lra|]. apply sqrt_le_1_alt. nra. }
    unfold line, price. unfold Rabs. destruct Rcase_abs; split; nra.
Qed.
(** A bar of a rising line is always the same number of deviations above the mean, below the square root of three. *)
Theorem zscore_line a d n w : (2 <= w)%nat -> 0 < d -> exists o, zscore (xseries (line a d) n) w = Ok o /\ level (sqrt (3 * (INR w - 1) / (INR w + 1))) n (w - 1) o.
Proof.
  intros Hw Hd. rewrite xseries_map. destruct (zscore_real (series (line a d) n) w ltac:(lia)) as (o & E & A). exists o. split; [exact E|]. rewrite series_length in A. intros i Hi. rewrite (aligned_at _ _ _ _ _ _ A) by lia. rewrite last_bars_win by lia. rewrite sd_line, var_line, nth_line, (mean_bars_line a d) by (try lia; easy).
  assert (W : 2 <= INR w) by (apply (le_INR 2); lia). destruct (Req _ 0) eqn:Z; [apply Req_true in Z; exfalso; assert (0 < d ^ 2 * ((INR w ^ 2 - 1) / 12)) by (apply Rmult_lt_0_compat; nra); lra|]. do 2 f_equal. rewrite Rabs_right by lra.
  set (q := sqrt ((INR w ^ 2 - 1) / 12)). assert (Q : 0 < q) by (apply sqrt_lt_R0; nra). assert (Q2 : q ^ 2 = (INR w ^ 2 - 1) / 12) by (unfold q; rewrite <- Rsqr_pow2; apply Rsqr_sqrt; nra).
  replace ((line a d i - price a d (INR i - (INR w - 1) / 2)) / (d * q)) with ((INR w - 1) / 2 / q) by (unfold line, price; field; lra).
  rewrite <- (sqrt_pow2 ((INR w - 1) / 2 / q)) by (apply Rmult_le_pos; [lra|left; now apply Rinv_0_lt_compat]). f_equal.
  replace (((INR w - 1) / 2 / q) ^ 2) with ((INR w - 1) ^ 2 / 4 / q ^ 2) by (field; lra). rewrite Q2. field. split; nra.
Qed.
Theorem donchian_line a d n w : (0 < w)%nat -> 0 <= d -> exists o, donchian (xseries (line a d) n) (xseries (line a d) n) w = Ok o /\
  lags 0 a d n (w - 1) (map (fun '(u, _, _) => u) o) /\ lags ((INR w - 1) / 2) a d n (w - 1) (map (fun '(_, m, _) => m) o) /\ lags (INR w - 1) a d n (w - 1) (map (fun '(_, _, b) => b) o).
Proof.
  intros Hw Hd. destruct (donchian_real (line a d) (line a d) n w Hw) as (o & E & A). exists o. split; [exact E|].
  assert (M : forall p q, (p <= q)%nat -> line a d p <= line a d q) by (intros p q Hpq; unfold line, price; apply Rplus_le_compat_l, Rmult_le_compat_l; [lra|now apply le_INR]).
  assert (HL : forall i, (w - 1 <= i < n)%nat -> highest w (line a d) i = price a d (INR i - 0) /\ lowest w (line a d) i = price a d (INR i - (INR w - 1))).
  { intros i Hi. destruct (highest_spec w (line a d) i ltac:(lia)) as [(p & P1 & P2 & ->) P]. destruct (lowest_spec w (line a d) i ltac:(lia)) as [(q & Q1 & Q2 & ->) Q]. split.
    - replace (price a d (INR i - 0)) with (line a d i) by (unfold line, price; ring). apply Rle_antisym; [apply M; lia|apply P; lia].
    - replace (price a d (INR i - (INR w - 1))) with (line a d (i + 1 - w)%nat) by (unfold line, price; rewrite minus_INR, plus_INR by lia; cbn; ring). apply Rle_antisym; [apply Q; lia|apply M; lia]. }
  pose proof (aligned_map _ _ _ _ NaN _ (fun '(u, _, _) => u) A eq_refl : aligned _ _ _ _ (fun i => Fin (highest w (line a d) i))) as A1.
  pose proof (aligned_map _ _ _ _ NaN _ (fun '(_, m, _) => m) A eq_refl : aligned _ _ _ _ (fun i => Fin ((highest w (line a d) i + lowest w (line a d) i) / 2))) as A2.
  pose proof (aligned_map _ _ _ _ NaN _ (fun '(_, _, b) => b) A eq_refl : aligned _ _ _ _ (fun i => Fin (lowest w (line a d) i))) as A3.
  split; [eapply lags_of; [exact A1|lia|intros i Hi; now apply HL]|]. split; [|eapply lags_of; [exact A3|lia|intros i Hi; now apply HL]].
  eapply lags_of; [exact A2|lia|]. intros i Hi. cbv beta. destruct (HL i Hi) as [-> ->]. unfold price. field.
Qed.
