(** * Cases: examples that need facts about the concrete data.

    For each theorem whose hypotheses restrict the data (a denominator that is not 0, a
    window that is not flat, ...): the theorem applied to the bars of Case.v.  The
    examples of the other theorems stand beside them. *)

From Coq Require Import Reals Lra Lia.
From Verif Require Import Spec BaseFacts XReal RSpec XRFacts Convex Bars DistReal CorrReal RankCorr Dcor Mic VolumeReal VolatReal MomReal TrendReal Adaptive HurstReal Mama Entropy Ranges RegReal Extra Case.
From Coq Require Import List Permutation Sorting.Sorted.
Import ListNotations.
From Verif Require Import NaN Rank OrderStat Count DistShape MomShape TrendShape SmoothShape VolShape Warm Select Dispatch Poison Flat Local SmoothReal SmoothReal2 Prings Panics.
From Verif Require Import Correlation Volume Volatility Trend Momentum Distribution Smooth.
Local Unset Implicit Arguments.
Local Open Scope R_scope.

(** ** Facts about the data *)
Lemma bar_ordered k : lows k <= closes k <= highs k.
Proof. unfold lows, highs. lra. Qed.
Lemma bar_open k : lows k < highs k.
Proof. unfold lows, highs. lra. Qed.
Lemma bar_opens k : lows k <= opens k <= highs k.
Proof. unfold lows, highs, opens. lra. Qed.
Lemma volumes_pos k : 0 < volumes k.
Proof. unfold volumes. pose proof (pos_INR k). lra. Qed.
Lemma closes_pos k : 0 < closes k.
Proof. pose proof (closes_ge k). lra. Qed.
Lemma last_bars_pos w f i : (0 < w)%nat -> (forall k, 0 < f k) -> 0 < Rsum (last_bars w f i).
Proof.
  intros Hw H. apply Rsum_pos; [|now apply last_bars_nonempty]. intros x Hx. unfold last_bars in Hx. apply in_map_iff in Hx as (k & <- & _). apply H.
Qed.
Lemma window_open w f g i : (0 < w <= i + 1)%nat -> (forall k, f k < g k) -> lowest w f i < highest w g i.
Proof.
  intros Hw H. destruct (highest_spec w g i Hw) as (_ & G). destruct (lowest_spec w f i Hw) as (_ & L).
  specialize (G i ltac:(lia) ltac:(lia)). specialize (L i ltac:(lia) ltac:(lia)). specialize (H i). lra.
Qed.
(** A window of two bars or more in which two consecutive values differ. *)
Lemma window_varied w f i k : (0 < w <= i + 1)%nat -> (k < i)%nat -> (i < k + w)%nat -> f (S k) <> f k -> lowest w f i < highest w f i.
Proof.
  intros Hw K1 K2 H. destruct (highest_spec w f i Hw) as (_ & G). destruct (lowest_spec w f i Hw) as (_ & L).
  pose proof (G k ltac:(lia) ltac:(lia)). pose proof (L k ltac:(lia) ltac:(lia)). pose proof (G (S k) ltac:(lia) ltac:(lia)). pose proof (L (S k) ltac:(lia) ltac:(lia)).
  destruct (Rlt_le_dec (f k) (f (S k))); lra.
Qed.
Lemma true_range_pos k : 0 < true_range_of highs lows closes k.
Proof. unfold true_range_of, highs, lows. pose proof (Rmax_l (closes k + 2) (closes (k - 1)%nat)). pose proof (Rmin_l (closes k - 1) (closes (k - 1)%nat)). lra. Qed.
Lemma bounded_above (f : nat -> R) i : exists hi, forall j, (j <= i)%nat -> f j <= hi.
Proof.
  induction i as [|i [hi IH]].
  - exists (f O). intros j Hj. replace j with O by lia. lra.
  - exists (Rmax hi (f (S i))). intros j Hj. destruct (Nat.eq_dec j (S i)) as [->|N]; [apply Rmax_r|]. pose proof (IH j ltac:(lia)). pose proof (Rmax_l hi (f (S i))). lra.
Qed.
Lemma wilder_ge w a f i lo : (0 < w)%nat -> (a + w - 1 <= i)%nat -> (forall k, (a <= k <= i)%nat -> lo <= f k) -> lo <= wilder_from w a f i.
Proof.
  intros Hw Hi H. destruct (bounded_above f i) as [hi B]. apply (wilder_from_bounds w a f i lo hi); [easy|easy|]. intros j Hj. split; [apply H|apply B]; lia.
Qed.
Lemma ewma_ge w a f i lo : (0 < w)%nat -> (a + w - 1 <= i)%nat -> (forall k, (a <= k <= i)%nat -> lo <= f k) -> lo <= ewma_from w a f i.
Proof.
  intros Hw Hi H. destruct (bounded_above f i) as [hi B]. apply (ewma_from_bounds w a f i lo hi); [easy|easy|]. intros j Hj. split; [apply H|apply B]; lia.
Qed.
Lemma ema_plus g a b l m : length l = length m -> ema g a l + ema g b m = ema g (a + b) (map (fun p => fst p + snd p) (combine l m)).
Proof.
  unfold ema. revert a b m. induction l as [|x l IH]; intros a b [|y m] L; cbn [length] in L; try lia; [reflexivity|]. cbn [fold_left combine map fst snd].
  rewrite IH by lia. f_equal. lra.
Qed.
Lemma combine_same {A B C} (f : A -> B) (g : A -> C) l : combine (map f l) (map g l) = map (fun x => (f x, g x)) l.
Proof. induction l as [|x l IH]; cbn; [easy|now rewrite IH]. Qed.
Lemma wilder_plus w a f g i : wilder_from w a f i + wilder_from w a g i = wilder_from w a (fun k => f k + g k) i.
Proof.
  unfold wilder_from. rewrite ema_plus by now rewrite !map_length. rewrite combine_same, map_map. f_equal. unfold mean. rewrite !map_length.
  unfold Rdiv. rewrite <- Rmult_plus_distr_r. f_equal. generalize (seq a (w - 1)). induction l as [|x l IH]; cbn [map]; rewrite ?Rsum_nil, ?Rsum_cons; lra.
Qed.
(** A series that changes by at least [e] from bar to bar has moved. *)
Lemma moved_steps w f i e : (0 < w <= i)%nat -> 0 < e -> (forall k, e <= Rabs (f (S k) - f k)) -> moved w f i.
Proof.
  intros Hw He H. unfold moved. rewrite wilder_plus. apply Rgt_not_eq. apply Rlt_le_trans with e; [easy|]. apply wilder_ge; [lia|lia|]. intros [|k] Hk; [lia|].
  specialize (H k). unfold up_move, down_move. replace (S k - 1)%nat with k by lia. unfold Rmax, Rabs in *. repeat destruct (Rle_dec _ _); destruct (Rcase_abs _); lra.
Qed.
Lemma closes_step k : closes (S k) - closes k = (if Nat.even k then 4 else -2).
Proof. unfold closes. rewrite S_INR, Nat.even_succ, <- Nat.negb_even. destruct (Nat.even k); cbn; lra. Qed.
Lemma closes_steps k : 2 <= Rabs (closes (S k) - closes k).
Proof. rewrite closes_step. unfold Rabs. destruct (Nat.even k); destruct (Rcase_abs _); lra. Qed.
Lemma closes_moved w i : (0 < w <= i)%nat -> moved w closes i.
Proof. intros Hw. apply moved_steps with 2; [easy|lra|]. apply closes_steps. Qed.
Lemma closes_streak k : streak closes (S k) = if Nat.even k then 1 else -1.
Proof.
  induction k as [|k IH].
  - change (streak closes 1) with (if Req (closes 1) (closes 0) then 0 else if Rltb (closes 0) (closes 1) then Rmax 0 0 + 1 else Rmin 0 0 - 1).
    pose proof (closes_step 0) as E. cbn in E. rewrite (proj2 (Req_false _ _)) by lra. rewrite (proj2 (Rltb_true _ _)) by lra. rewrite Rmax_left by lra. cbn. lra.
  - change (streak closes (S (S k))) with (if Req (closes (S (S k))) (closes (S k)) then 0 else if Rltb (closes (S k)) (closes (S (S k))) then Rmax (streak closes (S k)) 0 + 1 else Rmin (streak closes (S k)) 0 - 1).
    rewrite IH. pose proof (closes_step (S k)) as E. rewrite Nat.even_succ, <- Nat.negb_even in *. destruct (Nat.even k); cbn [negb] in *.
    + rewrite (proj2 (Req_false _ _)) by lra. rewrite (proj2 (Rltb_false _ _)) by lra. rewrite Rmin_right by lra. lra.
    + rewrite (proj2 (Req_false _ _)) by lra. rewrite (proj2 (Rltb_true _ _)) by lra. rewrite Rmax_right by lra. lra.
Qed.
Lemma streak_moved w i : (0 < w <= i)%nat -> moved w (fun j => streak closes (S j)) i.
Proof.
  intros Hw. apply moved_steps with 2; [easy|lra|]. intros k. rewrite !closes_streak, Nat.even_succ, <- Nat.negb_even. unfold Rabs. destruct (Nat.even k); cbn [negb]; destruct (Rcase_abs _); lra.
Qed.

(** *** Further facts *)
Lemma ema_ge g x0 l lo : 0 <= g <= 1 -> lo <= x0 -> (forall x, In x l -> lo <= x) -> lo <= ema g x0 l.
Proof.
  intros Hg. unfold ema. revert x0. induction l as [|x l IH]; intros x0 H0 H; cbn [fold_left]; [easy|]. apply IH.
  - pose proof (H x (or_introl eq_refl)). nra.
  - intros y Hy. apply H. now right.
Qed.
Lemma mean_ge l lo : l <> [] -> (forall x, In x l -> lo <= x) -> lo <= mean l.
Proof.
  intros Hn H. unfold mean. assert (0 < INR (length l)) by (apply lt_0_INR; destruct l; [easy|cbn; lia]).
  apply Rmult_le_reg_r with (INR (length l)); [easy|]. unfold Rdiv. rewrite Rmult_assoc, Rinv_l by lra. rewrite Rmult_1_r. clear H0 Hn.
  induction l as [|x l IH]; [cbn; lra|]. cbn [length]. rewrite S_INR, Rsum_cons. pose proof (H x (or_introl eq_refl)). pose proof (IH (fun y Hy => H y (or_intror Hy))). lra.
Qed.
Lemma map_ge (f : nat -> R) a n lo : (forall k, lo <= f k) -> forall x, In x (map f (seq a n)) -> lo <= x.
Proof. intros H x Hx. apply in_map_iff in Hx as (k & <- & _). apply H. Qed.
Lemma ewma_all w a f i lo : (0 < w)%nat -> (forall k, lo <= f k) -> lo <= ewma_from w a f i.
Proof.
  intros Hw H. unfold ewma_from. apply ema_ge.
  - assert (1 <= INR w) by (replace 1 with (INR 1) by reflexivity; apply le_INR; lia). split.
    + apply Rlt_le, Rdiv_lt_0_compat; lra.
    + apply Rmult_le_reg_r with (INR w + 1); [lra|]. unfold Rdiv. rewrite Rmult_assoc, Rinv_l; lra.
  - apply mean_ge; [|now apply map_ge]. destruct w; [lia|easy].
  - now apply map_ge.
Qed.
Lemma true_range_ge k : 3 <= true_range_of highs lows closes k.
Proof. unfold true_range_of, highs, lows. pose proof (Rmax_l (closes k + 2) (closes (k - 1)%nat)). pose proof (Rmin_l (closes k - 1) (closes (k - 1)%nat)). lra. Qed.
Lemma max_f64_large : 1000 <= max_f64.
Proof. unfold max_f64. apply IZR_le. now vm_compute. Qed.
Lemma closes_small k : (k <= 24)%nat -> closes k <= 37.
Proof. intros H. unfold closes. apply le_INR in H. cbn in H. destruct (Nat.even k); lra. Qed.
Lemma bar_bounded k : (k <= 24)%nat -> 9 <= lows k /\ lows k <= closes k <= highs k /\ highs k <= 39.
Proof. intros H. pose proof (closes_small k H). pose proof (closes_ge k). unfold lows, highs. lra. Qed.
Lemma volumes_sum a b : (a <= b)%nat -> 0 < sum_bars volumes a b.
Proof. intros H. unfold sum_bars. apply Rsum_pos; [intros x Hx; apply in_map_iff in Hx as (k & <- & _); apply volumes_pos|]. replace (b + 1 - a)%nat with (S (b - a)) by lia. easy. Qed.
Lemma wilder_total_pos w k f i : (2 <= w)%nat -> (forall j, 0 < f j) -> 0 < wilder_total w k f i.
Proof.
  intros Hw H. unfold wilder_total. assert (0 < Rsum (map f (seq k (w - 1)))) as P.
  { apply Rsum_pos; [intros x Hx; apply in_map_iff in Hx as (j & <- & _); apply H|]. replace (w - 1)%nat with (S (w - 2)) by lia. easy. }
  revert P. generalize (Rsum (map f (seq k (w - 1)))). generalize (seq (k + w - 1) (i + 1 - (k + w - 1))). intros l. induction l as [|x l IH]; intros s P; cbn [map fold_left]; [easy|]. apply IH.
  specialize (H x). assert (2 <= INR w) by (replace 2 with (INR 2) by reflexivity; apply le_INR; lia).
  assert (0 < s * (INR w - 1) / INR w) by (apply Rdiv_lt_0_compat; [apply Rmult_lt_0_compat; lra|lra]). lra.
Qed.
Lemma path_pos w i : (2 <= w <= i + 1)%nat -> 0 < path w closes i.
Proof.
  intros Hw. unfold path. apply Rsum_pos.
  - intros x Hx. apply in_map_iff in Hx as (k & <- & Hk). apply in_seq in Hk. destruct k as [|k]; [lia|]. replace (S k - 1)%nat with k by lia. pose proof (closes_steps k). lra.
  - replace (w - 1)%nat with (S (w - 2)) by lia. easy.
Qed.
Lemma travel_pos w i : (0 < w <= i)%nat -> 0 < Rsum (last_bars w (fun k => Rabs (closes k - closes (k - 1)%nat)) i).
Proof.
  intros Hw. unfold last_bars. apply Rsum_pos.
  - intros x Hx. apply in_map_iff in Hx as (k & <- & Hk). apply in_seq in Hk. destruct k as [|k]; [lia|]. replace (S k - 1)%nat with k by lia. pose proof (closes_steps k). lra.
  - destruct w; [lia|easy].
Qed.
Lemma updown_move f k : up_move f k + down_move f k = Rabs (f k - f (k - 1)%nat).
Proof. unfold up_move, down_move, Rmax, Rabs. repeat destruct (Rle_dec _ _); destruct (Rcase_abs _); lra. Qed.
Lemma Rsum_plus (f g : nat -> R) l : Rsum (map f l) + Rsum (map g l) = Rsum (map (fun k => f k + g k) l).
Proof. induction l as [|x l IH]; cbn [map]; rewrite ?Rsum_nil, ?Rsum_cons; lra. Qed.
Lemma moves_pos w i : (0 < w <= i)%nat -> Rsum (last_bars w (up_move closes) i) + Rsum (last_bars w (down_move closes) i) <> 0.
Proof.
  intros Hw. unfold last_bars. rewrite Rsum_plus. apply Rgt_not_eq. pose proof (travel_pos w i Hw) as P. unfold last_bars in P.
  erewrite map_ext; [exact P|]. intros k. apply updown_move.
Qed.
(** On these bars a higher high comes with a higher low, so one of the two directional movements is the step itself. *)
Lemma dm_step k : plus_dm highs lows (S k) + minus_dm highs lows (S k) = Rabs (closes (S k) - closes k).
Proof.
  unfold plus_dm, minus_dm, highs, lows. replace (S k - 1)%nat with k by lia. set (a := closes (S k)). set (b := closes k).
  replace (b - 1 - (a - 1)) with (b - a) by lra. replace (a + 2 - (b + 2)) with (a - b) by lra.
  destruct (Rltb (b - a) (a - b)) eqn:E1; destruct (Rltb (a - b) (b - a)) eqn:E2;
    rewrite ?Rltb_true, ?Rltb_false in *; unfold Rmax, Rabs; repeat destruct (Rle_dec _ _); destruct (Rcase_abs _); lra.
Qed.
Lemma dm_pos w i : (0 < w <= i)%nat -> 0 < wilder_from w 1 (plus_dm highs lows) i + wilder_from w 1 (minus_dm highs lows) i.
Proof.
  intros Hw. rewrite wilder_plus. apply Rlt_le_trans with 2; [lra|]. apply wilder_ge; [lia|lia|]. intros [|k] Hk; [lia|]. rewrite dm_step. apply closes_steps.
Qed.
Lemma tr_pos w i : (0 < w <= i)%nat -> 0 < wilder_from w 1 (true_range_of highs lows closes) i.
Proof. intros Hw. apply Rlt_le_trans with 3; [lra|]. apply wilder_ge; [lia|lia|]. intros k _. apply true_range_ge. Qed.
Lemma di_pos w i : (0 < w <= i)%nat -> let tr := true_range_of highs lows closes in
  wilder_from w 1 tr i <> 0 /\ di w (plus_dm highs lows) tr i + di w (minus_dm highs lows) tr i <> 0.
Proof.
  intros Hw tr. pose proof (tr_pos w i Hw) as T. pose proof (dm_pos w i Hw) as D. fold tr in T. split; [lra|]. unfold di. apply Rgt_not_eq.
  rewrite <- Rmult_plus_distr_l, <- Rdiv_plus_distr. apply Rmult_lt_0_compat; [lra|]. now apply Rdiv_lt_0_compat.
Qed.
Lemma shifted_sum w (f g : nat -> R) i j : (0 < w)%nat -> (forall k, (k < w)%nat -> g (j + 1 - w + k)%nat < f (i + 1 - w + k)%nat) -> Rsum (last_bars w g j) < Rsum (last_bars w f i).
Proof.
  intros Hw. unfold last_bars. generalize (i + 1 - w)%nat (j + 1 - w)%nat. clear i j. induction w as [|w IH]; intros a b H; [lia|]. cbn [seq map]. rewrite !Rsum_cons.
  pose proof (H O ltac:(lia)) as H0. rewrite !Nat.add_0_r in H0. destruct w as [|w]; [cbn; lra|]. specialize (IH ltac:(lia) (S a) (S b)).
  assert (forall k, (k < S w)%nat -> g (S b + k)%nat < f (S a + k)%nat) as H1. { intros k Hk. specialize (H (S k) ltac:(lia)). now rewrite !Nat.add_succ_r in H. }
  specialize (IH H1). lra.
Qed.

Lemma stairs_pos k : 0 < mcginley 5 (fun j => 10 + INR j) k <= 10 + INR k.
Proof.
  induction k as [|k [P Q]]; [cbn; lra|]. cbn [mcginley]. rewrite S_INR. set (m := mcginley 5 _ k) in *. set (f := 10 + (INR k + 1)).
  assert (F : m < f) by (unfold f; lra). replace (INR 5) with 5 by (cbn; lra).
  assert (D : 3 <= 0.6 * 5 * (f / m) ^ 4). { assert (1 <= f / m) by (apply Rmult_le_reg_r with m; [easy|]; unfold Rdiv; rewrite Rmult_assoc, Rinv_l; lra). assert (1 <= (f / m) ^ 4) by (apply pow_R1_Rle; easy). lra. }
  set (d := 0.6 * 5 * (f / m) ^ 4) in *. assert (0 < (f - m) / d) by (apply Rdiv_lt_0_compat; lra).
  assert ((f - m) / d <= f - m). { apply Rmult_le_reg_r with d; [lra|]. unfold Rdiv. rewrite Rmult_assoc, Rinv_l by lra. nra. } fold f. lra.
Qed.
Lemma window2 f i : highest 2 f (S i) - lowest 2 f (S i) = Rabs (f (S i) - f i).
Proof.
  unfold highest, lowest, last_bars. replace (S i + 1 - 2)%nat with i by lia. cbn. unfold Rmax, Rmin, Rabs. repeat destruct (Rle_dec _ _); destruct (Rcase_abs _); lra.
Qed.
Lemma percent2_up f i : f i < f (S i) -> percent_k 2 f f f (S i) = 100.
Proof.
  intros H. unfold percent_k. rewrite window2, Rabs_right by lra. unfold lowest, last_bars. replace (S i + 1 - 2)%nat with i by lia. cbn. rewrite Rmin_left by lra. field. lra.
Qed.
Lemma percent2_down f i : f (S i) < f i -> percent_k 2 f f f (S i) = 0.
Proof.
  intros H. unfold percent_k. rewrite window2, Rabs_left by lra. unfold lowest, last_bars. replace (S i + 1 - 2)%nat with i by lia. cbn. rewrite Rmin_right by lra. field. lra.
Qed.
(** stc over six bars: the two averages cross at every bar, and so does their smoothed position. *)
Definition stc_m (i : nat) : R := ewma_from 1 0 closes i - ewma_from 2 0 closes i.
Lemma stc_m_values : stc_m 1 = 2 /\ stc_m 2 = 0 /\ stc_m 3 = 4/3 /\ stc_m 4 = -2/9 /\ stc_m 5 = 34/27.
Proof. unfold stc_m, ewma_from, ema, mean, closes. cbn. repeat split; lra. Qed.
Definition stc_p : nat -> R := wilder_from 2 2 (percent_k 2 stc_m stc_m stc_m).
Lemma stc_p_values : stc_p 3 = 50 /\ stc_p 4 = 25 /\ stc_p 5 = 62.5.
Proof.
  destruct stc_m_values as (M1 & M2 & M3 & M4 & M5). pose proof (percent2_down stc_m 1 ltac:(lra)) as P2. pose proof (percent2_up stc_m 2 ltac:(lra)) as P3.
  pose proof (percent2_down stc_m 3 ltac:(lra)) as P4. pose proof (percent2_up stc_m 4 ltac:(lra)) as P5.
  unfold stc_p, wilder_from, ema, mean. cbn [seq map fold_left length minus plus Rsum fold_right]. rewrite P2, P3, P4, P5. cbn. repeat split; lra.
Qed.
Lemma stc_m_open i : (2 <= i < 6)%nat -> highest 2 stc_m i - lowest 2 stc_m i <> 0.
Proof.
  intros Hi. destruct i as [|i]; [lia|]. rewrite window2. destruct stc_m_values as (M1 & M2 & M3 & M4 & M5). apply Rabs_no_R0.
  assert (i = 1 \/ i = 2 \/ i = 3 \/ i = 4)%nat as [-> | [-> | [-> | ->]]] by lia; lra.
Qed.
Lemma stc_p_open i : (4 <= i < 6)%nat -> highest 2 stc_p i - lowest 2 stc_p i <> 0.
Proof.
  intros Hi. destruct i as [|i]; [lia|]. rewrite window2. destruct stc_p_values as (M1 & M2 & M3). apply Rabs_no_R0.
  assert (i = 3 \/ i = 4)%nat as [-> | ->] by lia; lra.
Qed.
Lemma typical_moves w i : (2 <= w <= i + 1)%nat -> mean (map (fun x => Rabs (x - mean (last_bars w (typical_price highs lows closes) i))) (last_bars w (typical_price highs lows closes) i)) <> 0.
Proof.
  intros Hw. set (t := typical_price highs lows closes). generalize (mean (last_bars w t i)). intros m. apply Rgt_not_eq. unfold mean. apply Rdiv_lt_0_compat; [|apply lt_0_INR; unfold last_bars; rewrite !map_length, seq_length; lia].
  unfold last_bars. replace w with (w - 2 + 2)%nat by lia. rewrite seq_app, !map_app, Rsum_app. set (k := (i + 1 - (w - 2 + 2) + (w - 2))%nat). cbn [seq map].
  assert (D : t (S k) <> t k). { unfold t, typical_price, highs, lows. pose proof (closes_ne k). lra. }
  assert (0 <= Rsum (map (fun x => Rabs (x - m)) (map t (seq (i + 1 - (w - 2 + 2)) (w - 2))))).
  { clear. induction (map t _) as [|x l IH]; cbn [map]; rewrite ?Rsum_nil, ?Rsum_cons; [lra|]. pose proof (Rabs_pos (x - m)). lra. }
  rewrite !Rsum_cons, Rsum_nil. pose proof (Rabs_pos (t k - m)). pose proof (Rabs_pos (t (S k) - m)).
  assert (0 < Rabs (t k - m) + Rabs (t (S k) - m)). 2: lra. unfold Rabs in *. repeat destruct (Rcase_abs _); lra.
Qed.
Lemma span_mean w i : (0 < w)%nat -> mean (last_bars w (swma (fun k => highs k - lows k)) i) <> 0.
Proof.
  intros Hw. apply Rgt_not_eq, Rlt_le_trans with 3; [lra|]. apply mean_ge; [now apply last_bars_nonempty|]. apply map_ge. intros k. unfold swma, highs, lows. lra.
Qed.
Lemma opens_volumes_envelope i : total_env closes volumes i <> 0.
Proof.
  apply Rgt_not_eq. unfold total_env, sum_bars. apply Rsum_pos; [|rewrite Nat.sub_0_r, Nat.add_1_r; easy]. intros x Hx. apply in_map_iff in Hx as (k & <- & _).
  pose proof (Rmax_l (closes k) (volumes k)). pose proof (closes_ge k). lra.
Qed.
Lemma dev2 k : sqrt (var (last_bars 2 closes (S k))) = Rabs (closes (S k) - closes k) / 2.
Proof.
  unfold last_bars. replace (S k + 1 - 2)%nat with k by lia. cbn [seq map]. set (a := closes k). set (b := closes (S k)). replace (var [a; b]) with ((Rabs (b - a) / 2) * (Rabs (b - a) / 2)).
  - rewrite sqrt_square; [reflexivity|]. pose proof (Rabs_pos (b - a)). lra.
  - replace (Rabs (b - a) / 2 * (Rabs (b - a) / 2)) with (Rabs (b - a) * Rabs (b - a) / 4) by field. rewrite <- Rabs_mult, Rabs_right by (apply Rle_ge, Rle_0_sqr). unfold var, mean. cbn. field.
Qed.
Lemma devs2 i : (2 <= i)%nat -> wilder_from 2 1 (gain_dev 2 closes) i + wilder_from 2 1 (loss_dev 2 closes) i <> 0.
Proof.
  intros Hi. rewrite wilder_plus. apply Rgt_not_eq, Rlt_le_trans with 1; [lra|]. apply wilder_ge; [lia|lia|]. intros [|k] Hk; [lia|]. unfold gain_dev, loss_dev. rewrite dev2.
  replace (S k - 1)%nat with k by lia. pose proof (closes_steps k). pose proof (closes_ne k).
  destruct (Rltb (closes (S k)) (closes k)) eqn:E1; destruct (Rltb (closes k) (closes (S k))) eqn:E2; rewrite ?Rltb_true, ?Rltb_false in *; lra.
Qed.

(** ** The examples *)
Ltac positive := intros; first [ apply true_range_pos | apply volumes_pos | apply closes_pos | bar_facts; lra ].
Ltac meet :=
  intros; cbn [unwrap_or option_map] in *; cbv beta zeta in *;
  repeat match goal with |- _ /\ _ => split end;
  first
  [ lia | lra | assumption | discriminate
  | match goal with
    | |- _ = Ok _ => reflexivity
    | |- _ = Some _ => reflexivity
    | |- moved _ closes _ => apply closes_moved; lia
    | |- moved _ _ _ => apply streak_moved; lia
    | |- Rsum (last_bars _ _ _) <> 0 => apply Rgt_not_eq, last_bars_pos; [lia|positive]
    | |- 0 < Rsum (last_bars _ _ _) => apply last_bars_pos; [lia|positive]
    | |- highest ?w ?h ?i - lowest ?w ?l ?i <> 0 =>
        let H := fresh in assert (H : lowest w l i < highest w h i); [|lra]; first [apply window_open; [lia|positive] | apply (window_varied w h i (i - 1)); [lia|lia|lia|apply closes_ne]]
    | |- lowest ?w ?l ?i < highest ?w ?h ?i => first [apply window_open; [lia|positive] | apply (window_varied w h i (i - 1)); [lia|lia|lia|apply closes_ne]]
    | |- wilder_from _ _ _ _ <> 0 => apply Rgt_not_eq, Rlt_le_trans with 1; [lra|apply wilder_ge; [lia|lia|intros; bar_facts; lra]]
    | |- ewma_from _ _ _ _ <> 0 => apply Rgt_not_eq, Rlt_le_trans with 1; [lra|apply ewma_ge; [lia|lia|intros; bar_facts; lra]]
    end
  | positive
  | bar_facts; solve [lra | intuition lra] ].

(** *** The examples that need them *)
Ltac ge1 := intros; first [ bar_facts; lra | apply Rle_trans with 3; [lra|apply true_range_ge] | apply ewma_all; [lia|ge1] ].
Ltac small := intros; repeat match goal with
  | k : nat |- _ => lazymatch goal with H : closes k <= 37 |- _ => fail | _ => pose proof (closes_small k ltac:(lia)) end
  end; pose proof max_f64_large; bar_facts; unfold typical_price, highs, lows in *; unfold Rabs, Rmin, Rmax; repeat (destruct (Rcase_abs _) || destruct (Rle_dec _ _)); lra.

Example mama_finite_case := mama_finite closes 20 None None 0 40 ltac:(cbn; lra) ltac:(cbn; lra) ltac:(lra) ltac:(small).
Example vidya_flat_forever_case := vidya_flat_forever (fun k => if (k <? 30)%nat then 7 else 7 + INR k) 40 3 25 ltac:(lia)
  ltac:(intros k Hk; cbv beta; rewrite (proj2 (Nat.ltb_lt k 30)) by lia; reflexivity).
Lemma quotes_pos n m i p : In p (seen (quotes n) m i) -> fst p <> 0.
Proof.
  intros H. unfold seen in H. destruct p as [x y]. apply (fun H => in_or_app _ (skipn (i + 1) (combine (quotes n) m)) _ (or_introl H)) in H. rewrite firstn_skipn in H. apply in_combine_l in H. unfold quotes in H. apply in_map_iff in H as (k & E & _). cbn [fst]. pose proof (closes_ge k). lra.
Qed.
Example mape_real_case := mape_real (quotes 20) (map opens (seq 0 20)) 8 ltac:(cbn; lia) (quotes_pos 20 _ 8).
Example emae_real_case := emae_real closes volumes 24 ltac:(cbn; lia) (fun i _ => opens_volumes_envelope i).
Example vol_index_repeats_case := @vol_index_repeats xr XR fgtb (fun k => Fin (closes k)) (fun k => Fin (10 - INR k)) 3
  ltac:(unfold fgtb; rewrite x_ltb; apply Rltb_false; cbn; lra).
Example vwap_values_case {F} {FO : FOps F} := @vwap_values F FO fofnat fofnat fofnat fofnat 24 (Some [5; 11]%nat) ltac:(discriminate) ltac:(repeat constructor; lia).
Lemma session_le rs i : (session rs i <= i)%nat.
Proof. unfold session. apply list_max_le, Forall_forall. intros x Hx. apply filter_In in Hx as [_ Hx]. now apply Nat.leb_le. Qed.
Example vwap_real_case := vwap_real highs lows closes volumes 24 (Some [5; 11]%nat) ltac:(discriminate) ltac:(repeat constructor; lia)
  (fun i _ => Rgt_not_eq _ _ (volumes_sum _ _ (session_le _ i))).
Example vwap_range_case := vwap_range highs lows closes volumes 3 15 9 39 ltac:(lia) ltac:(intros k Hk; split; [apply Rlt_le, volumes_pos|pose proof (closes_small k ltac:(lia)); split; small]) (volumes_sum 3 15 ltac:(lia)).
Example vwap_ranged_case : exists o, vwap (xseries highs 24) (xseries lows 24) (xseries closes 24) (xseries volumes 24) (Some [5; 11]%nat) = Ok o /\ ranged o 9 39.
Proof.
  destruct vwap_real_case as (o & E & _). exists o. split; [exact E|]. revert E. apply vwap_ranged; [discriminate|repeat constructor; lia| |intros; apply volumes_sum, session_le].
  intros k Hk. split; [apply Rlt_le, volumes_pos|]. apply bar_bounded. lia.
Qed.
Example vwma_ranged_case := vwma_ranged closes volumes 20 3 10 37 _ ltac:(lia) ltac:(intros k Hk; pose proof (volumes_pos k); split; [lra|split; small]) ltac:(meet) eq_refl.
Example twiggs_real_case := twiggs_real highs lows closes volumes 20 4 ltac:(lia) ltac:(intros k Hk; small) (fun i _ => Rgt_not_eq _ _ (wilder_total_pos 4 1 volumes i ltac:(lia) volumes_pos)).
Ltac twiggs_bars := intros k Hk; split; [apply Rlt_le, volumes_pos|split; [apply bar_ordered|small]].
Example twiggs_range_case := twiggs_range highs lows closes volumes 3 8 ltac:(lia) ltac:(twiggs_bars) (wilder_total_pos 3 1 volumes 8 ltac:(lia) volumes_pos).
Example twiggs_ranged_case := twiggs_ranged highs lows closes volumes 20 4 _ ltac:(lia) ltac:(twiggs_bars) (fun i _ => wilder_total_pos 4 1 volumes i ltac:(lia) volumes_pos) eq_refl.
Example tvi_direction_case := tvi_direction 1 closes 8 true ltac:(lra).
(** The output of [tvi] on the bars, item by item. *)
Lemma tvi_items : exists o (y : nat -> R), tvi (xseries closes 20) (xseries volumes 20) (Fin 3) = Ok o /\ forall i, (1 <= i < 20)%nat -> nth_error o i = Some (Fin (y i)).
Proof. destruct (tvi_real 3 closes volumes 20 ltac:(lia)) as (o & E & _ & _ & A). eauto. Qed.
Example tvi_moves_case : exists o x y, tvi (xseries closes 20) (xseries volumes 20) (Fin 3) = Ok o /\ nth_error o 14 = Some (Fin x) /\ nth_error o 15 = Some (Fin y) /\ y = x + volumes 15.
Proof.
  destruct tvi_items as (o & y & E & A). exists o, (y 14%nat), (y 15%nat). split; [exact E|]. pose proof (A 14%nat ltac:(lia)) as A1. pose proof (A 15%nat ltac:(lia)) as A2. split; [exact A1|]. split; [exact A2|].
  apply (tvi_moves 3 closes volumes 20 o 15 _ _ ltac:(lra) ltac:(lia) E A1 A2). unfold closes. cbn. lra.
Qed.
Example tvi_keeps_case : exists o z x y, tvi (xseries closes 20) (xseries volumes 20) (Fin 3) = Ok o /\
  nth_error o 14 = Some (Fin z) /\ nth_error o 15 = Some (Fin x) /\ nth_error o 16 = Some (Fin y) /\ (x = z + volumes 15 /\ y = x + volumes 16 \/ x = z - volumes 15 /\ y = x - volumes 16).
Proof.
  destruct tvi_items as (o & y & E & A). exists o, (y 14%nat), (y 15%nat), (y 16%nat). pose proof (A 14%nat ltac:(lia)) as A1. pose proof (A 15%nat ltac:(lia)) as A2. pose proof (A 16%nat ltac:(lia)) as A3.
  repeat (split; [assumption|]). refine (tvi_keeps 3 closes volumes 20 o 16 _ _ _ ltac:(lra) ltac:(lia) _ E A1 A2 A3). unfold closes. cbn. unfold Rabs. destruct (Rcase_abs _); lra.
Qed.
Example donchian_contains_case : exists o a b e, donchian (xseries highs 20) (xseries lows 20) 3 = Ok o /\ nth_error o 15 = Some (Fin a, Fin b, Fin e) /\ e <= lows 14 /\ highs 14 <= a.
Proof.
  destruct (donchian_real highs lows 20 3 ltac:(lia)) as (o & E & _ & _ & A). pose proof (A 15%nat ltac:(lia)) as A1. do 4 eexists. split; [exact E|]. split; [exact A1|].
  eapply (donchian_contains highs lows 20 3 o 15); [lia| |exact E|exact A1|lia|lia]. intros k _. apply Rlt_le, bar_open.
Qed.
Example typical_ranged_case := typical_ranged highs lows closes 20 3 9 39 _ ltac:(lia) ltac:(intros k Hk; apply bar_bounded; lia) eq_refl.
Example wcp_ranged_case := wcp_ranged highs lows closes 20 9 39 ltac:(intros k Hk; apply bar_bounded; lia).
Example gkyz_term_nonneg_case := gkyz_term_nonneg opens highs lows closes 8 ltac:(unfold lows; pose proof (closes_ge 8); lra) (closes_pos 7) (bar_opens 8) (bar_ordered 8).
Example vhf_real_case := vhf_real highs lows closes 20 4 ltac:(lia) ltac:(intros i Hi; apply Rgt_not_eq, travel_pos; lia).
Example inertia_real_case := inertia_real closes 20 2 4 ltac:(lia) ltac:(lia) ltac:(reflexivity) ltac:(lia) ltac:(intros i Hi; apply devs2; lia).
Example rsi_range_case := rsi_range closes 3 8 ltac:(lia) (closes_moved 3 8 ltac:(lia)).
Example stc_real_case := stc_real closes 6 2 1 2 ltac:(lia) ltac:(lia) ltac:(lia) ltac:(exact stc_m_open) ltac:(exact stc_p_open).
Example stc_ranged_case : exists o, stc (xseries closes 6) 2 1 2 = Ok o /\ ranged o 0 100.
Proof. destruct stc_real_case as (o & E & _). exists o. split; [exact E|]. exact (stc_ranged closes 6 2 1 2 o ltac:(lia) ltac:(lia) ltac:(lia) stc_m_open stc_p_open E). Qed.
Example fisher_real_case := fisher_real highs lows 20 4 ltac:(lia) ltac:(small).
Example fisher_ranged_case : exists o, fisher (xseries highs 20) (xseries lows 20) 4 = Ok o /\ ranged o (- ln 1999999) (ln 1999999).
Proof. destruct fisher_real_case as (o & t & y & E & _). exists o. split; [exact E|]. exact (fisher_ranged highs lows 20 4 o ltac:(lia) ltac:(small) E). Qed.
Example fisher_bounded_case := fisher_bounded (fun _ => 1 / 2)
  (fun i => nat_rect (fun _ => R) 0 (fun _ y => 0.5 * ln ((1 + 1 / 2) / (1 - 1 / 2)) + 0.5 * y) i) 0 20 ltac:(reflexivity) ltac:(intros i Hi; split; [lra|reflexivity]) 8 ltac:(lia).
Example crsi_ranged_case : exists o, crsi (xseries closes 20) 3 3 3 = Ok o /\ ranged o 0 100.
Proof.
  destruct (crsi_real closes 20 3 3 3 ltac:(lia) ltac:(lia) ltac:(lia) ltac:(lia) ltac:(meet) ltac:(meet) ltac:(meet)) as (o & E & _). exists o. split; [exact E|]. revert E. apply crsi_ranged; meet.
Qed.
Example cci_real_case := cci_real highs lows closes 20 4 ltac:(lia) ltac:(intros i Hi; apply typical_moves; lia).
Example trix_real_case := trix_real closes 20 4 ltac:(lia) ltac:(lia) ltac:(intros i Hi; apply Rgt_not_eq, Rlt_le_trans with 1; [lra|ge1]).
Example pgo_real_case := pgo_real highs lows closes 20 4 ltac:(lia) ltac:(intros k Hk; apply Rlt_le, bar_open) ltac:(intros i Hi; apply Rgt_not_eq, Rlt_le_trans with 1; [lra|ge1]).
Example relative_vigor_real_case := relative_vigor_real opens highs lows closes 20 4 ltac:(lia) ltac:(lia) ltac:(intros i Hi; apply span_mean; lia).
Example rainbow_real_case := rainbow_real closes 20 2 4 ltac:(lia) ltac:(lia) ltac:(lia) ltac:(lia) ltac:(small).
Example adx_real_case := adx_real highs lows closes 20 3 4 ltac:(lia) ltac:(lia) ltac:(lia) (fun k _ => bar_ordered k) ltac:(intros i Hi; apply di_pos; lia).
Example di_range_case := di_range highs lows closes 3 8 ltac:(lia) (fun k _ => bar_ordered k) (proj1 (di_pos 3 8 ltac:(lia))).
Example adx_range_case := adx_range highs lows closes 3 3 8 ltac:(lia) ltac:(lia) ltac:(lia) (fun k _ => bar_ordered k) ltac:(intros i Hi; apply di_pos; lia).
Example adx_ranged_case : exists o, adx (xseries highs 20) (xseries lows 20) (xseries closes 20) 3 4 = Ok o /\
  ranged (map (fun '(x, _, _) => x) o) 0 100 /\ ranged (map (fun '(_, x, _) => x) o) 0 100 /\ ranged (map (fun '(_, _, x) => x) o) 0 100.
Proof.
  destruct adx_real_case as (o & E & _). exists o. split; [exact E|]. refine (adx_ranged highs lows closes 20 3 4 o _ _ _ _ _ E); [lia|lia|lia|intros; apply bar_ordered|intros i Hi; apply di_pos; lia].
Qed.
(** The states of psar on the bars. *)
Definition sar_states (i : nat) : R * bool * R * R :=
  nat_rect (fun _ => (R * bool * R * R)%type) (0.02, false, highs 0, lows 0)
    (fun j st => sar_next 0.02 0.2 (highs (j - 1)) (highs (S j)) (lows (j - 1)) (lows (S j)) st) i.
Example psar_af_case := psar_af sar_states highs lows 0.02 0.2 8 ltac:(lra) ltac:(reflexivity) ltac:(reflexivity).
Example psar_ep_case := psar_ep sar_states highs lows 0.02 0.2 8 ltac:(reflexivity) ltac:(reflexivity) 8 ltac:(lia) ltac:(intros j Hj; replace j with 8%nat by lia; reflexivity).
Example psar_outside_case : exists o r, psar (xseries highs 20) (xseries lows 20) None None = Ok o /\ nth_error o 15 = Some (Fin r) /\ (r <= lows 15 \/ highs 15 <= r).
Proof.
  destruct (psar_real highs lows 20 None None ltac:(lia)) as (o & st & E & (_ & _ & A) & _). exists o. eexists. split; [exact E|]. pose proof (A 15%nat ltac:(lia)) as A1. split; [exact A1|].
  exact (psar_outside highs lows 20 None None o 15 _ ltac:(lia) E A1).
Qed.
Example psar_ranged_case : exists o, psar (xseries highs 20) (xseries lows 20) None None = Ok o /\ ranged o 9 39.
Proof.
  destruct psar_outside_case as (o & r & E & _). exists o. split; [exact E|]. revert E. apply (psar_ranged highs lows 20 None None); cbn; [lia|lra|lra|]. intros k Hk. destruct (bar_bounded k ltac:(lia)). lra.
Qed.
Example supertrend_ratchet_case := supertrend_ratchet (fun _ => 9) (fun _ => 39) (fun _ => 9) (fun _ => 39) closes 8
  ltac:(cbv beta; destruct (Rltb _ _); [now rewrite Rmax_left by lra|reflexivity]) ltac:(cbv beta; destruct (Rltb _ _); [now rewrite Rmin_left by lra|reflexivity]).
Example atr_stop_ratchet_case := atr_stop_ratchet (fun i => if (i <=? 8)%nat then 17 else 18) closes (fun _ => 0) (fun _ => true) 8 ltac:(lra)
  ltac:(cbn -[Rleb closes]; replace (closes 8) with 18 by (unfold closes; cbn; lra); rewrite Rmax_right by lra; rewrite (proj2 (Rleb_true _ _)) by lra; split; [reflexivity|lra]).
Example latest_high_unique_case := latest_high_unique 2 closes 15 0 0 ltac:(split; [lia|split; [intros [|[|[|d]]] Hd; [| | |lia]; unfold closes; cbn; lra|intros; lia]])
  ltac:(split; [lia|split; [intros [|[|[|d]]] Hd; [| | |lia]; unfold closes; cbn; lra|intros; lia]]).
Example zigzag_real_case := zigzag_real highs lows 24 (Some 50) ltac:(lia) ltac:(cbn; lra)
  ltac:(intros k Hk; unfold highs, lows; pose proof (closes_ge k); lra)
  ltac:(intros k Hk; cbn [unwrap_or]; unfold highs, lows; pose proof (closes_ge k) as C; replace (closes k + 2 - (closes k - 1)) with 3 by lra;
        apply Rmult_lt_reg_r with (closes k - 1); [lra|]; unfold Rdiv; rewrite !Rmult_assoc, Rinv_l by lra; lra).
Example zigzag_values_case : exists o, zigzag (xseries highs 24) (xseries lows 24) (Some (Fin 50)) = Ok o /\ length o = 24%nat.
Proof. destruct zigzag_real_case as (kd & la & E & _). eexists. split; [exact E|]. exact (proj1 (zigzag_values (fun k => Fin (highs k)) (fun k => Fin (lows k)) 24 _ _ E)). Qed.
Example decay_props_case := decay_props closes 3 (fun i => nat_rect (fun _ => R) 0 (fun j y => Rmax (Rmax (y - 1 / INR 3) (closes j)) 0) i) 8 ltac:(lia) ltac:(reflexivity).
Lemma even_step k : Nat.even (S k) = negb (Nat.even k).
Proof. now rewrite Nat.even_succ, <- Nat.negb_even. Qed.
Lemma sums_differ i : (3 <= i)%nat -> Rsum (last_bars 3 closes (i - 1)) <> Rsum (last_bars 3 lows i).
Proof.
  intros Hi. do 3 (destruct i as [|i]; [lia|]). unfold last_bars. replace (S (S (S i)) - 1 + 1 - 3)%nat with i by lia. replace (S (S (S i)) + 1 - 3)%nat with (S i) by lia. cbn [seq map]. rewrite !Rsum_cons, !Rsum_nil. unfold lows.
  pose proof (closes_step i) as A. pose proof (closes_step (S i)) as B. pose proof (closes_step (S (S i))) as C. rewrite !even_step in *. destruct (Nat.even i); cbn [negb] in *; lra.
Qed.
Lemma sums_differ_now i : (2 <= i)%nat -> Rsum (last_bars 3 closes i) <> Rsum (last_bars 3 lows i).
Proof. intros Hi. unfold last_bars. cbn [seq map]. rewrite !Rsum_cons, !Rsum_nil. unfold lows. lra. Qed.
Example shinohara_real_case := shinohara_real highs lows closes 20 3 ltac:(lia) ltac:(intros i Hi; apply sums_differ; lia) ltac:(intros i Hi; apply sums_differ_now; lia).
Example rescaled_pos_case := rescaled_pos [1; 2; 4] ltac:(cbn; lia) ltac:(unfold mean; cbn; lra).
Example ad_flat_bar_case := ad_flat_bar (fun k => if (k =? 8)%nat then closes k else highs k) (fun k => if (k =? 8)%nat then closes k else lows k) closes volumes 20 None 8
  ltac:(reflexivity) ltac:(lia) ltac:(reflexivity) ltac:(reflexivity).
Example kama_real_case := kama_real closes 20 4 None None ltac:(lia) ltac:(intros i Hi; apply Rgt_not_eq, path_pos; lia).
Example kama_gain_unit_case := kama_gain_unit 3 3 3 closes 8 ltac:(lia) ltac:(lia) ltac:(lia) (Rgt_not_eq _ _ (path_pos 3 8 ltac:(lia))).
Example kama_inside_case : exists o y, kama (xseries closes 20) 4 None None = Ok o /\ nth_error o 15 = Some (Fin y) /\ 0 <= y <= 37.
Proof.
  destruct kama_real_case as (o & E & _). destruct (kama_inside closes 20 4 None None o 15 0 37) as (y & Y1 & Y2); [lia|cbn; lia|cbn; lia|intros i Hi; apply Rgt_not_eq, path_pos; lia|lra|small|exact E|lia|]. eauto.
Qed.
Example vma_real_case := vma_real closes 20 4 ltac:(intros i Hi; apply moves_pos; lia).
Example vma_gain_unit_case := vma_gain_unit 3 closes 12 ltac:(lia) ltac:(apply moves_pos; lia).
Example vma_inside_case : exists o y, vma (xseries closes 20) 4 = Ok o /\ nth_error o 15 = Some (Fin y) /\ 0 <= y <= 37.
Proof.
  destruct vma_real_case as (o & E & _). destruct (vma_inside closes 20 4 o 15 0 37) as (y & Y1 & Y2); [lia|intros i Hi; apply moves_pos; lia|lra|small|exact E|lia|]. eauto.
Qed.
Ltac varied := intros i Hi; apply (window_varied _ closes i (i - 1)); [lia|lia|lia|replace (S (i - 1)) with (S (i - 1)) by lia; apply closes_ne].
Example frama_real_case := frama_real closes 20 2 ltac:(lia) ltac:(small) ltac:(varied).
Example frama_inside_case : exists o y, frama (xseries closes 20) 4 = Ok (Some o) /\ nth_error o 15 = Some (Fin y) /\ 0 <= y <= 37.
Proof.
  destruct frama_real_case as (o & E & _). destruct (frama_inside closes 20 2 o 15 0 37) as (y & Y1 & Y2); [lia|small|varied|lra|small|exact E|lia|]. eauto.
Qed.
Example adaptive_inside_case := adaptive_inside (fun _ => 1 / 3) closes 3 15 0 37 ltac:(lia) ltac:(lra) ltac:(intros j Hj; split; [lra|small]).
Example mdma_real_case := mdma_real (fun k => 10 + INR k) 20 5 ltac:(lia) ltac:(lia) ltac:(intros k Hk; pose proof (pos_INR k); lra) ltac:(intros k Hk; pose proof (stairs_pos k); lra).
Example ssf2_const_case := ssf2_const (1/2) (1/4) (1/4) 7 (fun _ => 7) ltac:(lra) ltac:(repeat split; intros; lra).
Example ssf3_const_case := ssf3_const (1/4) (1/4) (1/4) (1/4) 7 (fun _ => 7) ltac:(lra) ltac:(repeat split; intros; lra).
Example mad_below_std_dev_case : exists o o' x y, mad (map Fin (quotes 20)) 3 = Ok o /\ std_dev (map Fin (quotes 20)) 3 = Ok o' /\ nth_error o 8 = Some (Fin x) /\ nth_error o' 8 = Some (Fin y) /\ x <= y.
Proof.
  destruct (mad_real (quotes 20) 3 ltac:(lia)) as (o & E & _ & _ & A). destruct (std_dev_real (quotes 20) 3 ltac:(lia)) as (o' & E' & _ & _ & A').
  pose proof (A 8%nat ltac:(unfold quotes; rewrite map_length, seq_length; lia)) as B. pose proof (A' 8%nat ltac:(unfold quotes; rewrite map_length, seq_length; lia)) as B'.
  do 4 eexists. split; [exact E|]. split; [exact E'|]. split; [exact B|]. split; [exact B'|]. exact (mad_below_std_dev (quotes 20) 3 o o' 8 _ _ ltac:(lia) E E' B B').
Qed.
(** *** Functions whose output is known to exist from another theorem *)
Lemma ok_of_outcome {A} (r : result (list A)) bad n : outcome r bad n -> ~ bad -> exists o, r = Ok o.
Proof. intros [[H _]|[_ (o & E & _)]] Hn; [contradiction|eauto]. Qed.
Lemma both_ok {A B} (r1 : result A) (r2 : result B) (P : A -> B -> Prop) : (exists o, r1 = Ok o) -> (exists o, r2 = Ok o) ->
  (forall o1 o2, r1 = Ok o1 -> r2 = Ok o2 -> P o1 o2) -> exists o1 o2, r1 = Ok o1 /\ r2 = Ok o2 /\ P o1 o2.
Proof. intros [o1 E1] [o2 E2] H. exists o1, o2. auto. Qed.
Lemma prefix_quotes a b : prefix (map Fin (quotes a)) (map Fin (quotes (a + b))).
Proof. exists (map Fin (map closes (seq a b))). unfold quotes. now rewrite seq_app, !map_app. Qed.
Definition argsort_R (l : list R) : sorts (stable_argsort (map Fin l)) (map Fin l) := stable_argsort_sorts _ (comparable_R l).

Example srcc_real_case := srcc_real stable_argsort (quotes 20) (map volumes (seq 0 20)) 5 ltac:(lia) argsort_R.
Example hoeffd_real_case := hoeffd_real stable_argsort (quotes 20) (map volumes (seq 0 20)) 5 ltac:(lia) ltac:(reflexivity) argsort_R.
Example srcc_outcome_case := @srcc_outcome xr XR stable_argsort (@stable_argsort_sorts xr XR) (map Fin (quotes 20)) (map Fin (quotes 20)) 5 (comparable_R _) (comparable_R _).
Example hoeffd_outcome_case := @hoeffd_outcome xr XR stable_argsort (@stable_argsort_sorts xr XR) (map Fin (quotes 20)) (map Fin (quotes 20)) 5 (comparable_R _) (comparable_R _).
Example srcc_ranged_case : exists o, srcc stable_argsort (map Fin (quotes 20)) (map Fin (map volumes (seq 0 20))) 5 = Ok o /\ ranged o (-1) 1.
Proof. destruct srcc_real_case as (o & E & _). exists o. split; [exact E|]. exact (srcc_ranged stable_argsort _ _ 5 o ltac:(lia) argsort_R E). Qed.
Example srcc_monotone_case := srcc_monotone stable_argsort (quotes 20) (map volumes (seq 0 20)) 5 (fun x => 2 * x + 1) ltac:(lia) argsort_R ltac:(intros; lra).
Example srcc_causal_case : exists o1 o2, srcc stable_argsort (map Fin (quotes 20)) (map Fin (quotes 20)) 5 = Ok o1 /\ srcc stable_argsort (map Fin (quotes 30)) (map Fin (quotes 30)) 5 = Ok o2 /\ prefix o1 o2.
Proof.
  apply both_ok.
  - destruct (srcc_real stable_argsort (quotes 20) (quotes 20) 5 ltac:(lia) argsort_R) as (o & E & _). eauto.
  - destruct (srcc_real stable_argsort (quotes 30) (quotes 30) 5 ltac:(lia) argsort_R) as (o & E & _). eauto.
  - intros o1 o2. exact (srcc_causal stable_argsort 5 _ _ _ _ o1 o2 (prefix_quotes 20 10) (prefix_quotes 20 10)).
Qed.
Example hoeffd_causal_case : exists o1 o2, hoeffd stable_argsort (map Fin (quotes 20)) (map Fin (quotes 20)) 5 = Ok o1 /\ hoeffd stable_argsort (map Fin (quotes 30)) (map Fin (quotes 30)) 5 = Ok o2 /\ prefix o1 o2.
Proof.
  apply both_ok.
  - destruct (hoeffd_real stable_argsort (quotes 20) (quotes 20) 5 ltac:(lia) ltac:(reflexivity) argsort_R) as (o & E & _). eauto.
  - destruct (hoeffd_real stable_argsort (quotes 30) (quotes 30) 5 ltac:(lia) ltac:(reflexivity) argsort_R) as (o & E & _). eauto.
  - intros o1 o2. exact (hoeffd_causal stable_argsort 5 _ _ _ _ o1 o2 (prefix_quotes 20 10) (prefix_quotes 20 10)).
Qed.
Example srcc_warm_case : exists o, srcc stable_argsort (map Fin (quotes 20)) (map Fin (quotes 20)) 5 = Ok o /\ warm o 4 NaN.
Proof. destruct srcc_causal_case as (o & _ & E & _). exists o. split; [exact E|]. exact (srcc_warm _ _ _ 5 o E). Qed.
Example hoeffd_warm_case : exists o, hoeffd stable_argsort (map Fin (quotes 20)) (map Fin (quotes 20)) 5 = Ok o /\ warm o 4 NaN.
Proof. destruct hoeffd_causal_case as (o & _ & E & _). exists o. split; [exact E|]. exact (hoeffd_warm _ _ _ 5 o E). Qed.
Example rank_min_case := @rank_min xr XR stable_argsort (map Fin (quotes 20)) (comparable_R _) (argsort_R _) ltac:(discriminate).
Example rank_max_case := @rank_max xr XR stable_argsort (map Fin (quotes 20)) (comparable_R _) (argsort_R _) ltac:(discriminate).
Example rank_average_case := @rank_average xr XR stable_argsort (map Fin (quotes 20)) (comparable_R _) (argsort_R _) ltac:(discriminate).
Example rank_dense_case := @rank_dense xr XR stable_argsort (map Fin (quotes 20)) (comparable_R _) (argsort_R _) ltac:(discriminate) ltac:(reflexivity).
Example rank_ordinal_case := @rank_ordinal xr XR stable_argsort (map Fin (quotes 20)) (comparable_R _) (argsort_R _).
Example rank_empty_case {F} {FO : FOps F} := @rank_empty F FO stable_argsort (Some RMin) ltac:(reflexivity) ltac:(discriminate).
Lemma ranks_124 : min_ranks [1; 2; 4] = [1; 2; 3].
Proof.
  unfold min_ranks, min_rank, count. cbn [map filter length]. rewrite !(proj2 (Rltb_false 1 1)), !(proj2 (Rltb_false 2 1)), !(proj2 (Rltb_false 4 1)), !(proj2 (Rltb_true 1 2)), !(proj2 (Rltb_false 2 2)), !(proj2 (Rltb_false 4 2)), !(proj2 (Rltb_true 1 4)), !(proj2 (Rltb_true 2 4)), !(proj2 (Rltb_false 4 4)) by lra.
  cbn. repeat (f_equal; try lra).
Qed.
Example spearman_monotone_case := spearman_monotone (fun x => 2 * x + 1) [1; 2; 4] ltac:(discriminate) ltac:(rewrite ranks_124; unfold var, mean; cbn; lra) ltac:(intros; lra).
Example tau_b_monotone_case := tau_b_monotone [1; 4; 2] [3; 5; 4] ltac:(cbn; lia)
  ltac:(cbn [length]; intros [|[|[|i]]] [|[|[|j]]] H; try lia; cbn; lra).

Example quantile_causal_case : exists o1 o2, quantile (map Fin (quotes 20)) 5 (Fin 30) = Ok o1 /\ quantile (map Fin (quotes 30)) 5 (Fin 30) = Ok o2 /\ prefix o1 o2.
Proof.
  apply both_ok.
  - destruct (quantile_real (quotes 20) 5 30 ltac:(lia) ltac:(cbn; lia)) as (o & E & _). eauto.
  - destruct (quantile_real (quotes 30) 5 30 ltac:(lia) ltac:(cbn; lia)) as (o & E & _). eauto.
  - intros o1 o2. exact (quantile_causal 5 _ _ _ o1 o2 (prefix_quotes 20 10)).
Qed.
Example quantile_warm_case : exists o, quantile (map Fin (quotes 20)) 5 (Fin 30) = Ok o /\ warm o 4 NaN.
Proof. destruct quantile_causal_case as (o & _ & E & _). exists o. split; [exact E|]. exact (quantile_warm _ 5 _ o E). Qed.
Example median_causal_case : exists o1 o2, median (map Fin (quotes 20)) 5 = Ok o1 /\ median (map Fin (quotes 30)) 5 = Ok o2 /\ prefix o1 o2.
Proof.
  apply both_ok.
  - destruct (median_real (quotes 20) 5 ltac:(lia) ltac:(cbn; lia)) as (o & E & _). eauto.
  - destruct (median_real (quotes 30) 5 ltac:(lia) ltac:(cbn; lia)) as (o & E & _). eauto.
  - intros o1 o2. exact (median_causal 5 _ _ o1 o2 (prefix_quotes 20 10)).
Qed.
Example median_warm_case : exists o, median (map Fin (quotes 20)) 5 = Ok o /\ warm o 4 NaN.
Proof. destruct median_causal_case as (o & _ & E & _). exists o. split; [exact E|]. exact (median_warm _ 5 o E). Qed.
Section AnyNumbers.
  Context {F : Type} {FO : FOps F}.
  Notation d20 := (@ramp F FO 20).
  Notation d30 := (@ramp F FO 30).
  Lemma length_ramp n : length (@ramp F FO n) = n.
  Proof. unfold ramp. now rewrite map_length, seq_length. Qed.
  Ltac ok := eapply ok_of_outcome; [solve [eauto using approx_entropy_small, sample_entropy_small]|].
  Lemma apen_ok n t : (0 < n)%nat -> exists o, approx_entropy (@ramp F FO n) 10 None t = Ok o.
  Proof. intros Hn. refine (ok_of_outcome _ _ _ (approx_entropy_small _ 10 None t _ _ _) (fun x => x)); cbn; [|lia|lia]. intros E. apply (f_equal (@length F)) in E. rewrite length_ramp in E. cbn in E. lia. Qed.
  Lemma sampen_ok n t : (0 < n)%nat -> exists o, sample_entropy (@ramp F FO n) 10 None t = Ok o.
  Proof. intros Hn. refine (ok_of_outcome _ _ _ (sample_entropy_small _ 10 None t _ _ _) (fun x => x)); cbn; [|lia|lia]. intros E. apply (f_equal (@length F)) in E. rewrite length_ramp in E. cbn in E. lia. Qed.
  Example approx_entropy_causal_case t : exists o1 o2, approx_entropy d20 10 None (Some t) = Ok o1 /\ approx_entropy d30 10 None (Some t) = Ok o2 /\ prefix o1 o2.
  Proof. apply both_ok; [apply apen_ok; lia|apply apen_ok; lia|]. intros o1 o2. exact (approx_entropy_causal 10 None t _ _ o1 o2 (prefix_ramp 20 10)). Qed.
  Example sample_entropy_causal_case t : exists o1 o2, sample_entropy d20 10 None (Some t) = Ok o1 /\ sample_entropy d30 10 None (Some t) = Ok o2 /\ prefix o1 o2.
  Proof. apply both_ok; [apply sampen_ok; lia|apply sampen_ok; lia|]. intros o1 o2. exact (sample_entropy_causal 10 None t _ _ o1 o2 (prefix_ramp 20 10)). Qed.
  Example approx_entropy_warm_case t : exists o, approx_entropy d20 10 None t = Ok o /\ warm o 9 fnan.
  Proof. destruct (apen_ok 20 t ltac:(lia)) as [o E]. exists o. split; [exact E|]. exact (approx_entropy_warm _ 10 None t o E). Qed.
  Example sample_entropy_warm_case t : exists o, sample_entropy d20 10 None t = Ok o /\ warm o 9 fnan.
  Proof. destruct (sampen_ok 20 t ltac:(lia)) as [o E]. exists o. split; [exact E|]. exact (sample_entropy_warm _ 10 None t o E). Qed.
  Example crsi_causal_case := crsi_causal 3 2 5 d20 d30 (prefix_ramp 20 10).
  Example si_causal_case limit := si_causal limit d20 d30 d20 d30 d20 d30 d20 d30 (prefix_ramp 20 10) (prefix_ramp 20 10) (prefix_ramp 20 10) (prefix_ramp 20 10).
  Example asi_causal_case limit := asi_causal limit d20 d30 d20 d30 d20 d30 d20 d30 (prefix_ramp 20 10) (prefix_ramp 20 10) (prefix_ramp 20 10) (prefix_ramp 20 10).
  Example stc_causal_case := stc_causal 3 2 5 d20 d30 (prefix_ramp 20 10).
  Lemma stc_ok : exists o, stc d20 3 2 5 = Ok o.
  Proof. refine (ok_of_outcome _ _ _ (stc_outcome _ 3 2 5) _). rewrite length_ramp. lia. Qed.
  Example stc_warm_case : exists o, stc d20 3 2 5 = Ok o /\ warm o 10 fnan.
  Proof. destruct stc_ok as [o E]. exists o. split; [exact E|]. exact (stc_warm d20 3 2 5 o E). Qed.
  Lemma rainbow_ok n : (20 <= n)%nat -> exists o, rainbow (@ramp F FO n) 2 3 = Ok o.
  Proof. intros Hn. refine (ok_of_outcome _ _ _ (rainbow_outcome _ 2 3) _). rewrite length_ramp. lia. Qed.
  Example rainbow_causal_case : exists o1 o2, rainbow d20 2 3 = Ok o1 /\ rainbow d30 2 3 = Ok o2 /\ prefix o1 o2.
  Proof. apply both_ok; [apply rainbow_ok; lia|apply rainbow_ok; lia|]. intros o1 o2. exact (rainbow_causal 2 3 _ _ o1 o2 (prefix_ramp 20 10)). Qed.
  Example rainbow_at_panic_case := rainbow_at_panic d20 [d20; d30] 3 8 ltac:(rewrite length_ramp; lia) ltac:(intros s [<-|[<-|[]]]; rewrite length_ramp; lia).
  Lemma qqe_ok n : (20 <= n)%nat -> exists o, qqe (@ramp F FO n) 3 2 = Ok o.
  Proof. intros Hn. refine (ok_of_outcome _ _ _ (qqe_outcome _ 3 2) _). rewrite length_ramp. lia. Qed.
  Example qqe_causal_case : exists o1 o2, qqe d20 3 2 = Ok o1 /\ qqe d30 3 2 = Ok o2 /\ prefix o1 o2.
  Proof. apply both_ok; [apply qqe_ok; lia|apply qqe_ok; lia|]. intros o1 o2. exact (qqe_causal 3 2 _ _ o1 o2 (prefix_ramp 20 10)). Qed.
  Example supertrend_causal_case mult := supertrend_causal 3 mult d20 d30 d20 d30 d20 d30 (prefix_ramp 20 10) (prefix_ramp 20 10) (prefix_ramp 20 10).
  Example zigzag_empty_case dist := zigzag_empty [] d20 dist ltac:(now left).
  Example hull_causal_case := hull_causal 9 d20 d30 (prefix_ramp 20 10).
  Example kernel_causal_case s := kernel_causal s d20 d30 (prefix_ramp 20 10).
  Example alma_causal_case s mu := alma_causal 5 s mu d20 d30 (prefix_ramp 20 10).
  Example t3_causal_case f := t3_causal 3 f d20 d30 (prefix_ramp 20 10).
  Example ma_causal_case mode := ma_causal 5 mode d20 d30 (prefix_ramp 20 10).
  Example tvi_causal_case tick := tvi_causal tick d20 d30 d20 d30 (prefix_ramp 20 10) (prefix_ramp 20 10).
End AnyNumbers.
Section AnyNumbers2.
  Context {F : Type} {FO : FOps F}.
  Notation d20 := (@ramp F FO 20).
  Notation d30 := (@ramp F FO 30).
  Notation p := (prefix_ramp 20 10).
  Lemma vwap_ok n : exists o, let d := @ramp F FO n in vwap d d d d (Some [5; 11]%nat) = Ok o.
  Proof. refine (ok_of_outcome _ _ _ (vwap_outcome _ _ _ _ (Some [5; 11]%nat)) _). intros [E _]. discriminate. Qed.
  Example vwap_causal_case : exists o1 o2, vwap d20 d20 d20 d20 (Some [5; 11]%nat) = Ok o1 /\ vwap d30 d30 d30 d30 (Some [5; 11]%nat) = Ok o2 /\ prefix o1 o2.
  Proof. apply both_ok; [apply vwap_ok|apply vwap_ok|]. intros o1 o2. exact (vwap_causal [5; 11]%nat _ _ _ _ _ _ _ _ o1 o2 p p p p). Qed.
  Lemma frama_ok n : (4 <= n)%nat -> exists o, frama (@ramp F FO n) 4 = Ok (Some o).
  Proof. intros Hn. destruct (frama_outcome (@ramp F FO n) 4) as [[H _]|[[H _]|(_ & _ & o & E & _)]]; [discriminate|discriminate|eauto]. Qed.
  Example frama_warm_case : exists o, frama d20 4 = Ok (Some o) /\ warm o 3 fnan.
  Proof. destruct (frama_ok 20 ltac:(lia)) as [o E]. exists o. split; [exact E|]. exact (frama_warm d20 4 o E). Qed.
  Example frama_causal_case : exists o1 o2, frama d20 4 = Ok (Some o1) /\ frama d30 4 = Ok (Some o2) /\ prefix o1 o2.
  Proof. destruct (frama_ok 20 ltac:(lia)) as [o E]. destruct (frama_causal 4 _ _ o p E) as (o2 & E2 & P). exists o, o2. auto. Qed.
  Example kst_causal_case : exists o1 o2, kst d20 (Some (2, 3, 4, 5)%nat) (Some (2, 2, 2, 3)%nat) = Ok o1 /\ kst d30 (Some (2, 3, 4, 5)%nat) (Some (2, 2, 2, 3)%nat) = Ok o2 /\ prefix o1 o2.
  Proof.
    apply both_ok.
    - refine (ok_of_outcome _ _ _ (kst_outcome _ _ _) _). rewrite length_ramp. unfold kst_bad. cbn. intros [H|(t & [<-|[<-|[<-|[<-|[]]]]] & T)]; try lia; unfold term_bad in T; cbn in T; lia.
    - refine (ok_of_outcome _ _ _ (kst_outcome _ _ _) _). rewrite length_ramp. unfold kst_bad. cbn. intros [H|(t & [<-|[<-|[<-|[<-|[]]]]] & T)]; try lia; unfold term_bad in T; cbn in T; lia.
    - intros o1 o2 E1 E2. refine (kst_causal d20 d30 _ _ o1 o2 p E1 E2 _). intros r q m. cbn. intros [H|[H|[H|[H|[]]]]]; injection H; intros; lia.
  Qed.
End AnyNumbers2.
Section AnyNaN.
  Context {F : Type} {FO : FOps F} {N : FNan FO}.
  Lemma t3_ok : exists o, t3 (@ramp F FO 20) 3 None = Ok o.
  Proof. refine (ok_of_outcome _ _ _ (t3_outcome _ 3 None) _). rewrite length_ramp. lia. Qed.
  Example t3_warm_case : exists o, t3 (@ramp F FO 20) 3 None = Ok o /\ warm o 12 fnan.
  Proof. destruct t3_ok as [o E]. exists o. split; [exact E|]. exact (t3_warm _ 3 None o E). Qed.
  (** Prices with one NaN, and prices that stand still for a while. *)
  Definition holed (k : nat) : F := if (k =? 8)%nat then fnan else fofnat k.
  Definition still (k : nat) : F := if (k <=? 12)%nat then fofnat 7 else fofnat k.
  Lemma still_flat k : (k <= 12)%nat -> still k = still 12.
  Proof. intros H. unfold still. now rewrite (proj2 (Nat.leb_le k 12) H). Qed.
  Example kama_flat_forever_case := Poison.kama_flat_forever still 20 5 None None 12 ltac:(lia) ltac:(lia) ltac:(intros k Hk; apply still_flat; lia).
  Example vma_flat_forever_case := Poison.vma_flat_forever still 20 5 12 ltac:(lia) ltac:(intros k Hk; apply still_flat; lia).
  Example ewma_nan_forever_case := Poison.ewma_nan_forever holed 20 3 8 ltac:(lia) ltac:(lia) eq_refl.
  Example wilder_nan_forever_case := Poison.wilder_nan_forever holed 20 3 8 ltac:(lia) ltac:(lia) eq_refl.
  Example sma_nan_case := Poison.sma_nan holed 20 3 9 8 ltac:(lia) ltac:(lia) ltac:(lia) eq_refl.
  Example wma_nan_case := Poison.wma_nan holed 20 3 9 8 ltac:(lia) ltac:(reflexivity) ltac:(lia) ltac:(lia) eq_refl.
  Example pwma_nan_case := Poison.pwma_nan holed 20 3 9 8 ltac:(lia) ltac:(lia) ltac:(lia) eq_refl.
  Example fwma_nan_case := Poison.fwma_nan holed 20 3 9 8 ltac:(lia) ltac:(lia) ltac:(lia) eq_refl.
End AnyNaN.
Example mama_nan_panics_case := Poison.mama_nan_panics (@holed xr XR) 20 None None 8 ltac:(lia) ltac:(lia) eq_refl eq_refl.
Example frama_flat_forever_case : exists o, frama (series (fun k => if (k <=? 12)%nat then Fin 7 else Fin (closes k)) 20) 4 = Ok (Some o) /\ forall i, (12 <= i < 20)%nat -> nth_error o i = Some fnan.
Proof.
  assert (M : 7 <= IZR (2 ^ 1024 - 2 ^ 971)) by (apply IZR_le; now vm_compute). assert (M' : IZR (- (2 ^ 1024 - 2 ^ 971)) <= 7) by (apply IZR_le; now vm_compute).
  apply (frama_flat_forever (fun k => if (k <=? 12)%nat then Fin 7 else Fin (closes k)) 20 4 12); [lia|reflexivity|lia|..]; cbn [Nat.leb].
  - intros k Hk. now rewrite (proj2 (Nat.leb_le k 12)) by lia.
  - change fminval with (Fin (IZR (- (2 ^ 1024 - 2 ^ 971)))). rewrite x_max. f_equal. now apply Rmax_right.
  - change fmaxval with (Fin (IZR (2 ^ 1024 - 2 ^ 971))). rewrite x_min. f_equal. now apply Rmin_right.
  - rewrite x_sub, x_lit. f_equal. lra.
  - rewrite x_lit. cbn. rewrite (proj2 (Req_true 0 0)), (proj2 (Rltb_false 0 0)) by lra. reflexivity.
  - reflexivity.
Qed.
Example hull_warm_case : exists o, hull (map Fin (quotes 20)) 9 = Ok o /\ warm o 10 NaN.
Proof.
  destruct (hull_real (quotes 20) 9 ltac:(lia) ltac:(reflexivity) ltac:(cbn; lia)) as (o & E & L & W & _). exists o. split; [exact E|]. pose proof (hull_warm (map Fin (quotes 20)) 9 o E) as H.
  replace (N.to_nat (ftoN (ffloor (fsqrt (fofnat 9 : xr))))) with 3%nat in H; [exact H|]. symmetry. apply x_fsqrtN. reflexivity.
Qed.
Example tii_warm_any_case := @tii_warm_any xr XR XR_nan (map Fin (quotes 20)) 5 _ ltac:(rewrite !x_lit, x_mul; f_equal; lra) eq_refl.
Example fisher_outcome_case := @fisher_outcome xr XR (map Fin (quotes 20)) (map Fin (quotes 20)) 3 ltac:(unfold fisher_bounds_ok; rewrite !x_frac, x_leb; apply Rleb_true; lra).
Example fisher_causal_case : exists o1 o2, fisher (map Fin (quotes 20)) (map Fin (quotes 20)) 3 = Ok o1 /\ fisher (map Fin (quotes 30)) (map Fin (quotes 30)) 3 = Ok o2 /\ prefix o1 o2.
Proof.
  assert (B : @fisher_bounds_ok xr XR) by (unfold fisher_bounds_ok; rewrite !x_frac, x_leb; apply Rleb_true; lra).
  apply both_ok; [exact (ok_of_outcome _ _ _ (fisher_outcome _ _ 3 B) ltac:(lia))|exact (ok_of_outcome _ _ _ (fisher_outcome _ _ 3 B) ltac:(lia))|].
  intros o1 o2. exact (fisher_causal 3 _ _ _ _ o1 o2 (prefix_quotes 20 10) (prefix_quotes 20 10)).
Qed.
Example fisher_warm_case : exists o, fisher (map Fin (quotes 20)) (map Fin (quotes 20)) 3 = Ok o /\ warm o 2 NaN.
Proof. destruct fisher_causal_case as (o & _ & E & _). exists o. split; [exact E|]. exact (fisher_warm _ _ 3 o E). Qed.
Lemma xquotes n : map Fin (quotes n) = xseries closes n.
Proof. unfold quotes, xseries, series. now rewrite map_map. Qed.
Example mama_causal_case : exists o1 o2, mama (xseries closes 20) None None = Ok o1 /\ mama (xseries closes 30) None None = Ok o2 /\ prefix o1 o2.
Proof.
  apply both_ok.
  - destruct (mama_real closes 20 None None) as (o & ? & ? & ? & ? & ? & ? & ? & ? & ? & ? & ? & ? & E & _). eauto.
  - destruct (mama_real closes 30 None None) as (o & ? & ? & ? & ? & ? & ? & ? & ? & ? & ? & ? & ? & E & _). eauto.
  - intros o1 o2. rewrite <- !xquotes. exact (mama_causal None None _ _ o1 o2 (prefix_quotes 20 10)).
Qed.
Example mama_slow_ignored_case := mama_slow_ignored closes 20 (Some 0.5) (Some 0.01) (Some 0.05) ltac:(cbn; lra)
  ltac:(cbn; pose proof PI_4; pose proof PI_RGT_0; apply Rmult_le_reg_r with PI; [lra|]; unfold Rdiv; rewrite Rmult_assoc, Rinv_l; lra)
  ltac:(cbn; pose proof PI_4; pose proof PI_RGT_0; apply Rmult_le_reg_r with PI; [lra|]; unfold Rdiv; rewrite Rmult_assoc, Rinv_l; lra).
Example mama_period_blind_case : exists pe : nat -> R, forall i, (6 <= i < 20)%nat -> 0 <= pe i <= 50.
Proof.
  destruct (mama_real closes 20 None None) as (o & dt & i1 & q1 & i2 & q2 & re & im & pe & ph & al & ma & fa & _ & _ & H). exists pe. intros i Hi. exact (proj1 (mama_period_blind _ _ _ _ _ _ _ _ _ _ _ _ _ _ _ _ H i Hi)).
Qed.
Lemma hurst_varied a : exists j k, (a <= j < a + 4)%nat /\ (a <= k < a + 4)%nat /\ closes j <> closes k.
Proof. exists (S a), a. split; [lia|]. split; [lia|]. apply closes_ne. Qed.
Example hurst_real_case := hurst_real closes 20 8 None ltac:(cbn; lia) ltac:(reflexivity)
  ltac:(intros k Hk; pose proof (closes_small k ltac:(lia)); pose proof (closes_ge k); pose proof max_f64_large; rewrite Rabs_right by lra; replace (INR 8) with 8 by (cbn; lra); lra) (fun a _ => hurst_varied a).
Example hurst_outcome_case : exists fuel sz r, hurst_sizes fuel 8 (flog10 (fofnat 4 : xr)) = Some sz /\ hurst fuel (xseries closes 20) 8 None = Some r /\
  outcome r (8 = 0 \/ (8 <= 20 /\ In 0%N sz))%nat 20.
Proof.
  destruct (hurst_sizes_real 4 8 ltac:(lia) ltac:(reflexivity)) as (K & _ & _ & _ & E). specialize (E (S K) ltac:(lia)). exists (S K). eexists. destruct (hurst_outcome (S K) (xseries closes 20) 8 None _ E) as (r & R1 & R2). exists r. split; [exact E|]. split; [exact R1|exact R2].
Qed.
Lemma hurst_ok : exists fuel o1 o2, hurst fuel (xseries closes 20) 8 None = Some (Ok o1) /\ hurst fuel (xseries closes 24) 8 None = Some (Ok o2).
Proof.
  destruct hurst_real_case as (K & _ & _ & _ & H).
  destruct (hurst_real closes 24 8 None ltac:(cbn; lia) ltac:(reflexivity)
    ltac:(intros k Hk; pose proof (closes_small k ltac:(lia)); pose proof (closes_ge k); pose proof max_f64_large; rewrite Rabs_right by lra; replace (INR 8) with 8 by (cbn; lra); lra) (fun a _ => hurst_varied a)) as (K' & _ & _ & _ & H').
  destruct (H (K + K' + 1)%nat ltac:(lia)) as (o & E & _). destruct (H' (K + K' + 1)%nat ltac:(lia)) as (o' & E' & _). exists (K + K' + 1)%nat, o, o'. split; [exact E|exact E'].
Qed.
Example hurst_causal_case : exists fuel o1 o2, hurst fuel (xseries closes 20) 8 None = Some (Ok o1) /\ hurst fuel (xseries closes 24) 8 None = Some (Ok o2) /\ prefix o1 o2.
Proof.
  destruct hurst_ok as (fuel & o1 & o2 & E1 & E2). exists fuel, o1, o2. split; [exact E1|]. split; [exact E2|]. refine (hurst_causal fuel 8 None _ _ _ _ _ E1 E2 o1 o2 eq_refl eq_refl). rewrite <- !xquotes. exact (prefix_quotes 20 4).
Qed.
Example hurst_warm_case : exists fuel o, hurst fuel (xseries closes 20) 8 None = Some (Ok o) /\ warm o 7 NaN.
Proof. destruct hurst_ok as (fuel & o & _ & E & _). exists fuel, o. split; [exact E|]. exact (hurst_warm fuel _ 8 None o E). Qed.
Example hurst_win_real_case := hurst_win_real [2; 3]%nat [1; 2; 4; 7; 11; 16] ltac:(intros x [<-|[<-|[]]]; cbn; lia)
  ltac:(pose proof max_f64_large; intros x c [<-|[<-|[]]]; cbn; intros Hc; repeat (destruct Hc as [<-|Hc]; [split; [unfold mean; cbn; lra|
    intros k Hk; unfold drift, mean; do 4 (destruct k as [|k]; [cbn; unfold Rabs; destruct (Rcase_abs _); lra|]); lia]|]); easy)
  ltac:(exists 2%nat, 3%nat; cbn; intuition lia).
Example inside_constant_case := inside_constant [Fin 7; Fin 7] 0 2 (fun _ => [7]) 7
  ltac:(intros [|[|i]] Hi; [exists 7; split; [reflexivity|]|exists 7; split; [reflexivity|]|lia]; unfold within; split; exists 7; (split; [now left|lra])) ltac:(intros i x Hi [<-|[]]; reflexivity) 1 ltac:(lia).
Example dema_constant_case := dema_constant (repeat 7 20) 3 7 ltac:(lia) ltac:(rewrite repeat_length; lia) ltac:(intros x Hx; now apply repeat_spec in Hx).
Example tema_constant_case := tema_constant (repeat 7 20) 3 7 ltac:(lia) ltac:(rewrite repeat_length; lia) ltac:(intros x Hx; now apply repeat_spec in Hx).
Example t3_constant_case := t3_constant (repeat 7 20) 3 None 7 ltac:(lia) ltac:(rewrite repeat_length; lia) ltac:(intros x Hx; now apply repeat_spec in Hx).
Example alma_weights_reversed_case := alma_weights_reversed 9 6 0.85 ltac:(lia) ltac:(lra) ltac:(lra).
Lemma spread_pos k : (4 <= k)%nat -> 0 < sd (last_bars 5 closes k).
Proof.
  intros Hk. unfold sd. apply sqrt_lt_R0. pose proof (var_nonneg (last_bars 5 closes k)) as [V|V]; [exact V|]. exfalso. symmetry in V. apply (proj1 (var_zero _ (last_bars_nonempty 5 closes k ltac:(lia)))) in V as [c V].
  apply (closes_ne (k + 1 - 5)). rewrite (V (closes (S (k + 1 - 5)))) by (unfold last_bars; cbn; tauto). rewrite (V (closes (k + 1 - 5))) by (unfold last_bars; cbn; tauto). reflexivity.
Qed.
Lemma vidya_open i : (23 <= i)%nat -> mean (last_bars 20 (fun k => sd (last_bars 5 closes k)) i) <> 0.
Proof.
  intros Hi. apply Rgt_not_eq. unfold mean. apply Rdiv_lt_0_compat; [|unfold last_bars; rewrite map_length, seq_length; cbn; lra]. apply Rsum_pos; [|apply last_bars_nonempty; lia].
  intros x Hx. unfold last_bars in Hx at 1. apply in_map_iff in Hx as (k & <- & Hk). apply in_seq in Hk. apply spread_pos. lia.
Qed.
Lemma modes_ok mode : mode_ok mode 7 closes 30.
Proof.
  destruct mode; cbn [mode_ok];
    first [ lia | (intros i Hi; apply moves_pos; lia) | (intros i Hi; apply vidya_open; lia) | (split; [lia|split; [reflexivity|cbn; lia]]) | (split; [lia|reflexivity]) | (split; [lia|cbn; lia]) ].
Qed.
Example ma_textbook_case mode := ma_textbook mode closes 30 7 (modes_ok mode).
Example quickselect_total_case := quickselect_total Nat.ltb [3; 1; 2]%nat 1 ltac:(cbn; lia).
Example quickselect_split_case := quickselect_split Nat.ltb [3; 1; 2]%nat 1 ltac:(cbn; lia)
  ltac:(intros x y _ _; rewrite Nat.ltb_lt, Nat.ltb_ge; lia) ltac:(intros x y z _ _ _; rewrite !Nat.ltb_ge; lia).
Example approx_entropy_flat_case := @approx_entropy_flat xr XR (repeat (Fin 7) 300) 260 None (Fin 1) 280 (Fin 7) ltac:(cbn; lia) ltac:(cbn; lia) ltac:(rewrite repeat_length; lia) ltac:(reflexivity) ltac:(reflexivity)
  ltac:(rewrite x_sub, x_abs, x_leb; apply Rleb_true; rewrite Rminus_diag_eq, Rabs_R0; lra).
Example sample_entropy_flat_case := @sample_entropy_flat xr XR (repeat (Fin 7) 30) 25 None (Fin 1) 28 (Fin 7) ltac:(cbn; lia) ltac:(cbn; lia) ltac:(rewrite repeat_length; lia) ltac:(reflexivity) ltac:(reflexivity)
  ltac:(rewrite x_sub, x_abs, x_leb; apply Rleb_true; rewrite Rminus_diag_eq, Rabs_R0; lra).
Lemma xmul_comm (x y : xr) : fmul x y = fmul y x.
Proof.
  destruct x as [a|[]|], y as [b|[]|]; cbn; try reflexivity; try (f_equal; lra).
Qed.
Example pcc_symmetric_case := @pcc_symmetric xr XR (map Fin (quotes 20)) (map Fin (map volumes (seq 0 20))) 5 xmul_comm.
Example dcor_symmetric_case := @dcor_symmetric xr XR (map Fin (quotes 20)) (map Fin (map volumes (seq 0 20))) 5 xmul_comm.
Example pearson_self_case := pearson_self 2 3 [1; 2; 4] ltac:(discriminate) ltac:(unfold var, mean; cbn; lra) ltac:(lra).
Lemma quotes_nonzero n x : In x (quotes n) -> x <> 0.
Proof. intros H. unfold quotes in H. apply in_map_iff in H as (k & <- & _). pose proof (closes_ge k). lra. Qed.
Example beta_real_case := beta_real (quotes 20) (quotes 25) 5 ltac:(lia) (quotes_nonzero 20) (quotes_nonzero 25).
Example beta_self_case := beta_self (quotes 20) 5 ltac:(lia) (quotes_nonzero 20).
Lemma f64_max_large : 1000 <= f64_max.
Proof. unfold f64_max. apply IZR_le. now vm_compute. Qed.
Lemma quotes_f64 v : In v (quotes 20) -> - f64_max <= v <= f64_max.
Proof. intros H. unfold quotes in H. apply in_map_iff in H as (k & <- & Hk). apply in_seq in Hk. pose proof f64_max_large. small. Qed.
Example mic_real_case := mic_real (fun l => l) (quotes 20) (quotes 20) 8 (fun l => Permutation_refl l) ltac:(lia) ltac:(reflexivity) quotes_f64 quotes_f64.
Example mic_ranged_case : exists o, mic (fun l => l) (map Fin (quotes 20)) (map Fin (quotes 20)) 8 = Ok o /\ ranged o 0 1.
Proof.
  destruct mic_real_case as (o & E & _). exists o. split; [exact E|]. exact (mic_ranged (fun l => l) _ _ 8 o (fun l => Permutation_refl l) ltac:(lia) ltac:(reflexivity) quotes_f64 quotes_f64 E).
Qed.
Example mutual_le_case := mutual_le [(0, 1); (1, 0); (1, 1)]%N 2 2 ltac:(discriminate) ltac:(intros t [<-|[<-|[<-|[]]]]; cbn; lia).
Example dpo_values_case : exists m o, sma (xseries closes 20) 5 = Ok m /\ dpo (xseries closes 20) 5 None = Ok o /\
  aligned o 20 4 NaN (fun i => fsub (Fin (closes (i - 3))) (Fin (mean (last_bars 5 closes i)))).
Proof.
  pose proof (sma_bars closes 5 0 20 ltac:(lia)) as E.
  assert (A : aligned (pad 4 NaN ++ map (fun i => Fin (mean (last_bars 5 closes i))) (seq 4 16)) 20 4 NaN (fun i => Fin (mean (last_bars 5 closes i)))) by (apply aligned_bars; lia).
  destruct (dpo_values (fun k => Fin (closes k)) 20 5 None _ 4 _ ltac:(lia) E A ltac:(lia)) as (o & E2 & A2). eexists _, o. split; [exact E|]. split; [exact E2|exact A2].
Qed.
Example hull_windowed_case := @hull_windowed xr XR 9 3 ltac:(symmetry; apply (x_fsqrtN 9); reflexivity) ltac:(lia) ltac:(lia).
Example windowed_contains_case {F} {FO : FOps F} : forall x : F, exists o1 o2, sma (ramp 20) 3 = Ok o1 /\ sma (firstn 8 (ramp 20) ++ x :: skipn 9 (ramp 20)) 3 = Ok o2 /\ nth_error o1 12 = nth_error o2 12.
Proof.
  intros x. eexists _, _. split; [reflexivity|]. split; [reflexivity|].
  refine (windowed_contains (fun d => sma d 3) 3 (sma_windowed 3) ltac:(lia) (ramp 20) (firstn 8 (ramp 20) ++ x :: skipn 9 (ramp 20)) _ _ 8 _ _ eq_refl eq_refl 12 ltac:(lia) _ ltac:(lia)).
  - reflexivity.
  - intros i Hi. do 20 (destruct i as [|i]; [try lia; reflexivity|]). reflexivity.
  - rewrite length_ramp. lia.
Qed.
Example approx_entropy_real_case : exists o, approx_entropy (map Fin (quotes 30)) 20 None (Some (Fin 1)) = Ok o /\ aligned o 30 19 NaN (fun i => Fin (apen 1 (win 20 (quotes 30) i) 2)).
Proof.
  destruct (ok_of_outcome _ _ _ (approx_entropy_small (map Fin (quotes 30)) 20 None (Some (Fin 1)) ltac:(discriminate) ltac:(cbn; lia) ltac:(cbn; lia)) (fun x => x)) as [o E]. exists o. split; [exact E|].
  exact (approx_entropy_real (quotes 30) 20 None (Some 1) o ltac:(cbn; lia) ltac:(cbn; lra) E).
Qed.
Example sample_entropy_real_case : exists o, sample_entropy (map Fin (quotes 30)) 20 None (Some (Fin 1)) = Ok o /\ aligned o 30 19 NaN (fun i => Fin (sampen 1 (win 20 (quotes 30) i) 2)).
Proof.
  destruct (ok_of_outcome _ _ _ (sample_entropy_small (map Fin (quotes 30)) 20 None (Some (Fin 1)) ltac:(discriminate) ltac:(cbn; lia) ltac:(cbn; lia)) (fun x => x)) as [o E]. exists o. split; [exact E|].
  exact (sample_entropy_real (quotes 30) 20 None (Some 1) o ltac:(cbn; lia) E).
Qed.
Lemma dcov2_two : dcov2 [0; 1] [0; 1] = / 4.
Proof.
  unfold dcov2, centre, sum2, gap. cbn. repeat (rewrite ?Rminus_0_r, ?Rminus_0_l, ?Rminus_eq_0, ?Rabs_R0, ?Rabs_Ropp, ?Rabs_R1). lra.
Qed.
Example dist_corr_range_case := dist_corr_range [0; 1] [0; 1] eq_refl ltac:(discriminate) ltac:(rewrite dcov2_two; lra).
Example dist_corr_self_case := dist_corr_self [0; 1] ltac:(rewrite dcov2_two; lra).
