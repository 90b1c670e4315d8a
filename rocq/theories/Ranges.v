(** * Ranges: bounds on what the indicators print, in exact arithmetic.

    Each theorem is about the output list of the program: every item is NaN or a
    number within the stated bounds. *)

From Coq Require Import Reals Lra Lia Sorting.Sorted.
From Verif Require Import Spec BaseFacts XReal RSpec XRFacts Convex Bars DistReal CorrReal RankCorr Dcor Mic VolumeReal VolatReal MomReal TrendReal Warm.
From Verif Require Import Correlation Volume Volatility Trend Momentum Distribution.
Local Unset Implicit Arguments.
Local Open Scope R_scope.

(** Every item is NaN or lies between [lo] and [hi]. *)
Definition ranged (o : list xr) (lo hi : R) : Prop :=
  forall i x, nth_error o i = Some x -> x = NaN \/ exists r, x = Fin r /\ lo <= r <= hi.
(** Every item is NaN or at least [lo]. *)
Definition at_least (o : list xr) (lo : R) : Prop :=
  forall i x, nth_error o i = Some x -> x = NaN \/ exists r, x = Fin r /\ lo <= r.

Lemma aligned_ranged o n k (g : nat -> xr) lo hi : aligned o n k NaN g ->
  (forall i, (k <= i < n)%nat -> g i = NaN \/ exists r, g i = Fin r /\ lo <= r <= hi) -> ranged o lo hi.
Proof.
  intros (L & A & B) H i x E. assert (i < length o)%nat by (apply nth_error_Some; now rewrite E).
  destruct (Nat.lt_ge_cases i k) as [K|K].
  - rewrite A in E by easy. left. now injection E.
  - rewrite B in E by lia. injection E as <-. apply H. lia.
Qed.
Lemma aligned_fin o n k (g : nat -> R) lo hi : aligned o n k NaN (fun i => Fin (g i)) ->
  (forall i, (k <= i < n)%nat -> lo <= g i <= hi) -> ranged o lo hi.
Proof. intros A H. apply (aligned_ranged _ _ _ _ _ _ A). intros i Hi. right. exists (g i). split; [easy|now apply H]. Qed.
Lemma aligned_share o n k (g d : nat -> R) lo hi : aligned o n k NaN (fun i => if Req (d i) 0 then NaN else Fin (g i)) ->
  (forall i, (k <= i < n)%nat -> d i <> 0 -> lo <= g i <= hi) -> ranged o lo hi.
Proof.
  intros A H. apply (aligned_ranged _ _ _ _ _ _ A). intros i Hi. cbn beta. destruct (Req (d i) 0) eqn:E; [now left|]. right. exists (g i). split; [easy|].
  apply H; [easy|]. now apply Req_false.
Qed.
Lemma aligned_least o n k (g : nat -> R) lo : aligned o n k NaN (fun i => Fin (g i)) ->
  (forall i, (k <= i < n)%nat -> lo <= g i) -> at_least o lo.
Proof.
  intros (L & A & B) H i x E. assert (i < length o)%nat by (apply nth_error_Some; now rewrite E).
  destruct (Nat.lt_ge_cases i k) as [K|K].
  - rewrite A in E by easy. left. now injection E.
  - rewrite B in E by lia. injection E as <-. right. eexists. split; [reflexivity|]. apply H. lia.
Qed.
Ltac out H R A := let o' := fresh "o" in let E := fresh "E" in
  destruct R as (o' & E & A); rewrite E in H; apply Ok_inj in H; subst.

(** ** Oscillators *)
Theorem rsi_ranged f n w o : (0 < w < n)%nat -> rsi (xseries f n) w = Ok o -> ranged o 0 100.
Proof. intros Hw H. out H (rsi_real f n w Hw) A. apply (aligned_share _ _ _ _ _ _ _ A). intros i Hi. apply rsi_range. lia. Qed.
Theorem cmo_ranged f n w o : (0 < n)%nat -> cmo (xseries f n) w = Ok o -> ranged o (-100) 100.
Proof.
  intros Hn H. out H (cmo_real f n w Hn) A. apply (aligned_share _ _ _ _ _ _ _ A). intros i Hi. apply cmo_range; apply Rsum_nonneg; intros x Hx;
    apply in_map_iff in Hx as (k & <- & _); [apply up_move_nonneg|apply down_move_nonneg].
Qed.
Theorem mfi_ranged h l c v n w o : (0 < w)%nat -> (0 < n)%nat -> (forall k, (k < n)%nat -> 0 <= h k /\ 0 <= l k /\ 0 <= c k /\ 0 <= v k) ->
  mfi (xseries h n) (xseries l n) (xseries c n) (xseries v n) w = Ok o -> ranged o 0 100.
Proof.
  intros Hw Hn P H. out H (mfi_real h l c v n w Hw Hn P) A. apply (aligned_share _ _ _ _ _ _ _ A). intros i Hi.
  apply mfi_range; apply Rsum_nonneg; intros x Hx; apply In_last_bars in Hx as (k & K1 & K2 & ->); try lia; unfold up_flow, down_flow, typical_price;
    (destruct (Rltb _ _); [|lra]); destruct (P k ltac:(lia)) as (? & ? & ? & ?); apply Rmult_le_pos; lra.
Qed.
Theorem wpr_ranged h l c n w o : (0 < w)%nat -> (w - 1 <= n)%nat -> (forall k, (k < n)%nat -> l k <= c k <= h k) ->
  wpr (xseries h n) (xseries l n) (xseries c n) w = Ok o -> ranged o (-100) 0.
Proof. intros Hw Hn P H. out H (wpr_real h l c n w Hw Hn P) A. apply (aligned_share _ _ _ _ _ _ _ A). intros i Hi. apply wpr_range; [lia|]. intros k Hk. apply P. lia. Qed.
Theorem relative_vol_ranged c n w sm o : (2 <= w)%nat -> (0 < sm)%nat -> (w - 1 + sm <= n)%nat ->
  relative_vol (xseries c n) w sm = Ok o -> ranged o 0 100.
Proof.
  intros Hw Hs Hn H. out H (relative_vol_real c n w sm Hw Hs Hn) A. apply (aligned_share _ _ _ _ _ _ _ A). intros i Hi.
  apply relative_vol_range; apply wilder_from_nonneg; try lia; intros k _; unfold gain_dev, loss_dev; (destruct (Rltb _ _); [lra|apply sqrt_pos]).
Qed.
Theorem psych_ranged f n w o : (0 < w)%nat -> psych (xseries f n) w = Ok o -> ranged o 0 100.
Proof. intros Hw H. out H (psych_real f n w Hw) A. apply (aligned_fin _ _ _ _ _ _ A). intros i Hi. now apply psych_range. Qed.
Theorem cog_ranged f n w o : (0 < w)%nat -> (forall k, (k < n)%nat -> 0 < f k) -> cog (xseries f n) w = Ok o -> ranged o (- INR w) (-1).
Proof.
  intros Hw P H. assert (N0 : forall i, (w - 1 <= i < n)%nat -> Rsum (last_bars w f i) <> 0).
  { intros i Hi. apply Rgt_not_eq, Rsum_pos; [|now apply last_bars_nonempty]. intros x Hx. apply In_last_bars in Hx as (k & K1 & K2 & ->); [apply P|]; lia. }
  out H (cog_real f n w Hw N0) A. apply (aligned_fin _ _ _ _ _ _ A). intros i Hi. apply cog_range; [lia|]. intros k Hk. apply P. lia.
Qed.
Theorem bal_power_ranged op h l c n w o : (0 < w <= n)%nat -> (forall k, (k < n)%nat -> l k <= op k <= h k /\ l k <= c k <= h k /\ l k < h k) ->
  bal_power (xseries op n) (xseries h n) (xseries l n) (xseries c n) w = Ok o -> ranged o (-1) 1.
Proof.
  intros Hw P H. assert (Q : forall k, (k < n)%nat -> h k <> l k) by (intros k Hk; destruct (P k Hk) as (_ & _ & ?); lra).
  out H (bal_power_real op h l c n w Hw Q) A. apply (aligned_fin _ _ _ _ _ _ A). intros i Hi. apply bal_power_range; [lia|]. intros k Hk. apply P. lia.
Qed.
Theorem stochastic_ranged h l c n w o : (0 < w)%nat -> (w + 4 <= n + 1)%nat -> (forall k, (k < n)%nat -> l k <= c k <= h k) ->
  (forall i, (w - 1 <= i < n)%nat -> highest w h i - lowest w l i <> 0) ->
  stochastic (xseries h n) (xseries l n) (xseries c n) w = Ok o -> ranged (map fst o) 0 100 /\ ranged (map snd o) 0 100.
Proof.
  intros Hw Hn P N0 H. out H (stochastic_real h l c n w Hw Hn N0) A. destruct A as [A B]. split.
  - apply (aligned_fin _ _ _ _ _ _ A). intros i Hi. apply (last_bars_bounds 3); [lia|]. intros j J1 J2. apply percent_k_range; [lia|intros; apply P; lia|apply N0; lia].
  - apply (aligned_fin _ _ _ _ _ _ B). intros i Hi. apply (stochastic_range h l c w 3); try lia; [intros; apply P; lia|intros; apply N0; lia].
Qed.
Theorem kdj_ranged h l c n w s kf df o : (0 < w)%nat -> (0 < s)%nat -> (w + 2 * (s - 1) <= n + 1)%nat -> (forall k, (k < n)%nat -> l k <= c k <= h k) ->
  (forall i, (w - 1 <= i < n)%nat -> highest w h i - lowest w l i <> 0) ->
  kdj (xseries h n) (xseries l n) (xseries c n) w s (option_map Fin kf) (option_map Fin df) = Ok o ->
  ranged (map (fun '(x, _, _) => x) o) 0 100 /\ ranged (map (fun '(_, x, _) => x) o) 0 100.
Proof.
  intros Hw Hs Hn P N0 H. out H (kdj_real h l c n w s kf df Hw Hs Hn N0) A. destruct A as (A & B & _). split.
  - apply (aligned_fin _ _ _ _ _ _ A). intros i Hi. apply (last_bars_bounds s); [lia|]. intros j J1 J2. apply percent_k_range; [lia|intros; apply P; lia|apply N0; lia].
  - apply (aligned_fin _ _ _ _ _ _ B). intros i Hi. apply (stochastic_range h l c w s); try lia; [intros; apply P; lia|intros; apply N0; lia].
Qed.
Theorem ultimate_ranged h l c n w1 w2 w3 o : (0 < n)%nat -> (0 < w1 <= w3)%nat -> (0 < w2 <= w3)%nat -> (forall k, (k < n)%nat -> l k <= c k <= h k) ->
  (forall w i, w = w1 \/ w = w2 \/ w = w3 -> (w3 <= i < n)%nat -> Rsum (last_bars w (ult_range h l c) i) <> 0) ->
  ultimate (xseries h n) (xseries l n) (xseries c n) w1 w2 w3 = Ok o -> ranged o 0 100.
Proof.
  intros Hn H1 H2 P N0 H. out H (ultimate_real h l c n w1 w2 w3 Hn H1 H2 N0) A. apply (aligned_fin _ _ _ _ _ _ A). intros i Hi. cbv zeta.
  apply ultimate_within; apply ultimate_range; try lia; try (intros; apply P; lia); apply N0; auto.
Qed.
Theorem stc_ranged f n w s l o : (0 < w)%nat -> (0 < s <= l)%nat -> (l + 2 * w <= n)%nat ->
  let m := fun i => ewma_from s 0 f i - ewma_from l 0 f i in
  let p := wilder_from 2 (l + w - 2) (percent_k w m m m) in
  (forall i, (l + w - 2 <= i < n)%nat -> highest w m i - lowest w m i <> 0) ->
  (forall i, (l + 2 * w - 2 <= i < n)%nat -> highest w p i - lowest w p i <> 0) ->
  stc (xseries f n) w s l = Ok o -> ranged o 0 100.
Proof.
  intros Hw Hs Hn m p N1 N2 H. out H (stc_real f n w s l Hw Hs Hn N1 N2) A. apply (aligned_fin _ _ _ _ _ _ A). intros i Hi.
  apply stc_range; try lia. intros j Hj. apply N2. lia.
Qed.
Theorem crsi_ranged f n w sw rw o : (0 < w < n)%nat -> (0 < sw)%nat -> (sw + 2 <= n)%nat -> (2 <= rw <= n)%nat -> (forall k, (k < n)%nat -> 0 < f k) ->
  (forall i, (w <= i < n)%nat -> moved w f i) -> (forall i, (sw <= i < n - 1)%nat -> moved sw (fun j => streak f (S j)) i) ->
  crsi (xseries f n) w sw rw = Ok o -> ranged o 0 100.
Proof.
  intros Hw Hs Hn Hr P M1 M2 H. out H (crsi_real f n w sw rw Hw Hs Hn Hr P M1 M2) A. apply (aligned_fin _ _ _ _ _ _ A). intros i Hi.
  apply crsi_range; try lia; [apply M1; lia|apply M2; lia].
Qed.
Theorem fisher_ranged h l n w o : (0 < w)%nat -> (forall k, (k < n)%nat -> (h k + l k) / 2 <= max_f64) ->
  fisher (xseries h n) (xseries l n) w = Ok o -> ranged o (- ln 1999999) (ln 1999999).
Proof.
  intros Hw P H. destruct (fisher_real h l n w Hw P) as (o' & t & y & E & A & T0 & Y0 & Q). rewrite E in H. apply Ok_inj in H. subst.
  apply (aligned_fin _ _ _ _ _ _ A). intros i Hi. apply (fisher_bounded t y (w - 1) n); [easy| |lia]. intros j Hj. destruct (Q j Hj) as [Q1 Q2]. split; [|easy].
  rewrite Q1. unfold clamp, Rmax, Rmin. repeat destruct (Rle_dec _ _); lra.
Qed.
Theorem aroon_ranged h l n w o : (0 < w)%nat -> aroon (xseries h n) (xseries l n) w = Ok o -> ranged (map fst o) 0 100 /\ ranged (map snd o) 0 100.
Proof.
  intros Hw H. destruct (aroon_real h l n w Hw) as (o' & u & d & E & A & Q). rewrite E in H. apply Ok_inj in H. subst.
  split; [assert (B : aligned (map fst o) n w NaN (fun i => Fin (100 * (INR (w - u i) / INR w))))
         |assert (B : aligned (map snd o) n w NaN (fun i => Fin (100 * (INR (w - d i) / INR w))))];
  try (destruct A as (A1 & A2 & A3); split; [|split]; [now rewrite map_length|intros i Hi; rewrite nth_error_map, A2 by easy; easy|intros i Hi; rewrite nth_error_map, A3 by easy; easy]);
  apply (aligned_fin _ _ _ _ _ _ B); intros i Hi; destruct (Q i Hi) as [Q1 Q2]; apply aroon_range; try easy; [apply Q1|apply Q2].
Qed.
Theorem adx_ranged h l c n w s o : (0 < w)%nat -> (0 < s)%nat -> (w + s <= n)%nat -> (forall k, (k < n)%nat -> l k <= c k <= h k) ->
  let tr := true_range_of h l c in
  (forall i, (w <= i < n)%nat -> wilder_from w 1 tr i <> 0 /\ di w (plus_dm h l) tr i + di w (minus_dm h l) tr i <> 0) ->
  adx (xseries h n) (xseries l n) (xseries c n) w s = Ok o ->
  ranged (map (fun '(x, _, _) => x) o) 0 100 /\ ranged (map (fun '(_, x, _) => x) o) 0 100 /\ ranged (map (fun '(_, _, x) => x) o) 0 100.
Proof.
  intros Hw Hs Hn P tr N0 H. out H (adx_real h l c n w s Hw Hs Hn P N0) A. destruct A as (A & B & C). repeat split.
  - apply (aligned_fin _ _ _ _ _ _ A). intros i Hi. apply di_range; [lia|intros; apply P; lia|apply N0; lia].
  - apply (aligned_fin _ _ _ _ _ _ B). intros i Hi. apply di_range; [lia|intros; apply P; lia|apply N0; lia].
  - apply (aligned_fin _ _ _ _ _ _ C). intros i Hi. apply adx_range; try lia; [intros; apply P; lia|intros; apply N0; lia].
Qed.

(** ** Volume and volatility *)
Theorem twiggs_ranged h l c v n w o : (0 < w <= n)%nat ->
  (forall k, (1 <= k)%nat -> 0 <= v k /\ l k <= c k <= h k /\ Rmin (l k) (c (k - 1)%nat) < Rmax (h k) (c (k - 1)%nat)) ->
  (forall i, (w <= i < n)%nat -> 0 < wilder_total w 1 v i) ->
  twiggs (xseries h n) (xseries l n) (xseries c n) (xseries v n) w = Ok o -> ranged o (-1) 1.
Proof.
  intros Hw P T H.
  out H (twiggs_real h l c v n w Hw (fun k K => proj2 (proj2 (P k K))) (fun i Hi => Rgt_not_eq _ _ (T i Hi))) A.
  apply (aligned_fin _ _ _ _ _ _ A). intros i Hi. apply twiggs_range; [lia|easy|now apply T].
Qed.
Theorem cmf_ranged h l c v n w o : (0 < w)%nat -> (forall k, (k < n)%nat -> 0 <= v k /\ l k <= c k <= h k /\ l k < h k) ->
  (forall i, (w - 1 <= i < n)%nat -> 0 < Rsum (last_bars w v i)) ->
  cmf (xseries h n) (xseries l n) (xseries c n) (xseries v n) w = Ok o -> ranged o (-1) 1.
Proof.
  intros Hw P T H. assert (Q : forall k, (k < n)%nat -> h k <> l k) by (intros k Hk; destruct (P k Hk) as (_ & _ & ?); lra).
  out H (cmf_real h l c v n w Hw Q (fun i Hi => Rgt_not_eq _ _ (T i Hi))) A.
  apply (aligned_fin _ _ _ _ _ _ A). intros i Hi. apply cmf_range; [lia| |now apply T]. intros k Hk. apply P. lia.
Qed.
Theorem vwma_ranged d v n w lo hi o : (0 < w)%nat -> (forall k, (k < n)%nat -> 0 <= v k /\ lo <= d k <= hi) ->
  (forall i, (w - 1 <= i < n)%nat -> 0 < Rsum (last_bars w v i)) ->
  vwma (xseries d n) (xseries v n) w = Ok o -> ranged o lo hi.
Proof.
  intros Hw P T H. out H (vwma_real d v n w Hw (fun i Hi => Rgt_not_eq _ _ (T i Hi))) A.
  apply (aligned_fin _ _ _ _ _ _ A). intros i Hi. destruct (vwma_range d v w i) as [(a & Ia & La) (b & Ib & Lb)]; [lia|intros; apply P; lia|now apply T|].
  apply In_last_bars in Ia as (k & ? & ? & ->); [|lia]. apply In_last_bars in Ib as (k' & ? & ? & ->); [|lia].
  pose proof (proj2 (P k ltac:(lia))). pose proof (proj2 (P k' ltac:(lia))). lra.
Qed.
Theorem vwap_ranged h l c v n resets lo hi o : resets <> Some [] -> StronglySorted lt (unwrap_or resets [n]) ->
  (forall k, (k < n)%nat -> 0 <= v k /\ lo <= l k /\ l k <= c k <= h k /\ h k <= hi) ->
  (forall i, (i < n)%nat -> 0 < sum_bars v (session (unwrap_or resets [n]) i) i) ->
  vwap (xseries h n) (xseries l n) (xseries c n) (xseries v n) resets = Ok o -> ranged o lo hi.
Proof.
  intros R0 SS P T H. out H (vwap_real h l c v n resets R0 SS (fun i Hi => Rgt_not_eq _ _ (T i Hi))) A.
  apply (aligned_fin _ _ _ _ _ _ A). intros i Hi. apply vwap_range; [apply session_le| |apply T; lia]. intros k Hk.
  destruct (P k ltac:(lia)) as (? & ? & ? & ?). split; [easy|]. pose proof (typical_price_range h l c k ltac:(lra)). lra.
Qed.
Theorem atr_least h l c n w o : (0 < w < n)%nat -> (forall k, (k < n)%nat -> l k <= h k) ->
  atr (xseries h n) (xseries l n) (xseries c n) w = Ok o -> at_least o 0.
Proof. intros Hw P H. out H (atr_real h l c n w Hw P) A. apply (aligned_least _ _ _ _ _ A). intros i Hi. apply atr_nonneg; [lia|]. intros; apply P; lia. Qed.
Theorem chop_least h l c n w o : (2 <= w)%nat -> (0 < n)%nat -> (forall k, (k < n)%nat -> l k <= c k <= h k) ->
  (forall i, (w <= i < n)%nat -> lowest w l i < highest w h i) ->
  chop (xseries h n) (xseries l n) (xseries c n) w = Ok o -> at_least o 0.
Proof.
  intros Hw Hn P N0 H. out H (chop_real h l c n w Hw Hn P N0) A. apply (aligned_least _ _ _ _ _ A). intros i Hi. apply chop_nonneg; [lia|intros; apply P; lia|now apply N0].
Qed.
Theorem vortex_least h l c n w o : (0 < w)%nat -> (0 < n)%nat -> (forall k, (k < n)%nat -> l k <= h k) ->
  (forall i, (w <= i < n)%nat -> Rsum (last_bars w (true_range_of h l c) i) <> 0) ->
  vortex (xseries h n) (xseries l n) (xseries c n) w = Ok o -> at_least (map fst o) 0 /\ at_least (map snd o) 0.
Proof.
  intros Hw Hn P N0 H. out H (vortex_real h l c n w Hw Hn P N0) A. destruct A as (A1 & A2 & A3).
  split; (eapply (aligned_least _ n w);
    [split; [|split]; [now rewrite map_length|intros i Hi; rewrite nth_error_map, A2 by easy; easy|intros i Hi; rewrite nth_error_map, A3 by easy; cbn [option_map fst snd]; reflexivity]|
     intros i Hi; cbn beta; apply (vortex_nonneg h l c w i); [lia|intros; apply P; lia|apply N0; lia]]).
Qed.
Theorem typical_ranged h l c n w lo hi o : (0 < w)%nat -> (forall k, (k < n)%nat -> lo <= l k /\ l k <= c k <= h k /\ h k <= hi) ->
  typical (xseries h n) (xseries l n) (xseries c n) w = Ok o -> ranged o lo hi.
Proof.
  intros Hw P H. out H (typical_real h l c n w Hw) A. apply (aligned_fin _ _ _ _ _ _ A). intros i Hi. apply last_bars_bounds; [lia|]. intros k K1 K2.
  destruct (P k ltac:(lia)) as (? & ? & ?). pose proof (typical_price_range h l c k ltac:(lra)). lra.
Qed.
Theorem wcp_ranged h l c n lo hi : (forall k, (k < n)%nat -> lo <= l k /\ l k <= c k <= h k /\ h k <= hi) ->
  ranged (wcp (xseries h n) (xseries l n) (xseries c n)) lo hi.
Proof.
  intros P. rewrite wcp_real. intros i x E. unfold xseries, series in E. rewrite nth_error_map in E.
  destruct (Nat.lt_ge_cases i n) as [L|L]; [|rewrite (proj2 (nth_error_None _ _)) in E by (now rewrite seq_length); discriminate].
  rewrite nth_error_seq in E by easy. injection E as <-. right. eexists. split; [reflexivity|].
  destruct (P i ltac:(lia)) as (? & ? & ?). pose proof (wcp_range (h i) (l i) (c i) ltac:(lra)). lra.
Qed.

(** ** Correlations *)
Lemma win_len2 {A B} w (a : list A) (b : list B) i : (w - 1 <= i < bars2 a b)%nat -> (0 < w)%nat -> length (win w a i) = w /\ length (win w b i) = w.
Proof. unfold bars2. intros Hi Hw. split; apply length_win; lia. Qed.
Theorem pcc_ranged a b w o : (0 < w)%nat -> pcc (map Fin a) (map Fin b) w = Ok o -> ranged o (-1) 1.
Proof.
  intros Hw H. out H (pcc_real a b w Hw) A. apply (aligned_share _ _ _ _ _ _ _ A). intros i Hi _. destruct (win_len2 w a b i Hi Hw). apply pearson_range. congruence.
Qed.
Theorem rsq_ranged a b w o : (0 < w)%nat -> rsq (map Fin a) (map Fin b) w = Ok o -> ranged o 0 1.
Proof.
  intros Hw H. out H (rsq_real a b w Hw) A. apply (aligned_share _ _ _ _ _ _ _ A). intros i Hi _. destruct (win_len2 w a b i Hi Hw). apply pearson_sq_range. congruence.
Qed.
Theorem srcc_ranged srt a b w o : (2 <= w)%nat -> (forall l : list R, sorts (srt (map Fin l)) (map Fin l)) ->
  srcc srt (map Fin a) (map Fin b) w = Ok o -> ranged o (-1) 1.
Proof.
  intros Hw HS H. out H (srcc_real srt a b w Hw HS) A. apply (aligned_share _ _ _ _ _ _ _ A). intros i Hi _. destruct (win_len2 w a b i Hi ltac:(lia)). apply spearman_range. congruence.
Qed.
Theorem krcc_ranged a b w o : (0 < w)%nat -> (N.of_nat w <= 2 ^ 32)%N ->
  (forall i j, (i < j < length b)%nat -> nth i b 0 = nth j b 0 -> nth i a 0 = nth j a 0) -> length a = length b ->
  krcc (map Fin a) (map Fin b) w = Ok o -> ranged o (-1) 1.
Proof. intros Hw W P L H. out H (krcc_real a b w Hw W P L) A. apply (aligned_share _ _ _ _ _ _ _ A). intros i Hi _. apply tau_b_range. Qed.
Theorem dcor_ranged a b w o : (0 < w)%nat -> dcor (map Fin a) (map Fin b) w = Ok o -> ranged o 0 1.
Proof.
  intros Hw H. out H (dcor_real a b w Hw) A. apply (aligned_share _ _ _ _ _ _ _ A). intros i Hi N0. destruct (win_len2 w a b i Hi Hw) as [L1 L2]. apply dist_corr_range; [congruence| |easy].
  intros Z. rewrite Z in L1. cbn in L1. lia.
Qed.
Theorem mic_ranged ord a b w o : visits_all ord -> (7 <= w)%nat -> (N.of_nat w < two64)%N ->
  (forall v, In v a -> - f64_max <= v <= f64_max) -> (forall v, In v b -> - f64_max <= v <= f64_max) ->
  mic ord (map Fin a) (map Fin b) w = Ok o -> ranged o 0 1.
Proof.
  intros V Hw W P Q H. out H (mic_real ord a b w V Hw W P Q) A. apply (aligned_fin _ _ _ _ _ _ A). intros i Hi. destruct (win_len2 w a b i Hi ltac:(lia)) as [L1 L2].
  apply mic_score_range; [apply mic_cells_4; lia| |congruence]. intros Z. rewrite Z in L1. cbn in L1. lia.
Qed.

(** Correlation is unaffected by a change of scale and origin of either series. *)
Theorem pcc_affine a b w c d : 0 < c -> pcc (map Fin (map (fun x => c * x + d) a)) (map Fin b) w = pcc (map Fin a) (map Fin b) w.
Proof.
  intros Hc. destruct w as [|w]; [easy|]. destruct (pcc_real a b (S w) ltac:(lia)) as (o & -> & A).
  destruct (pcc_real (map (fun x => c * x + d) a) b (S w) ltac:(lia)) as (o' & -> & A'). f_equal. unfold bars2 in *. rewrite map_length in A'. apply (aligned_unique _ _ _ _ _ _ _ A' A).
  intros i Hi. rewrite win_map. destruct (win_len2 (S w) a b i) as [L1 L2]; [unfold bars2; lia|lia|]. set (m := win (S w) a i) in *. set (m' := win (S w) b i) in *.
  assert (Hm : m <> []) by (intros Z; rewrite Z in L1; easy). rewrite var_affine by easy. rewrite pearson_affine by (easy || congruence).
  assert (Q : c ^ 2 <> 0) by (apply pow_nonzero; lra).
  destruct (Req (var m * var m') 0) eqn:E; [apply Req_true in E|apply Req_false in E].
  - rewrite (proj2 (Req_true _ _)); [easy|]. rewrite Rmult_assoc, E. ring.
  - rewrite (proj2 (Req_false _ _)); [easy|]. rewrite Rmult_assoc. now apply Rmult_integral_contrapositive_currified.
Qed.
(** A series correlates perfectly with any increasing linear function of itself, and
    exactly inversely with its negative. *)
Theorem pcc_self a w c d : (0 < w)%nat -> 0 < c -> exists o, pcc (map Fin (map (fun x => c * x + d) a)) (map Fin a) w = Ok o /\
  aligned o (length a) (w - 1) NaN (fun i => if Req (var (win w a i)) 0 then NaN else Fin 1).
Proof.
  intros Hw Hc. rewrite pcc_affine by easy. destruct (pcc_real a a w Hw) as (o & -> & A). exists o. split; [easy|]. unfold bars2 in A. rewrite Nat.min_id in A.
  refine (aligned_ext _ A). intros i Hi. destruct (win_len2 w a a i) as [L1 _]; [unfold bars2; lia|lia|]. set (m := win w a i) in *.
  destruct (Req (var m) 0) eqn:E; [apply Req_true in E|apply Req_false in E].
  - rewrite (proj2 (Req_true _ _)); [easy|]. rewrite E. ring.
  - rewrite (proj2 (Req_false _ _)) by (now apply Rmult_integral_contrapositive_currified). f_equal.
    rewrite <- (pearson_self 1 0 m) by (easy || lra || (intros Z; rewrite Z in L1; cbn in L1; lia)). f_equal. rewrite <- (map_id m) at 1. apply map_ext. intros; ring.
Qed.
Theorem pcc_negate a b w : (0 < w)%nat -> exists o o', pcc (map Fin a) (map Fin b) w = Ok o /\ pcc (map Fin (map Ropp a)) (map Fin b) w = Ok o' /\
  forall i r, nth_error o i = Some (Fin r) -> nth_error o' i = Some (Fin (- r)).
Proof.
  intros Hw. destruct (pcc_real a b w Hw) as (o & E & A). destruct (pcc_real (map Ropp a) b w Hw) as (o' & E' & A'). exists o, o'. split; [easy|]. split; [easy|].
  intros i r H. destruct A as (A1 & A2 & A3). destruct A' as (B1 & B2 & B3). unfold bars2 in *. rewrite map_length in *.
  assert (i < length o)%nat by (apply nth_error_Some; now rewrite H).
  destruct (Nat.lt_ge_cases i (w - 1)) as [K|K]; [rewrite A2 in H by easy; discriminate|].
  rewrite A3 in H by lia. rewrite B3 by lia. rewrite win_map. destruct (win_len2 w a b i) as [L1 L2]; [unfold bars2; lia|lia|]. set (m := win w a i) in *. set (m' := win w b i) in *.
  assert (Hm : m <> []) by (intros Z; rewrite Z in L1; cbn in L1; lia). 
  replace (map Ropp m) with (map (fun x => -1 * x + 0) m) by (apply map_ext; intros; ring). rewrite var_affine by easy. rewrite pearson_negate by (easy || congruence).
  destruct (Req (var m * var m') 0) eqn:Z; [discriminate|]. apply Req_false in Z. injection H as <-. rewrite (proj2 (Req_false _ _)); [easy|].
  intros Q. apply Z. rewrite <- Q. ring.
Qed.

(** Spearman's coefficient depends on the order of the prices only. *)
Theorem srcc_monotone srt a b w (f : R -> R) : (2 <= w)%nat -> (forall l : list R, sorts (srt (map Fin l)) (map Fin l)) ->
  (forall x y, In x a -> In y a -> x < y <-> f x < f y) ->
  srcc srt (map Fin (map f a)) (map Fin b) w = srcc srt (map Fin a) (map Fin b) w.
Proof.
  intros Hw HS M. destruct (srcc_real srt a b w Hw HS) as (o & -> & A). destruct (srcc_real srt (map f a) b w Hw HS) as (o' & -> & A'). f_equal.
  unfold bars2 in *. rewrite map_length in A'. apply (aligned_unique _ _ _ _ _ _ _ A' A). intros i Hi. rewrite win_map. rewrite min_ranks_mono; [easy|].
  assert (G : forall z, In z (win w a i) -> In z a) by (intros z Hz; apply In_firstn_win in Hz; [|lia]; rewrite <- (firstn_skipn (i + 1) a); apply in_or_app; now left).
  intros x y Hx Hy. apply M; now apply G.
Qed.
(** A series has distance correlation 1 with itself. *)
Theorem dcor_self a w : (0 < w)%nat -> exists o, dcor (map Fin a) (map Fin a) w = Ok o /\
  aligned o (length a) (w - 1) NaN (fun i => if Req (dcov2 (win w a i) (win w a i)) 0 then NaN else Fin 1).
Proof.
  intros Hw. destruct (dcor_real a a w Hw) as (o & -> & A). exists o. split; [easy|]. unfold bars2 in A. rewrite Nat.min_id in A. refine (aligned_ext _ A). intros i Hi.
  set (q := dcov2 _ _). destruct (Req q 0) eqn:E; [apply Req_true in E|apply Req_false in E].
  - rewrite (proj2 (Req_true _ _)); [easy|]. rewrite E. ring.
  - rewrite (proj2 (Req_false _ _)) by (now apply Rmult_integral_contrapositive_currified). f_equal. now apply dist_corr_self.
Qed.

(** ** Spreads are not negative *)
Theorem std_dev_least l w o : (0 < w)%nat -> std_dev (map Fin l) w = Ok o -> at_least o 0.
Proof. intros Hw H. out H (std_dev_real l w Hw) A. apply (aligned_least _ _ _ _ _ A). intros i Hi. apply sqrt_pos. Qed.
Theorem mad_least l w o : (0 < w)%nat -> mad (map Fin l) w = Ok o -> at_least o 0.
Proof. intros Hw H. out H (mad_real l w Hw) A. apply (aligned_least _ _ _ _ _ A). intros i Hi. apply mad_nonneg. Qed.
(** The mean absolute deviation never exceeds the standard deviation. *)
Theorem mad_below_std_dev l w o o' i x y : (0 < w)%nat -> mad (map Fin l) w = Ok o -> std_dev (map Fin l) w = Ok o' ->
  nth_error o i = Some (Fin x) -> nth_error o' i = Some (Fin y) -> x <= y.
Proof.
  intros Hw H H' Hx Hy. out H (mad_real l w Hw) A. out H' (std_dev_real l w Hw) B.
  destruct A as (A1 & A2 & A3), B as (B1 & B2 & B3). assert (i < length o)%nat by (apply nth_error_Some; now rewrite Hx).
  destruct (Nat.lt_ge_cases i (w - 1)) as [K|K]; [rewrite A2 in Hx by easy; discriminate|].
  rewrite A3 in Hx by lia. rewrite B3 in Hy by lia. injection Hx as <-. injection Hy as <-. apply mad_le_sd. apply win_nonempty; lia.
Qed.

(** ** Trailing stops *)
(** The parabolic stop is never strictly inside the bar it is printed for. *)
Theorem psar_outside h l n af mx o i r : (0 < n)%nat ->
  psar (xseries h n) (xseries l n) (option_map Fin af) (option_map Fin mx) = Ok o -> nth_error o i = Some (Fin r) -> r <= l i \/ h i <= r.
Proof.
  intros Hn H E. destruct (psar_real h l n af mx Hn) as (o' & st & E' & (A1 & A2 & A3) & S0 & SS). rewrite E' in H. apply Ok_inj in H. subst.
  assert (i < length o)%nat by (apply nth_error_Some; now rewrite E). destruct i as [|i]; [rewrite A2 in E by lia; discriminate|].
  rewrite A3 in E by lia. injection E as <-. rewrite SS.
  destruct (psar_side (unwrap_or af 0.02) (unwrap_or mx 0.2) (h (i - 1)%nat) (h (S i)) (l (i - 1)%nat) (l (S i)) (st i)) as (P1 & P2 & _).
  destruct (sar_up (sar_next _ _ _ _ _ _ (st i))); [left; now apply P1|right; now apply P2].
Qed.
(** It never leaves the range of the prices. *)
Theorem psar_ranged h l n af mx lo hi o : (0 < n)%nat -> 0 <= unwrap_or af 0.02 <= unwrap_or mx 0.2 -> unwrap_or mx 0.2 <= 1 ->
  (forall k, (k < n)%nat -> lo <= l k /\ l k <= h k /\ h k <= hi) ->
  psar (xseries h n) (xseries l n) (option_map Fin af) (option_map Fin mx) = Ok o -> ranged o lo hi.
Proof.
  intros Hn A1 A2 P H. destruct (psar_real h l n af mx Hn) as (o' & st & E & A & S0 & SS). rewrite E in H. apply Ok_inj in H. subst. cbv zeta in *.
  set (inc := unwrap_or af 0.02) in *. set (m := unwrap_or mx 0.2) in *.
  assert (G : forall i, (i < n)%nat -> 0 <= sar_af (st i) <= 1 /\ lo <= sar_of (st i) <= hi /\ lo <= sar_ep (st i) <= hi).
  { induction i as [|i IH]; intros Hi.
    - rewrite S0. cbn. destruct (P 0%nat Hi). lra.
    - rewrite SS. specialize (IH ltac:(lia)). pose proof (P (i - 1)%nat ltac:(lia)) as P1. pose proof (P (S i) Hi) as P2.
      destruct (st i) as [[[a u] x] e]. cbn [sar_af sar_of sar_ep] in IH. unfold sar_next.
      assert (B : lo <= x + a * (e - x) <= hi) by (split; nra). set (pr := x + a * (e - x)) in *. clearbody pr.
      destruct u; [destruct (Rltb (l (S i)) pr)|destruct (Rltb pr (h (S i)))]; cbn [sar_af sar_of sar_ep];
        try destruct (Rltb e (h (S i))); try destruct (Rltb (l (S i)) e); unfold Rmin, Rmax; repeat destruct (Rle_dec _ _); lra. }
  apply (aligned_fin _ _ _ _ _ _ A). intros i Hi. apply G. lia.
Qed.

(** The supertrend line: the lower band while rising and the upper band while
    falling; a band is not given up while the close stays on its side of it, and the
    trend turns exactly when the close crosses the opposite band. *)
Theorem supertrend_trails h l c n w m : (0 < w < n)%nat -> (forall k, (k < n)%nat -> l k <= h k) ->
  exists o (lo up : nat -> R) (rising : nat -> bool), supertrend (xseries h n) (xseries l n) (xseries c n) w (Fin m) = Ok o /\
  aligned o n w NaN (fun i => Fin (if rising i then lo i else up i)) /\ rising w = true /\
  forall i, (w <= i)%nat ->
    (lo i < c i -> lo i <= lo (S i)) /\ (c i < up i -> up (S i) <= up i) /\
    (rising i = true -> rising (S i) = false <-> c (S i) < lo i /\ c (S i) <= up i) /\
    (rising i = false -> rising (S i) = true <-> up i < c (S i)).
Proof.
  intros Hw P. destruct (supertrend_real h l c n w m Hw P) as (o & lo & up & rising & E & A & L0 & U0 & R0 & Q). exists o, lo, up, rising. do 3 (split; [easy|]).
  intros i Hi. destruct (Q i Hi) as (Q1 & Q2 & Q3). destruct (supertrend_ratchet lo up (fun i => (h i + l i) / 2 - m * wilder_from w 1 (true_range_of h l c) i) (fun i => (h i + l i) / 2 + m * wilder_from w 1 (true_range_of h l c) i) c i Q1 Q2) as [T1 T2]. do 2 (split; [easy|]). rewrite Q3.
  split; intros RI; rewrite RI; destruct (Rltb (up i) (c (S i))) eqn:Z1; destruct (Rltb (c (S i)) (lo i)) eqn:Z2;
    rewrite ?Rltb_true, ?Rltb_false in *; split; intros; try easy; try lra; try (split; lra).
Qed.

(** The trailing stop of atr_stop rises while the trend does and falls while it falls;
    it is printed on the right side of the close. *)
Theorem atr_stop_trails h l c n w mult : (0 < w < n)%nat -> (forall k, (k < n)%nat -> l k <= h k) -> 0 <= unwrap_or mult 3 ->
  exists o (stop : nat -> R) (rising : nat -> bool), atr_stop (xseries h n) (xseries l n) (xseries c n) w (option_map Fin mult) = Ok o /\
  aligned o n w NaN (fun i => Fin (stop (S i))) /\ rising w = true /\
  forall i, (w <= i < n)%nat ->
    (rising i = true -> rising (S i) = true -> stop i <= stop (S i)) /\ (rising i = false -> rising (S i) = false -> stop (S i) <= stop i) /\
    (rising (S i) = true -> stop (S i) <= c i) /\ (rising (S i) = false -> c i <= stop (S i)).
Proof.
  intros Hw P M. destruct (atr_stop_real h l c n w mult Hw P) as (o & stop & rising & E & A & S0 & R0 & Q). exists o, stop, rising. do 3 (split; [easy|]).
  intros i Hi. pose proof (atr_nonneg h l c w i ltac:(lia) ltac:(intros; apply P; lia)) as D.
  apply (atr_stop_ratchet stop c (fun i => unwrap_or mult 3 * wilder_from w 1 (true_range_of h l c) i) rising i); [now apply Rmult_le_pos|]. apply (Q i). lia.
Qed.

(** decay never prints a value below the data or below 0, never drops by more than
    1/w from one bar to the next, and otherwise follows the data. *)
Theorem decay_follows d n w : (0 < w)%nat -> exists y : nat -> R, decay (xseries d n) w = Ok (xseries y n) /\
  (y 0%nat = Rmax (d 0%nat) 0) /\
  forall i, d i <= y i /\ 0 <= y i /\ (forall j, i = S j -> y j - 1 / INR w <= y i /\ (y i = d i \/ y i = y j - 1 / INR w \/ y i = 0)).
Proof.
  intros Hw. destruct (decay_real d n w Hw) as (y & E & Y0 & Q). exists (fun i => y (S i)). split; [easy|].
  assert (0 < / INR w) by (apply Rinv_0_lt_compat, lt_0_INR; lia).
  split; [rewrite Q, Y0; unfold Rmax, Rdiv; repeat destruct (Rle_dec _ _); lra|].
  intros i. destruct (decay_props d w y i Hw (Q i)) as (D1 & D2 & D3 & D4). split; [easy|]. split; [easy|]. intros j ->. destruct (decay_props d w y (S j) Hw (Q (S j))) as (F1 & F2 & F3 & F4). tauto.
Qed.

(** The Donchian bands contain every bar of their window and are in order. *)
Theorem donchian_contains h l n w o i a b e : (0 < w)%nat -> (forall k, (k < n)%nat -> l k <= h k) ->
  donchian (xseries h n) (xseries l n) w = Ok o -> nth_error o i = Some (Fin a, Fin b, Fin e) ->
  e <= b <= a /\ forall k, (k <= i)%nat -> (i < k + w)%nat -> e <= l k /\ h k <= a.
Proof.
  intros Hw P H E. out H (donchian_real h l n w Hw) A. destruct A as (A1 & A2 & A3). assert (i < length o)%nat by (apply nth_error_Some; now rewrite E).
  destruct (Nat.lt_ge_cases i (w - 1)) as [K|K]; [rewrite A2 in E by easy; discriminate|]. rewrite A3 in E by lia. injection E as <- <- <-.
  split; [apply donchian_ordered; [lia|intros; apply P; lia]|]. intros k K1 K2. split; [apply lowest_spec; lia|apply highest_spec; lia].
Qed.

(** The trade volume index moves by exactly the bar's volume: up after a rise of more
    than a tick, down after a fall of more than a tick, otherwise as at the bar before. *)
Theorem tvi_moves tick c v n o i x y : 0 <= tick -> (2 <= i < n)%nat ->
  tvi (xseries c n) (xseries v n) (Fin tick) = Ok o -> nth_error o (i - 1) = Some (Fin x) -> nth_error o i = Some (Fin y) ->
  (c (i - 1)%nat + tick < c i -> y = x + v i) /\ (c i + tick < c (i - 1)%nat -> y = x - v i) /\ (y = x + v i \/ y = x - v i).
Proof.
  intros Ht Hi H Ex Ey. out H (tvi_real tick c v n ltac:(lia)) A. destruct A as (A1 & A2 & A3).
  rewrite A3 in Ex by lia. rewrite A3 in Ey by lia. injection Ex as <-. injection Ey as <-.
  replace i with (S (i - 1)) by lia. set (k := (i - 1)%nat). assert (1 <= k)%nat by lia. rewrite Nat.sub_succ, Nat.sub_0_r.
  rewrite sum_bars_last by easy. set (s := sum_bars _ 1 k). destruct (tvi_dir (Fin tick) (fun k => Fin (c k)) (S k)) eqn:D; cbn [tvi_dir] in D; unfold fgtb in D; rewrite !x_sub, !x_ltb in D;
    destruct (Rltb tick (c (S k) - c k)) eqn:Z1; destruct (Rltb tick (c k - c (S k))) eqn:Z2; rewrite ?Rltb_true, ?Rltb_false in *; try discriminate; repeat split; intros; lra.
Qed.
Theorem tvi_keeps tick c v n o i z x y : 0 <= tick -> (3 <= i < n)%nat -> Rabs (c i - c (i - 1)%nat) <= tick ->
  tvi (xseries c n) (xseries v n) (Fin tick) = Ok o -> nth_error o (i - 2) = Some (Fin z) -> nth_error o (i - 1) = Some (Fin x) -> nth_error o i = Some (Fin y) ->
  x = z + v (i - 1)%nat /\ y = x + v i \/ x = z - v (i - 1)%nat /\ y = x - v i.
Proof.
  intros Ht Hi D H Ez Ex Ey. out H (tvi_real tick c v n ltac:(lia)) A. destruct A as (A1 & A2 & A3).
  rewrite A3 in Ez by lia. rewrite A3 in Ex by lia. rewrite A3 in Ey by lia. injection Ez as <-. injection Ex as <-. injection Ey as <-.
  remember (i - 2)%nat as k eqn:Ek. replace (i - 1)%nat with (S k) in * by lia. replace i with (S (S k)) in * by lia.
  rewrite !sum_bars_last by lia. set (s := sum_bars _ 1 k).
  assert (ED : tvi_dir (Fin tick) (fun k => Fin (c k)) (S (S k)) = tvi_dir (Fin tick) (fun k => Fin (c k)) (S k)).
  { remember (S k) as j. cbn [tvi_dir]. unfold fgtb. rewrite !x_sub, !x_ltb.
    assert (-tick <= c (S j) - c j <= tick) by (unfold Rabs in D; destruct (Rcase_abs _); lra).
    now rewrite !(proj2 (Rltb_false _ _)) by lra. }
  rewrite ED. destruct (tvi_dir _ _ (S k)); [left|right]; split; ring.
Qed.
