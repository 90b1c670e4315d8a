(** * Trending: markets that only rise or only fall (C95).

    Oscillators are read at their extremes: an oscillator that measures strength prints
    its upper bound for as long as the price rises on every bar, and its lower bound for
    as long as it falls.  Averages follow a rising price from below and never fall. *)

From Coq Require Import Reals Lra Lia List.
From Verif Require Import Base Num XReal Spec RSpec Bars BaseFacts Smooth Volatility Momentum Trend Volume.
From Verif Require Import XRFacts SmoothReal OrderStat Dispatch VolumeReal MomReal VolatReal TrendReal Ranges Forget ForgetB ForgetC Limits LimitsB.
Import ListNotations.
Local Unset Implicit Arguments.
Local Open Scope R_scope.

(** ** Specification *)
(** No bar is lower than the one before; every bar is higher. *)
Definition rises (n : nat) (f : nat -> R) : Prop := forall k, (S k < n)%nat -> f k <= f (S k).
Definition climbs (n : nat) (f : nat -> R) : Prop := forall k, (S k < n)%nat -> f k < f (S k).
(** No bar is higher than the one before; every bar is lower. *)
Definition falls (n : nat) (f : nat -> R) : Prop := forall k, (S k < n)%nat -> f (S k) <= f k.
Definition drops (n : nat) (f : nat -> R) : Prop := forall k, (S k < n)%nat -> f (S k) < f k.
(** NaN before bar [k] and [x] on every bar from there on. *)
Definition stays (o : list xr) (n k : nat) (x : R) : Prop :=
  length o = n /\ (forall i, (i < k)%nat -> (i < n)%nat -> nth_error o i = Some NaN) /\ (forall i, (k <= i < n)%nat -> nth_error o i = Some (Fin x)).

(** ** Helpers *)
Lemma climbs_rises n f : climbs n f -> rises n f.
Proof. intros H k Hk. specialize (H k Hk). lra. Qed.
Lemma drops_falls n f : drops n f -> falls n f.
Proof. intros H k Hk. specialize (H k Hk). lra. Qed.
Lemma rises_le n f j k : rises n f -> (j <= k < n)%nat -> f j <= f k.
Proof. intros H [Hj Hk]. induction Hj as [|k Hj IH]; [lra|]. specialize (IH ltac:(lia)). specialize (H k Hk). lra. Qed.
Lemma climbs_lt n f j k : climbs n f -> (j < k < n)%nat -> f j < f k.
Proof. intros H [Hj Hk]. pose proof (rises_le n f (S j) k (climbs_rises n f H) ltac:(lia)). specialize (H j ltac:(lia)). lra. Qed.
Lemma falls_le n f j k : falls n f -> (j <= k < n)%nat -> f k <= f j.
Proof. intros H [Hj Hk]. induction Hj as [|k Hj IH]; [lra|]. specialize (IH ltac:(lia)). specialize (H k Hk). lra. Qed.
Lemma step_up n f k : rises n f -> (1 <= k < n)%nat -> f (k - 1)%nat <= f k.
Proof. intros H Hk. apply (rises_le n f); [easy|lia]. Qed.
Lemma step_down n f k : falls n f -> (1 <= k < n)%nat -> f k <= f (k - 1)%nat.
Proof. intros H Hk. apply (falls_le n f); [easy|lia]. Qed.
Lemma leap_up n f k : climbs n f -> (1 <= k < n)%nat -> f (k - 1)%nat < f k.
Proof. intros H Hk. apply (climbs_lt n f); [easy|lia]. Qed.
Lemma leap_down n f k : drops n f -> (1 <= k < n)%nat -> f k < f (k - 1)%nat.
Proof. intros H Hk. specialize (H (k - 1)%nat ltac:(lia)). now replace (S (k - 1)) with k in H by lia. Qed.
Lemma aligned_stays o n k (g : nat -> xr) x : aligned o n k NaN g -> (k <= n)%nat -> (forall i, (k <= i < n)%nat -> g i = Fin x) -> stays o n k x.
Proof.
  intros (L & W & V) Hk H. split; [lia|]. split.
  - intros i Hi _. now apply W.
  - intros i Hi. rewrite V by lia. now rewrite H.
Qed.
Lemma least_positive (g : nat -> R) a i : (forall j, (a <= j <= i)%nat -> 0 < g j) -> exists b, 0 < b /\ forall j, (a <= j <= i)%nat -> b <= g j.
Proof.
  induction i as [|i IH]; intros H.
  - destruct (le_lt_dec a 0) as [C|C]; [|exists 1; split; [lra|]; intros; lia]. exists (g 0%nat). split; [apply H; lia|]. intros j Hj. replace j with 0%nat by lia. lra.
  - destruct IH as (b & B0 & B); [intros; apply H; lia|]. destruct (le_lt_dec a (S i)) as [C|C]; [|exists b; split; [easy|]; intros; apply B; lia].
    exists (Rmin b (g (S i))). split; [apply Rmin_pos; [easy|apply H; lia]|]. intros j Hj. destruct (Nat.eq_dec j (S i)) as [->|N]; [apply Rmin_r|]. eapply Rle_trans; [apply Rmin_l|]. apply B. lia.
Qed.
Lemma most_of (g : nat -> R) i : exists B, forall j, (j <= i)%nat -> g j <= B.
Proof.
  induction i as [|i (B & IH)]; [exists (g 0%nat); intros j Hj; replace j with 0%nat by lia; lra|]. exists (Rmax B (g (S i))). intros j Hj.
  destruct (Nat.eq_dec j (S i)) as [->|N]; [apply Rmax_r|]. eapply Rle_trans; [apply IH; lia|apply Rmax_l].
Qed.
Lemma wilder_pos w k f i : (0 < w)%nat -> (k + w - 1 <= i)%nat -> (forall j, (k <= j <= i)%nat -> 0 < f j) -> 0 < wilder_from w k f i.
Proof.
  intros Hw Hi H. destruct (least_positive f k i H) as (b & B0 & B). destruct (most_of f i) as (M & HM).
  pose proof (wilder_from_bounds w k f i b M Hw Hi ltac:(intros j Hj; split; [apply B; lia|apply HM; lia])). lra.
Qed.
Lemma wilder_zero w k f i : (0 < w)%nat -> (k + w - 1 <= i)%nat -> (forall j, (k <= j <= i)%nat -> f j = 0) -> wilder_from w k f i = 0.
Proof. intros Hw Hi H. pose proof (wilder_from_bounds w k f i 0 0 Hw Hi ltac:(intros j Hj; rewrite H by easy; lra)). lra. Qed.
Lemma ewma_pos w k f i : (0 < w)%nat -> (k + w - 1 <= i)%nat -> (forall j, (k <= j <= i)%nat -> 0 < f j) -> 0 < ewma_from w k f i.
Proof.
  intros Hw Hi H. destruct (least_positive f k i H) as (b & B0 & B). destruct (most_of f i) as (M & HM).
  pose proof (ewma_from_bounds w k f i b M Hw Hi ltac:(intros j Hj; split; [apply B; lia|apply HM; lia])). lra.
Qed.
Lemma sum_pos w f i : (0 < w <= i + 1)%nat -> (forall j, (j <= i)%nat -> (i < j + w)%nat -> 0 < f j) -> 0 < Rsum (last_bars w f i).
Proof.
  intros Hw H. unfold last_bars. assert (G : forall m a, (forall j, (a <= j < a + S m)%nat -> 0 < f j) -> 0 < Rsum (map f (seq a (S m)))).
  { induction m as [|m IH]; intros a Ha; cbn [seq map]; rewrite Rsum_cons; [rewrite Rsum_nil; specialize (Ha a ltac:(lia)); lra|].
    specialize (IH (S a) ltac:(intros; apply Ha; lia)). cbn [seq map] in IH. specialize (Ha a ltac:(lia)). lra. }
  destruct w as [|w]; [lia|]. apply G. intros j Hj. apply H; lia.
Qed.
Lemma sum_zero w f i : (w <= i + 1)%nat -> (forall j, (j <= i)%nat -> (i < j + w)%nat -> f j = 0) -> Rsum (last_bars w f i) = 0.
Proof.
  intros Hw H. rewrite (last_bars_ext w f (fun _ => 0) i H Hw). unfold last_bars. generalize (i + 1 - w)%nat. clear. induction w as [|w IH]; intros a; cbn [seq map]; rewrite ?Rsum_nil, ?Rsum_cons; [easy|]. rewrite IH. lra.
Qed.
Lemma up_zero f k : f k <= f (k - 1)%nat -> up_move f k = 0.
Proof. intros H. unfold up_move. apply Rmax_left. lra. Qed.
Lemma down_zero f k : f (k - 1)%nat <= f k -> down_move f k = 0.
Proof. intros H. unfold down_move. apply Rmax_left. lra. Qed.
Lemma up_pos f k : f (k - 1)%nat < f k -> 0 < up_move f k.
Proof. intros H. unfold up_move. rewrite Rmax_right; lra. Qed.
Lemma down_pos f k : f k < f (k - 1)%nat -> 0 < down_move f k.
Proof. intros H. unfold down_move. rewrite Rmax_right; lra. Qed.

Lemma filter_all {A} (p : A -> bool) l : (forall x, In x l -> p x = true) -> filter p l = l.
Proof. induction l as [|a l IH]; intros H; cbn [filter]; [easy|]. rewrite H by now left. f_equal. apply IH. intros; apply H; now right. Qed.
Lemma filter_none {A} (p : A -> bool) l : (forall x, In x l -> p x = false) -> filter p l = [].
Proof. induction l as [|a l IH]; intros H; cbn [filter]; [easy|]. rewrite H by now left. apply IH. intros; apply H; now right. Qed.

(** ** Strength *)
Theorem rsi_trend f n w : (0 < w < n)%nat ->
  (climbs n f -> exists o, rsi (xseries f n) w = Ok o /\ stays o n w 100) /\ (drops n f -> exists o, rsi (xseries f n) w = Ok o /\ stays o n w 0).
Proof.
  intros Hw. destruct (rsi_real f n w Hw) as (o & Q & A). split; intros C; exists o; (split; [exact Q|]); apply (aligned_stays _ _ _ _ _ A); try lia; intros i Hi; cbv zeta.
  - rewrite (wilder_zero w 1 (down_move f) i) by (lia || (intros j Hj; apply down_zero, (step_up n); [now apply climbs_rises|lia])).
    assert (0 < wilder_from w 1 (up_move f) i) by (apply wilder_pos; [lia|lia|]; intros j Hj; apply up_pos, (leap_up n); [easy|lia]).
    rewrite (proj2 (Req_false _ _)) by lra. f_equal. field. lra.
  - rewrite (wilder_zero w 1 (up_move f) i) by (lia || (intros j Hj; apply up_zero, (step_down n); [now apply drops_falls|lia])).
    assert (0 < wilder_from w 1 (down_move f) i) by (apply wilder_pos; [lia|lia|]; intros j Hj; apply down_pos, (leap_down n); [easy|lia]).
    rewrite (proj2 (Req_false _ _)) by lra. f_equal. field. lra.
Qed.
Theorem cmo_trend f n w : (0 < w < n)%nat ->
  (climbs n f -> exists o, cmo (xseries f n) w = Ok o /\ stays o n w 100) /\ (drops n f -> exists o, cmo (xseries f n) w = Ok o /\ stays o n w (-100)).
Proof.
  intros Hw. destruct (cmo_real f n w ltac:(lia)) as (o & Q & A). split; intros C; exists o; (split; [exact Q|]); apply (aligned_stays _ _ _ _ _ A); try lia; intros i Hi; cbv zeta.
  - rewrite (sum_zero w (down_move f) i) by (lia || (intros j Hj1 Hj2; apply down_zero, (step_up n); [now apply climbs_rises|lia])).
    assert (0 < Rsum (last_bars w (up_move f) i)) by (apply sum_pos; [lia|]; intros j Hj1 Hj2; apply up_pos, (leap_up n); [easy|lia]).
    rewrite (proj2 (Req_false _ _)) by lra. f_equal. field. lra.
  - rewrite (sum_zero w (up_move f) i) by (lia || (intros j Hj1 Hj2; apply up_zero, (step_down n); [now apply drops_falls|lia])).
    assert (0 < Rsum (last_bars w (down_move f) i)) by (apply sum_pos; [lia|]; intros j Hj1 Hj2; apply down_pos, (leap_down n); [easy|lia]).
    rewrite (proj2 (Req_false _ _)) by lra. f_equal. field. lra.
Qed.
(** A bar that repeats the price counts as a rise for psych. *)
Theorem psych_trend f n w : (0 < w < n)%nat ->
  (rises n f -> exists o, psych (xseries f n) w = Ok o /\ stays o n w 100) /\ (drops n f -> exists o, psych (xseries f n) w = Ok o /\ stays o n w 0).
Proof.
  intros Hw. destruct (psych_real f n w ltac:(lia)) as (o & Q & A). assert (P : 0 < INR w) by (apply lt_0_INR; lia).
  split; intros C; exists o; (split; [exact Q|]); apply (aligned_stays _ _ _ _ _ A); try lia; intros i Hi; cbv zeta; f_equal.
  - rewrite filter_all; [rewrite seq_length; field; lra|]. intros k Hk. apply in_seq in Hk. apply Rleb_true. apply (step_up n); [easy|lia].
  - rewrite filter_none; [cbn; field; lra|]. intros k Hk. apply in_seq in Hk. apply Rleb_false. apply (leap_down n); [easy|lia].
Qed.
Theorem tsi_trend f n s l : (0 < s)%nat -> (0 < l)%nat -> (l + s <= n)%nat ->
  (climbs n f -> exists o, tsi (xseries f n) s l = Ok o /\ stays o n (l + s - 1) 100) /\ (drops n f -> exists o, tsi (xseries f n) s l = Ok o /\ stays o n (l + s - 1) (-100)).
Proof.
  intros Hs Hl Hn. pose proof (tsi_real f n s l Hs Hl Hn) as T. cbv zeta in T. destruct T as (o & Q & A & _).
  split; intros C; exists o; (split; [exact Q|]); apply (aligned_stays _ _ _ _ _ A); try lia; intros i Hi.
  - replace (ewma_from s l (ewma_from l 1 (fun k => Rabs (f k - f (k - 1)%nat))) i) with (ewma_from s l (ewma_from l 1 (fun k => f k - f (k - 1)%nat)) i).
    2:{ apply Dispatch.ewma_from_ext; [easy|lia|]. intros j Hj. apply Dispatch.ewma_from_ext; [easy|lia|]. intros k Hk. rewrite Rabs_right; [easy|]. pose proof (leap_up n f k C ltac:(lia)). lra. }
    assert (0 < ewma_from s l (ewma_from l 1 (fun k => f k - f (k - 1)%nat)) i).
    { apply ewma_pos; [easy|lia|]. intros j Hj. apply ewma_pos; [easy|lia|]. intros k Hk. pose proof (leap_up n f k C ltac:(lia)). lra. }
    rewrite (proj2 (Req_false _ _)) by lra. f_equal. field. lra.
  - set (num := ewma_from s l (ewma_from l 1 (fun k => f k - f (k - 1)%nat)) i). set (den := ewma_from s l _ i).
    assert (D : 0 < den).
    { apply ewma_pos; [easy|lia|]. intros j Hj. apply ewma_pos; [easy|lia|]. intros k Hk. pose proof (leap_down n f k C ltac:(lia)). rewrite Rabs_left; lra. }
    assert (N : num = - den).
    { unfold num, den. rewrite <- ewma_from_opp by easy. apply Dispatch.ewma_from_ext; [easy|lia|]. intros j Hj. rewrite <- ewma_from_opp by easy. apply Dispatch.ewma_from_ext; [easy|lia|]. intros k Hk. pose proof (leap_down n f k C ltac:(lia)). rewrite Rabs_left; lra. }
    rewrite N, (proj2 (Req_false _ _)) by lra. f_equal. field. lra.
Qed.
(** The highest high is the latest bar and the lowest low the oldest. *)
Theorem aroon_trend h l n w : (0 < w < n)%nat -> exists o, aroon (xseries h n) (xseries l n) w = Ok o /\
  (rises n h -> stays (map fst o) n w 100) /\ (drops n h -> stays (map fst o) n w 0) /\ (climbs n l -> stays (map snd o) n w 0) /\ (falls n l -> stays (map snd o) n w 100).
Proof.
  intros Hw. destruct (aroon_real h l n w ltac:(lia)) as (o & u & d & Q & A & H). exists o. split; [exact Q|]. assert (P : 0 < INR w) by (apply lt_0_INR; lia).
  pose proof (aligned_of fst _ _ _ _ _ A) as A1. pose proof (aligned_of snd _ _ _ _ _ A) as A2. cbn [fst snd] in A1, A2.
  split; [|split; [|split]]; intros C; [apply (aligned_stays _ _ _ _ _ A1)|apply (aligned_stays _ _ _ _ _ A1)|apply (aligned_stays _ _ _ _ _ A2)|apply (aligned_stays _ _ _ _ _ A2)]; try lia; intros i Hi; f_equal; destruct (H i Hi) as [(U1 & U2 & U3) (D1 & D2 & D3)].
  - replace (u i) with 0%nat; [rewrite Nat.sub_0_r; field; lra|]. destruct (u i) as [|b] eqn:B; [easy|]. specialize (U3 0%nat ltac:(lia)). rewrite Nat.sub_0_r in U3. pose proof (rises_le n h (i - S b) i C ltac:(lia)). lra.
  - replace (u i) with w; [rewrite Nat.sub_diag; cbn; field; lra|]. destruct (Nat.eq_dec (u i) w) as [|N]; [easy|]. specialize (U2 w ltac:(lia)). pose proof (falls_le n h (S (i - w)) (i - u i) (drops_falls _ _ C) ltac:(lia)). specialize (C (i - w)%nat ltac:(lia)). lra.
  - replace (d i) with w; [rewrite Nat.sub_diag; cbn; field; lra|]. destruct (Nat.eq_dec (d i) w) as [|N]; [easy|]. specialize (D2 w ltac:(lia)). pose proof (climbs_lt n l (i - w) (i - d i) C ltac:(lia)). lra.
  - replace (d i) with 0%nat; [rewrite Nat.sub_0_r; field; lra|]. destruct (d i) as [|b] eqn:B; [easy|]. specialize (D3 0%nat ltac:(lia)). rewrite Nat.sub_0_r in D3. pose proof (falls_le n l (i - S b) i C ltac:(lia)). lra.
Qed.
(** All money flows one way. *)
Theorem mfi_trend h l c v n w : (0 < w < n)%nat -> (forall k, (k < n)%nat -> 0 < h k /\ 0 < l k /\ 0 < c k /\ 0 < v k) -> let tp k := (h k + l k + c k) / 3 in
  (climbs n tp -> exists o, mfi (xseries h n) (xseries l n) (xseries c n) (xseries v n) w = Ok o /\ stays o n w 100) /\
  (drops n tp -> exists o, mfi (xseries h n) (xseries l n) (xseries c n) (xseries v n) w = Ok o /\ stays o n w 0).
Proof.
  intros Hw P tp. destruct (mfi_real h l c v n w ltac:(lia) ltac:(lia) ltac:(intros k Hk; specialize (P k Hk); lra)) as (o & Q & A). change (typical_price h l c) with tp in A.
  assert (T : forall k, (k < n)%nat -> 0 < tp k * v k) by (intros k Hk; specialize (P k Hk); apply Rmult_lt_0_compat; unfold tp; lra).
  split; intros C; exists o; (split; [exact Q|]); apply (aligned_stays _ _ _ _ _ A); try lia; intros i Hi; cbv zeta.
  - rewrite (sum_zero w (down_flow tp v) i) by (lia || (intros j Hj1 Hj2; unfold down_flow; rewrite (proj2 (Rltb_false _ _)); [easy|]; apply (step_up n); [now apply climbs_rises|lia])).
    assert (0 < Rsum (last_bars w (up_flow tp v) i)) by (apply sum_pos; [lia|]; intros j Hj1 Hj2; unfold up_flow; rewrite (proj2 (Rltb_true _ _)); [apply T; lia|]; apply (leap_up n); [easy|lia]).
    rewrite (proj2 (Req_false _ _)) by lra. f_equal. field. lra.
  - rewrite (sum_zero w (up_flow tp v) i) by (lia || (intros j Hj1 Hj2; unfold up_flow; rewrite (proj2 (Rltb_false _ _)); [easy|]; apply (step_down n); [now apply drops_falls|lia])).
    assert (0 < Rsum (last_bars w (down_flow tp v) i)) by (apply sum_pos; [lia|]; intros j Hj1 Hj2; unfold down_flow; rewrite (proj2 (Rltb_true _ _)); [apply T; lia|]; apply (leap_down n); [easy|lia]).
    rewrite (proj2 (Req_false _ _)) by lra. f_equal. field. lra.
Qed.
(** There is no drawdown in a market that does not fall. *)
Theorem ulcer_trend d n w : (0 < w)%nat -> (2 * (w - 1) <= n)%nat -> (forall k, (k < n)%nat -> 0 < d k) -> rises n d -> exists o, ulcer (xseries d n) w = Ok o /\ stays o n (2 * (w - 1)) 0.
Proof.
  intros Hw Hn P C. destruct (ulcer_real d n w Hw Hn P) as (o & Q & A). exists o. split; [exact Q|]. apply (aligned_stays _ _ _ _ _ A); [easy|]. intros i Hi. f_equal.
  rewrite (last_bars_ext w _ (fun _ => 0) i); [|intros k Hk1 Hk2|lia].
  - replace (mean (last_bars w (fun _ => 0) i)) with 0; [apply sqrt_0|]. pose proof (last_bars_bounds w (fun _ => 0) i 0 0 ltac:(lia) ltac:(intros; lra)). lra.
  - replace (highest w d k) with (d k); [replace (d k - d k) with 0 by ring; unfold Rdiv; ring|]. pose proof (last_bars_nonempty w d k Hw) as N. destruct (Rmax_list_spec _ N) as [I M]. apply Rle_antisym.
    + apply M. unfold last_bars. apply in_map, in_seq. lia.
    + unfold highest. apply In_last_bars in I; [|lia]. destruct I as (j & J1 & J2 & ->). apply (rises_le n); [easy|lia].
Qed.
(** Every volume counts as bought. *)
Theorem obv_trend c v n : rises n c -> exists o, obv (xseries c n) (xseries v n) = Ok o /\ aligned o n 1 NaN (fun i => Fin (Rsum (map v (seq 1 i)))).
Proof.
  intros C. destruct (obv_real c v n) as (o & Q & A). exists o. split; [exact Q|]. revert A. apply realign'. intros i Hi. f_equal. unfold sum_bars. replace (i + 1 - 1)%nat with i by lia. f_equal. apply map_ext_in. intros k Hk. apply in_seq in Hk.
  rewrite (proj2 (Rltb_false _ _)); [easy|]. apply (step_up n); [easy|lia].
Qed.
(** Rising highs and lows are movement in one direction. *)
Theorem adx_trend h l c n w s : (0 < w)%nat -> (0 < s)%nat -> (w + s <= n)%nat -> (forall k, (k < n)%nat -> l k <= c k <= h k) -> climbs n h -> rises n l ->
  exists o, adx (xseries h n) (xseries l n) (xseries c n) w s = Ok o /\ stays (map (fun '(_, m, _) => m) o) n w 0 /\ stays (map (fun '(_, _, x) => x) o) n (w + s - 1) 100.
Proof.
  intros Hw Hs Hn O Ch Rl.
  assert (T : forall k, (1 <= k < n)%nat -> 0 < true_range_of h l c k).
  { intros k Hk. pose proof (leap_up n h k Ch Hk). pose proof (O k ltac:(lia)). pose proof (O (k - 1)%nat ltac:(lia)). unfold true_range_of, Rmax, Rmin. repeat destruct Rle_dec; lra. }
  assert (TP : forall i, (w <= i < n)%nat -> 0 < wilder_from w 1 (true_range_of h l c) i) by (intros i Hi; apply wilder_pos; [easy|lia|]; intros; apply T; lia).
  assert (PP : forall i, (w <= i < n)%nat -> 0 < di w (plus_dm h l) (true_range_of h l c) i).
  { intros i Hi. unfold di. apply Rmult_lt_0_compat; [lra|]. apply Rdiv_lt_0_compat; [|now apply TP]. apply wilder_pos; [easy|lia|]. intros j Hj.
    pose proof (leap_up n h j Ch ltac:(lia)). pose proof (step_up n l j Rl ltac:(lia)). unfold plus_dm. rewrite (proj2 (Rltb_true _ _)) by lra. rewrite Rmax_right; lra. }
  assert (MZ : forall i, (w <= i < n)%nat -> di w (minus_dm h l) (true_range_of h l c) i = 0).
  { intros i Hi. unfold di. rewrite wilder_zero; [unfold Rdiv; ring|easy|lia|]. intros j Hj.
    pose proof (leap_up n h j Ch ltac:(lia)). pose proof (step_up n l j Rl ltac:(lia)). unfold minus_dm. now rewrite (proj2 (Rltb_false _ _)) by lra. }
  pose proof (adx_real h l c n w s Hw Hs Hn O) as R. cbv zeta in R. destruct R as (o & Q & A1 & A2 & A3).
  { intros i Hi. specialize (TP i Hi). specialize (PP i Hi). rewrite (MZ i Hi). split; lra. }
  exists o. split; [exact Q|]. split; [apply (aligned_stays _ _ _ _ _ A2)|apply (aligned_stays _ _ _ _ _ A3)]; try lia; intros i Hi; f_equal; [now apply MZ|].
  pose proof (wilder_from_bounds s w (fun k => 100 * (Rabs (di w (plus_dm h l) (true_range_of h l c) k - di w (minus_dm h l) (true_range_of h l c) k) / (di w (plus_dm h l) (true_range_of h l c) k + di w (minus_dm h l) (true_range_of h l c) k))) i 100 100 Hs ltac:(lia)) as B.
  apply Rle_antisym; apply B; intros j Hj; rewrite MZ by lia; specialize (PP j ltac:(lia)); rewrite Rminus_0_r, Rplus_0_r, Rabs_right by lra; (replace (_ / _) with 1 by (field; lra)); lra.
Qed.

(** ** Averages follow *)
Lemma ewma_follows w k f i n : (0 < w)%nat -> (k + w - 1 <= i)%nat -> (S i < n)%nat -> rises n f -> ewma_from w k f i <= ewma_from w k f (S i) <= f (S i).
Proof.
  intros Hw Hi Hn C. assert (B : forall j, (k + w - 1 <= j < n)%nat -> ewma_from w k f j <= f j) by (intros j Hj; apply (ewma_from_bounds w k f j (f k)); [easy|lia|]; intros q Hq; split; apply (rises_le n); easy || lia).
  split; [|apply B; lia]. rewrite ewma_from_next by easy. specialize (B i ltac:(lia)). specialize (C i Hn). pose proof (lt_0_INR w Hw). assert (0 < 2 / (INR w + 1)) by (apply Rdiv_lt_0_compat; lra). nra.
Qed.
Lemma wilder_follows w k f i n : (0 < w)%nat -> (k + w - 1 <= i)%nat -> (S i < n)%nat -> rises n f -> wilder_from w k f i <= wilder_from w k f (S i) <= f (S i).
Proof.
  intros Hw Hi Hn C. assert (B : forall j, (k + w - 1 <= j < n)%nat -> wilder_from w k f j <= f j) by (intros j Hj; apply (wilder_from_bounds w k f j (f k)); [easy|lia|]; intros q Hq; split; apply (rises_le n); easy || lia).
  split; [|apply B; lia]. rewrite wilder_from_next by easy. specialize (B i ltac:(lia)). specialize (C i Hn). pose proof (lt_0_INR w Hw). assert (0 < 1 / INR w) by (apply Rdiv_lt_0_compat; lra). nra.
Qed.
(** An average of rising prices: never above the price, never falling. *)
Definition follows (o : list xr) (n k : nat) (f : nat -> R) : Prop :=
  exists y, aligned o n k NaN (fun i => Fin (y i)) /\ (forall i, (k <= i < n)%nat -> y i <= f i) /\ (forall i, (k <= i)%nat -> (S i < n)%nat -> y i <= y (S i)).
Theorem ewma_follow f n w : (0 < w <= n)%nat -> rises n f -> exists o, ewma (xseries f n) w = Ok o /\ follows o n (w - 1) f.
Proof.
  intros Hw C. destruct (ewma_from_at f w 0 n ltac:(lia)) as (o & Q & A). exists o. split; [exact Q|]. exists (ewma_from w 0 f). split; [exact A|]. split.
  - intros i Hi. apply (ewma_from_bounds w 0 f i (f 0%nat)); [lia|lia|]. intros j Hj. split; apply (rises_le n); easy || lia.
  - intros i Hi Hn. apply (ewma_follows w 0 f i n); easy || lia.
Qed.
Theorem wilder_follow f n w : (0 < w <= n)%nat -> rises n f -> exists o, wilder (xseries f n) w = Ok o /\ follows o n (w - 1) f.
Proof.
  intros Hw C. destruct (wilder_from_at f w 0 n ltac:(lia)) as (o & Q & A). exists o. split; [exact Q|]. exists (wilder_from w 0 f). split; [exact A|]. split.
  - intros i Hi. apply (wilder_from_bounds w 0 f i (f 0%nat)); [lia|lia|]. intros j Hj. split; apply (rises_le n); easy || lia.
  - intros i Hi Hn. apply (wilder_follows w 0 f i n); easy || lia.
Qed.
(** The average of the shorter window is nearer to a rising price. *)
Lemma mean_snoc f i : mean (map f (seq 0 (S (S i)))) = mean (map f (seq 0 (S i))) + (f (S i) - mean (map f (seq 0 (S i)))) * (1 / INR (S (S i))).
Proof.
  unfold mean. rewrite !map_length, !seq_length, (seq_S (S i) 0), map_app, Rsum_app. cbn [map plus]. rewrite Rsum_cons, Rsum_nil. pose proof (lt_0_INR (S i) ltac:(lia)). rewrite (S_INR (S i)) in *. field. lra.
Qed.
Lemma nearer (e g x a b : R) : 0 <= b <= a -> a <= 1 -> g <= e -> e <= x -> x * b + g * (1 - b) <= x * a + e * (1 - a).
Proof. intros. nra. Qed.
Lemma fast_above s l f i n : (0 < s <= l)%nat -> (l - 1 <= i < n)%nat -> rises n f -> ewma_from l 0 f i <= ewma_from s 0 f i.
Proof.
  intros Hs Hi C. assert (Ps : 1 <= INR s) by (change 1 with (INR 1); apply le_INR; lia). assert (Psl : INR s <= INR l) by (apply le_INR; lia).
  assert (As : 0 <= 2 / (INR s + 1) <= 1) by (split; [apply Rdiv_nonneg; lra|]; apply Rmult_le_reg_r with (INR s + 1); [lra|]; unfold Rdiv; rewrite Rmult_assoc, Rinv_l; lra).
  assert (B : forall w j, (0 < w)%nat -> (w - 1 <= j < n)%nat -> ewma_from w 0 f j <= f j) by (intros w j Hw Hj; apply (ewma_from_bounds w 0 f j (f 0%nat)); [lia|lia|]; intros q Hq; split; apply (rises_le n); easy || lia).
  assert (M : forall k, (s - 1 + k < n)%nat -> mean (map f (seq 0 (S (s - 1 + k)))) <= ewma_from s 0 f (s - 1 + k)).
  { induction k as [|k IH]; intros Hk.
    - rewrite Nat.add_0_r. unfold ewma_from. replace (s - 1 + 1 - (0 + s))%nat with 0%nat by lia. replace (S (s - 1)) with s by lia. apply Rle_refl.
    - specialize (IH ltac:(lia)). rewrite Nat.add_succ_r, mean_snoc, ewma_from_next by lia. set (j := (s - 1 + k)%nat) in *. set (m := mean _) in *.
      assert (Bj : 0 <= 1 / INR (S (S j)) <= 2 / (INR s + 1)).
      { assert (INR s + 1 <= INR (S (S j))) by (rewrite <- S_INR; apply le_INR; unfold j; lia). split; [apply Rdiv_nonneg; lra|]. unfold Rdiv. assert (/ INR (S (S j)) <= / (INR s + 1)) by (apply Rinv_le_contravar; lra). assert (0 < / (INR s + 1)) by (apply Rinv_0_lt_compat; lra). lra. }
      replace (m + (f (S j) - m) * (1 / INR (S (S j)))) with (f (S j) * (1 / INR (S (S j))) + m * (1 - 1 / INR (S (S j)))) by ring. apply nearer; try lra.
      specialize (B s j ltac:(lia) ltac:(unfold j; lia)). specialize (C j ltac:(unfold j in *; lia)). lra. }
  replace i with (l - 1 + (i - (l - 1)))%nat by lia. assert (Hk : (l - 1 + (i - (l - 1)) < n)%nat) by lia. revert Hk. induction (i - (l - 1))%nat as [|k IH]; intros Hk.
  - rewrite Nat.add_0_r in *. specialize (M (l - s)%nat ltac:(lia)). replace (s - 1 + (l - s))%nat with (l - 1)%nat in M by lia. replace (S (l - 1)) with l in M by lia.
    unfold ewma_from at 1. replace (l - 1 + 1 - (0 + l))%nat with 0%nat by lia. exact M.
  - specialize (IH ltac:(lia)). rewrite Nat.add_succ_r, !ewma_from_next by lia. set (j := (l - 1 + k)%nat) in *. apply nearer; try lra.
    + assert (/ (INR l + 1) <= / (INR s + 1)) by (apply Rinv_le_contravar; lra). split; [apply Rdiv_nonneg; lra|]. unfold Rdiv. lra.
    + specialize (B s j ltac:(lia) ltac:(unfold j; lia)). specialize (C j ltac:(unfold j in *; lia)). lra.
Qed.
Lemma rises_opp n f : falls n f -> rises n (fun k => - f k).
Proof. intros H k Hk. specialize (H k Hk). lra. Qed.
Lemma fast_below s l f i n : (0 < s <= l)%nat -> (l - 1 <= i < n)%nat -> falls n f -> ewma_from s 0 f i <= ewma_from l 0 f i.
Proof. intros Hs Hi C. pose proof (fast_above s l (fun k => - f k) i n Hs Hi (rises_opp n f C)) as P. rewrite !ewma_from_opp in P by lia. lra. Qed.
(** The sign of macd and ppo is the direction of the trend. *)
Theorem macd_trend f n s l : (0 < s <= l)%nat -> (l <= n)%nat -> exists o y, macd (xseries f n) s l = Ok o /\ aligned o n (l - 1) NaN (fun i => Fin (y i)) /\
  (rises n f -> forall i, (l - 1 <= i < n)%nat -> 0 <= y i) /\ (falls n f -> forall i, (l - 1 <= i < n)%nat -> y i <= 0).
Proof.
  intros Hs Hl. destruct (macd_real f n s l ltac:(lia) ltac:(lia)) as (o & Q & A). rewrite Nat.max_r in A by lia. eexists o, _. split; [exact Q|]. split; [exact A|].
  split; intros C i Hi; [pose proof (fast_above s l f i n Hs Hi C)|pose proof (fast_below s l f i n Hs Hi C)]; lra.
Qed.
Theorem ppo_trend f n s l : (0 < s <= l)%nat -> (l <= n)%nat -> (forall k, (k < n)%nat -> 0 < f k) -> exists o y, ppo (xseries f n) s l = Ok o /\ aligned o n (l - 1) NaN (fun i => Fin (y i)) /\
  (rises n f -> forall i, (l - 1 <= i < n)%nat -> 0 <= y i) /\ (falls n f -> forall i, (l - 1 <= i < n)%nat -> y i <= 0).
Proof.
  intros Hs Hl P. assert (PE : forall i, (l - 1 <= i < n)%nat -> 0 < ewma_from l 0 f i) by (intros i Hi; apply ewma_pos; [lia|lia|]; intros; apply P; lia).
  destruct (ppo_real f n s l ltac:(lia) ltac:(lia)) as (o & Q & A); [intros i Hi; apply Rgt_not_eq, PE; lia|]. rewrite Nat.max_r in A by lia. eexists o, _. split; [exact Q|]. split; [exact A|].
  split; intros C i Hi; specialize (PE i Hi); assert (0 < / ewma_from l 0 f i) by (now apply Rinv_0_lt_compat); [pose proof (fast_above s l f i n Hs Hi C)|pose proof (fast_below s l f i n Hs Hi C)]; unfold Rdiv; nra.
Qed.
(** The ATR stop follows a rising close: it never falls, is never passed by the close and
    never turns. *)
Theorem atr_stop_follow h l c n w mult : (0 < w < n)%nat -> (forall k, (k < n)%nat -> l k <= h k) -> 0 <= unwrap_or mult 3 -> (forall k, (k < n)%nat -> 0 <= c k) -> rises n c ->
  exists o, atr_stop (xseries h n) (xseries l n) (xseries c n) w (option_map Fin mult) = Ok o /\ follows o n w c.
Proof.
  intros Hw O Hm P C. pose proof (atr_stop_real h l c n w mult Hw O) as R. cbv zeta in R. destruct R as (o & sp & ri & Q & A & S0 & R0 & St). exists o. split; [exact Q|].
  set (d := fun i => unwrap_or mult 3 * wilder_from w 1 (true_range_of h l c) i) in *.
  assert (D : forall i, (w <= i < n)%nat -> 0 <= d i).
  { intros i Hi. unfold d. apply Rmult_le_pos; [easy|]. apply wilder_from_bounds with (hi := Rmax_list (map (true_range_of h l c) (seq 0 (S i)))); [lia|lia|]. intros j Hj. split.
    - unfold true_range_of. specialize (O j ltac:(lia)). unfold Rmax, Rmin. repeat destruct Rle_dec; lra.
    - apply Rmax_list_spec; [discriminate|]. apply in_map, in_seq. lia. }
  assert (G : forall k, (w + k < n)%nat -> ri (S (w + k)) = true /\ sp (w + k)%nat <= sp (S (w + k)) <= c (w + k)%nat).
  { induction k as [|k IH]; intros Hk.
    - rewrite Nat.add_0_r in *. specialize (St w ltac:(lia)). rewrite R0 in St. change (unwrap_or mult 3 * _) with (d w) in St. specialize (D w ltac:(lia)). specialize (P w ltac:(lia)).
      assert (L : Rmax (sp w) (c w - d w) <= c w) by (rewrite S0; apply Rmax_lub; lra). rewrite (proj2 (Rleb_true _ _) L) in St. destruct St as [E1 E2]. rewrite ?E1, ?E2. split; [easy|]. split; [apply Rmax_l|exact L].
    - specialize (IH ltac:(lia)). destruct IH as [I1 I2]. rewrite Nat.add_succ_r. specialize (St (S (w + k)) ltac:(lia)). rewrite I1 in St. change (unwrap_or mult 3 * _) with (d (S (w + k))) in St. specialize (D (S (w + k)) ltac:(lia)). specialize (C (w + k)%nat ltac:(lia)).
      assert (L : Rmax (sp (S (w + k))) (c (S (w + k)) - d (S (w + k))) <= c (S (w + k))) by (apply Rmax_lub; lra). rewrite (proj2 (Rleb_true _ _) L) in St. destruct St as [E1 E2]. rewrite ?E1, ?E2. split; [easy|]. split; [apply Rmax_l|exact L]. }
  exists (fun i => sp (S i)). split; [exact A|]. split.
  - intros i Hi. destruct (G (i - w)%nat ltac:(lia)) as [_ H]. replace (w + (i - w))%nat with i in H by lia. lra.
  - intros i Hi Hn. destruct (G (S i - w)%nat ltac:(lia)) as [_ H]. replace (w + (S i - w))%nat with (S i) in H by lia. lra.
Qed.
