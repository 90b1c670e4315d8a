(** * TrendingB: signs of change, running totals and stops in markets that only rise or
    only fall (C95, continued). *)

From Coq Require Import Reals Lra Lia List.
From Verif Require Import Base Num XReal Spec RSpec Bars BaseFacts Smooth Volatility Momentum Trend Volume.
From Verif Require Import XRFacts SmoothReal OrderStat DistReal Dispatch VolumeReal MomReal VolatReal TrendReal Ranges Forget ForgetB ForgetC Limits LimitsB Trending.
Import ListNotations.
Local Unset Implicit Arguments.
Local Open Scope R_scope.

(** Every item is NaN or at most [hi]. *)
Definition at_most (o : list xr) (hi : R) : Prop :=
  forall i x, nth_error o i = Some x -> x = NaN \/ exists r, x = Fin r /\ r <= hi.
Lemma aligned_most o n k (g : nat -> R) hi : aligned o n k NaN (fun i => Fin (g i)) -> (forall i, (k <= i < n)%nat -> g i <= hi) -> at_most o hi.
Proof.
  intros (L & A & B) H i x E. assert (i < length o)%nat by (apply nth_error_Some; now rewrite E).
  destruct (Nat.lt_ge_cases i k) as [K|K].
  - rewrite A in E by easy. left. now injection E.
  - rewrite B in E by lia. injection E as <-. right. eexists. split; [reflexivity|]. apply H. lia.
Qed.
(** Printed values that never decrease. *)
Definition never_falls (o : list xr) (n k : nat) : Prop :=
  exists y, aligned o n k NaN (fun i => Fin (y i)) /\ forall i, (k <= i)%nat -> (S i < n)%nat -> y i <= y (S i).

(** ** Rates of change *)
Lemma change_up x y : 0 < x -> x <= y -> 0 <= (y - x) / x.
Proof. intros. apply Rdiv_nonneg; lra. Qed.
Lemma change_down x y : 0 < x -> y <= x -> (y - x) / x <= 0.
Proof. intros. assert (0 < / x) by now apply Rinv_0_lt_compat. unfold Rdiv. nra. Qed.
Theorem roc_trend f n w o : (0 < w)%nat -> (forall k, (k < n)%nat -> 0 < f k) -> roc (xseries f n) w = Ok o -> (rises n f -> at_least o 0) /\ (falls n f -> at_most o 0).
Proof.
  intros Hw P H. out H (roc_real f n w Hw (fun k Hk => not_eq_sym (Rlt_not_eq 0 (f k) (P k Hk)))) A. split; intros C; [apply (aligned_least _ _ _ _ _ A)|apply (aligned_most _ _ _ _ _ A)]; intros i Hi.
  - pose proof (change_up (f (i - (w - 1))%nat) (f i) ltac:(apply P; lia) ltac:(apply (rises_le n); [easy|lia])). lra.
  - pose proof (change_down (f (i - (w - 1))%nat) (f i) ltac:(apply P; lia) ltac:(apply (falls_le n); [easy|lia])). lra.
Qed.
Theorem pmo_trend f n w1 w2 o : (0 < w1)%nat -> (0 < w2)%nat -> (w1 + w2 <= n)%nat -> (forall k, (k < n)%nat -> 0 < f k) -> pmo (xseries f n) w1 w2 = Ok o -> (rises n f -> at_least o 0) /\ (falls n f -> at_most o 0).
Proof.
  intros H1 H2 Hn P H. pose proof (pmo_real f n w1 w2 H1 H2 Hn (fun k Hk => not_eq_sym (Rlt_not_eq 0 (f k) (P k Hk)))) as R. cbv zeta in R. out H R A.
  set (r := fun k => 1000 * (f k / f (k - 1)%nat - 1)) in *.
  assert (RC : forall k, (1 <= k < n)%nat -> r k = 1000 * ((f k - f (k - 1)%nat) / f (k - 1)%nat)) by (intros k Hk; unfold r; specialize (P (k - 1)%nat ltac:(lia)); field; lra).
  split; intros C; [apply (aligned_least _ _ _ _ _ A)|apply (aligned_most _ _ _ _ _ A)]; intros i Hi; destruct (most_of r i) as (M & HM); destruct (most_of (fun k => - r k) i) as (M' & HM').
  - apply (ewma_from_bounds w2 w1 _ i 0 M); [easy|lia|]. intros j Hj. apply ewma_from_bounds; [easy|lia|]. intros k Hk. split; [|apply HM; lia]. rewrite RC by lia.
    pose proof (change_up (f (k - 1)%nat) (f k) ltac:(apply P; lia) ltac:(apply (rises_le n); [easy|lia])). lra.
  - apply (ewma_from_bounds w2 w1 _ i (- M') 0); [easy|lia|]. intros j Hj. apply ewma_from_bounds; [easy|lia|]. intros k Hk. specialize (HM' k ltac:(lia)). cbv beta in HM'. split; [lra|]. rewrite RC by lia.
    pose proof (change_down (f (k - 1)%nat) (f k) ltac:(apply P; lia) ltac:(apply (falls_le n); [easy|lia])). lra.
Qed.
Theorem elder_force_trend c v n w o : (0 < w < n)%nat -> (forall k, (k < n)%nat -> 0 <= v k) -> elder_force (xseries c n) (xseries v n) w = Ok o -> (rises n c -> at_least o 0) /\ (falls n c -> at_most o 0).
Proof.
  intros Hw V H. out H (elder_force_real c v n w Hw) A. set (r := fun k => (c k - c (k - 1)%nat) * v k) in *.
  split; intros C; [apply (aligned_least _ _ _ _ _ A)|apply (aligned_most _ _ _ _ _ A)]; intros i Hi; destruct (most_of r i) as (M & HM); destruct (most_of (fun k => - r k) i) as (M' & HM').
  - apply (ewma_from_bounds w 1 _ i 0 M); [lia|lia|]. intros k Hk. split; [|apply HM; lia]. apply Rmult_le_pos; [|apply V; lia]. pose proof (step_up n c k C ltac:(lia)). lra.
  - apply (ewma_from_bounds w 1 _ i (- M') 0); [lia|lia|]. intros k Hk. specialize (HM' k ltac:(lia)). cbv beta in HM'. split; [lra|]. unfold r. pose proof (step_down n c k C ltac:(lia)). specialize (V k ltac:(lia)). nra.
Qed.
Lemma avg_roc_signs f n r p i : (0 < p)%nat -> (r + p <= i + 1)%nat -> (i < n)%nat -> (forall k, (k < n)%nat -> 0 < f k) -> (rises n f -> 0 <= avg_roc f r p i) /\ (falls n f -> avg_roc f r p i <= 0).
Proof.
  intros Hp Hr Hi P. unfold avg_roc. set (g := fun k => 100 * ((f k - f (k - r)%nat) / f (k - r)%nat)). destruct (most_of g i) as (M & HM). destruct (most_of (fun k => - g k) i) as (M' & HM').
  split; intros C.
  - apply (last_bars_bounds p g i 0 M); [lia|]. intros j Hj1 Hj2. split; [|now apply HM]. unfold g. pose proof (change_up (f (j - r)%nat) (f j) ltac:(apply P; lia) ltac:(apply (rises_le n); [easy|lia])). lra.
  - apply (last_bars_bounds p g i (- M') 0); [lia|]. intros j Hj1 Hj2. specialize (HM' j Hj1). cbv beta in HM'. split; [lra|]. unfold g. pose proof (change_down (f (j - r)%nat) (f j) ltac:(apply P; lia) ltac:(apply (falls_le n); [easy|lia])). lra.
Qed.
Lemma roc_term_signs f n ts i : (i < n)%nat -> (forall k, (k < n)%nat -> 0 < f k) -> (forall r p m, In (r, p, m) ts -> (0 < p)%nat /\ 0 <= m) ->
  let v := Rsum (map (fun '(r, p, m) => if (r + p <=? i + 1)%nat then m * avg_roc f r p i else 0) ts) in (rises n f -> 0 <= v) /\ (falls n f -> v <= 0).
Proof.
  intros Hi P. cbv zeta. induction ts as [|[[r p] m] ts IH]; intros HT; cbn [map]; rewrite ?Rsum_nil, ?Rsum_cons; [split; intros; lra|].
  destruct (HT r p m ltac:(now left)) as [Hp Hm]. destruct (IH ltac:(intros r' p' m' I; apply (HT r' p' m'); now right)) as [I1 I2].
  destruct (Nat.leb_spec (r + p) (i + 1)) as [L|L]; [|split; intros C; [specialize (I1 C)|specialize (I2 C)]; lra]. destruct (avg_roc_signs f n r p i Hp L Hi P) as [A1 A2].
  split; intros C; [specialize (I1 C); specialize (A1 C)|specialize (I2 C); specialize (A2 C)]; nra.
Qed.
Theorem kst_trend f n o : (19 <= n)%nat -> (forall k, (k < n)%nat -> 0 < f k) -> kst (xseries f n) None None = Ok o -> (rises n f -> at_least o 0) /\ (falls n f -> at_most o 0).
Proof.
  intros Hn P H. out H (kst_real f n Hn (fun k Hk => not_eq_sym (Rlt_not_eq 0 (f k) (P k Hk)))) A.
  split; intros C; [apply (aligned_least _ _ _ _ _ A)|apply (aligned_most _ _ _ _ _ A)]; intros i Hi; apply (roc_term_signs f n _ i); try easy; intros r p m I; repeat (destruct I as [I|I]; [injection I as <- <- <-; split; [lia|lra]|]); destruct I.
Qed.
Theorem special_k_trend f n o : (19 <= n)%nat -> (forall k, (k < n)%nat -> 0 < f k) -> special_k (xseries f n) = Ok o -> (rises n f -> at_least o 0) /\ (falls n f -> at_most o 0).
Proof.
  intros Hn P H. out H (special_k_real f n Hn (fun k Hk => not_eq_sym (Rlt_not_eq 0 (f k) (P k Hk)))) A.
  split; intros C; [apply (aligned_least _ _ _ _ _ A)|apply (aligned_most _ _ _ _ _ A)]; intros i Hi; apply (roc_term_signs f n _ i); try easy; intros r p m I; repeat (destruct I as [I|I]; [injection I as <- <- <-; split; [lia|lra]|]); destruct I.
Qed.
(** ** Running totals *)
Theorem vpt_follow c v n : (0 < n)%nat -> (forall k, (k < n)%nat -> 0 < c k /\ 0 <= v k) -> rises n c -> exists o, vpt (xseries c n) (xseries v n) = Ok o /\ never_falls o n 1.
Proof.
  intros Hn P C. destruct (vpt_real c v n Hn ltac:(intros k Hk; specialize (P k Hk); lra)) as (o & Q & A). exists o. split; [exact Q|]. eexists. split; [exact A|]. intros i Hi Hn'. cbv beta.
  rewrite sum_bars_last by easy. replace (S i - 1)%nat with i by lia. destruct (P (S i) ltac:(lia)) as [_ V]. pose proof (change_up (c i) (c (S i)) ltac:(apply P; lia) (C i Hn')) as U. pose proof (Rmult_le_pos _ _ V U). lra.
Qed.
Theorem pvi_follow c v n : (forall k, (k < n)%nat -> 0 < c k) -> rises n c -> never_falls (pvi (xseries c n) (xseries v n)) n 1.
Proof.
  intros P C. eexists. split; [exact (pvi_real c v n (fun k Hk => not_eq_sym (Rlt_not_eq 0 (c k) (P k Hk))))|]. intros i Hi Hn. cbn [compound].
  assert (K : forall sel j, (j < n)%nat -> 0 < compound sel c j).
  { intros sel. induction j as [|j IH]; intros Hj; cbn [compound]; [lra|]. specialize (IH ltac:(lia)). apply Rmult_lt_0_compat; [easy|]. destruct (sel (S j)); [apply Rdiv_lt_0_compat; apply P; lia|lra]. }
  specialize (K (fun k => Rltb (v (k - 1)%nat) (v k)) i ltac:(lia)). destruct (Rltb _ _); [|lra].
  assert (1 <= c (S i) / c i).
  { pose proof (P i ltac:(lia)). specialize (C i Hn). apply Rmult_le_reg_r with (c i); [easy|]. unfold Rdiv. rewrite Rmult_assoc, Rinv_l; lra. } nra.
Qed.
Theorem nvi_follow c v n : (forall k, (k < n)%nat -> 0 < c k) -> rises n c -> never_falls (nvi (xseries c n) (xseries v n)) n 1.
Proof.
  intros P C. eexists. split; [exact (nvi_real c v n (fun k Hk => not_eq_sym (Rlt_not_eq 0 (c k) (P k Hk))))|]. intros i Hi Hn. cbn [compound].
  assert (K : forall sel j, (j < n)%nat -> 0 < compound sel c j).
  { intros sel. induction j as [|j IH]; intros Hj; cbn [compound]; [lra|]. specialize (IH ltac:(lia)). apply Rmult_lt_0_compat; [easy|]. destruct (sel (S j)); [apply Rdiv_lt_0_compat; apply P; lia|lra]. }
  specialize (K (fun k => Rltb (v k) (v (k - 1)%nat)) i ltac:(lia)). destruct (Rltb _ _); [|lra].
  assert (1 <= c (S i) / c i).
  { pose proof (P i ltac:(lia)). specialize (C i Hn). apply Rmult_le_reg_r with (c i); [easy|]. unfold Rdiv. rewrite Rmult_assoc, Rinv_l; lra. } nra.
Qed.
Theorem relative_vol_trend c n w sm : (2 <= w)%nat -> (0 < sm)%nat -> (w - 1 + sm <= n)%nat -> 
  (climbs n c -> exists o, relative_vol (xseries c n) w sm = Ok o /\ stays o n (w + sm - 2) 100) /\ (drops n c -> exists o, relative_vol (xseries c n) w sm = Ok o /\ stays o n (w + sm - 2) 0).
Proof.
  intros Hw Hs Hn. destruct (relative_vol_real c n w sm Hw Hs Hn) as (o & Q & A).
  assert (V : forall k, (w - 1 <= k < n)%nat -> c (k - 1)%nat <> c k -> 0 < sqrt (var (last_bars w c k))).
  { intros k Hk N. apply sqrt_lt_R0. destruct (var_nonneg (last_bars w c k)) as [|Z]; [easy|]. exfalso. apply N. symmetry in Z.
    assert (NE := last_bars_nonempty w c k ltac:(lia)). assert (L : 0 < INR (length (last_bars w c k))) by (apply lt_0_INR; destruct (last_bars w c k); [easy|cbn; lia]).
    rewrite var_dev in Z. assert (D : dev 2 (last_bars w c k) = 0) by (unfold Rdiv in Z; apply Rmult_integral in Z; destruct Z as [Z|Z]; [easy|]; apply Rinv_neq_0_compat in Z; lra || (pose proof (Rinv_0_lt_compat _ L); lra)).
    pose proof (proj1 (dev2_zero _) D) as E. rewrite (E (c k)), (E (c (k - 1)%nat)); [easy| |]; (apply In_last_bars; [lia|]); eexists; (split; [|split; [|reflexivity]]); lia. }
  split; intros C; exists o; (split; [exact Q|]); apply (aligned_stays _ _ _ _ _ A); try lia; intros i Hi; cbv zeta.
  - rewrite (wilder_zero sm (w - 1) (loss_dev w c) i) by (lia || (intros j Hj; unfold loss_dev; rewrite (proj2 (Rltb_true _ _)); [easy|]; apply (leap_up n); [easy|lia])).
    assert (0 < wilder_from sm (w - 1) (gain_dev w c) i).
    { apply wilder_pos; [lia|lia|]. intros j Hj. pose proof (leap_up n c j C ltac:(lia)). unfold gain_dev. rewrite (proj2 (Rltb_false _ _)) by lra. apply V; [lia|lra]. }
    rewrite (proj2 (Req_false _ _)) by lra. f_equal. field. lra.
  - rewrite (wilder_zero sm (w - 1) (gain_dev w c) i) by (lia || (intros j Hj; unfold gain_dev; rewrite (proj2 (Rltb_true _ _)); [easy|]; apply (leap_down n); [easy|lia])).
    assert (0 < wilder_from sm (w - 1) (loss_dev w c) i).
    { apply wilder_pos; [lia|lia|]. intros j Hj. pose proof (leap_down n c j C ltac:(lia)). unfold loss_dev. rewrite (proj2 (Rltb_false _ _)) by lra. apply V; [lia|lra]. }
    rewrite (proj2 (Req_false _ _)) by lra. f_equal. field. lra.
Qed.

(** ** Simple averages *)
Lemma mean_follows w f i n : (0 < w <= i + 1)%nat -> (S i < n)%nat -> rises n f -> mean (last_bars w f i) <= mean (last_bars w f (S i)).
Proof.
  intros Hw Hn C. assert (P : 0 < INR w) by (apply lt_0_INR; lia). unfold mean. rewrite !length_last_bars. unfold Rdiv. apply Rmult_le_compat_r; [apply Rlt_le, Rinv_0_lt_compat, P|].
  unfold last_bars. replace (S i + 1 - w)%nat with (S (i + 1 - w)) by lia. rewrite <- seq_shift, map_map.
  assert (G : forall l, (forall k, In k l -> f k <= f (S k)) -> Rsum (map f l) <= Rsum (map (fun k => f (S k)) l)).
  { induction l as [|a l IH]; intros H; cbn [map]; rewrite ?Rsum_nil, ?Rsum_cons; [lra|]. specialize (IH ltac:(intros; apply H; now right)). specialize (H a ltac:(now left)). lra. }
  apply G. intros k Hk. apply in_seq in Hk. apply C. lia.
Qed.
Theorem sma_follow f n w : (0 < w <= n)%nat -> rises n f -> exists o, sma (xseries f n) w = Ok o /\ follows o n (w - 1) f.
Proof.
  intros Hw C. unfold xseries, series. rewrite sma_bars by lia. eexists. split; [reflexivity|]. exists (fun i => mean (last_bars w f i)). split; [|split].
  - replace (0 + w - 1)%nat with (w - 1)%nat by lia. replace (n + 1 - w)%nat with (n - (w - 1))%nat by lia. apply aligned_bars. lia.
  - intros i Hi. apply (last_bars_bounds w f i (f 0%nat)); [lia|]. intros j Hj1 Hj2. split; apply (rises_le n); easy || lia.
  - intros i Hi Hn. apply (mean_follows w f i n); easy || lia.
Qed.

(** ** The parabolic stop *)
(** The parabolic stop turns on every bar of a market whose highs and lows all rise, when
    the bars are tall for their advance: on every second bar it is at the high. *)
Theorem psar_trend_refuted : exists h l, (forall n, climbs n h) /\ (forall n, climbs n l) /\ (forall k, l k < h k) /\
  forall n, (0 < n)%nat -> exists o, psar (xseries h n) (xseries l n) None None = Ok o /\ aligned o n 1 NaN (fun i => Fin (if Nat.even i then h i else l (i - 1)%nat)).
Proof.
  exists (fun k => INR k + 200), INR. split; [intros n k Hk; rewrite S_INR; lra|]. split; [intros n k Hk; rewrite S_INR; lra|]. split; [intros; lra|]. intros n Hn.
  destruct (psar_real (fun k => INR k + 200) INR n None None Hn) as (o & st & Q & A & S0 & SS). cbn [unwrap_or option_map] in *. exists o. split; [exact Q|].
  assert (T : forall i, st i = if Nat.even i then (0.02, false, INR i + 200, INR i) else (0.02, true, INR (i - 1), INR i + 200)).
  { induction i as [|i IH]; [rewrite S0; cbn; reflexivity|]. rewrite SS, IH, Nat.even_succ, <- Nat.negb_even. destruct (Nat.even i) eqn:V; cbn [negb]; unfold sar_next.
    - rewrite (proj2 (Rltb_true _ _)) by (rewrite S_INR; lra). rewrite Rmin_left by (rewrite S_INR; lra). now replace (S i - 1)%nat with i by lia.
    - destruct i as [|i]; [discriminate|]. replace (S i - 1)%nat with i by lia. rewrite (proj2 (Rltb_true _ _)) by (rewrite !S_INR; lra). rewrite Rmax_right by (rewrite !S_INR; lra). reflexivity. }
  revert A. apply realign'. intros i Hi. f_equal. rewrite T. now destruct (Nat.even i).
Qed.
