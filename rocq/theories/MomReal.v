(** * MomReal: what the indicators of momentum.rs compute.

    First in any arithmetic, then in exact arithmetic. *)

From Coq Require Import Reals Lra Lia.
From Verif Require Import Spec BaseFacts Tac SmoothShape VolShape TrendShape MomShape Prings XReal RSpec XRFacts SmoothVals SmoothReal SmoothReal2 Convex DistReal Select OrderStat Bars VolumeReal VolatReal Momentum.
Local Unset Implicit Arguments.

Section Generic.
  Context {F : Type} {FO : FOps F}.
  Local Open Scope F_scope.

  Lemma pairs_series (f : nat -> F) n : pairs (series f n) = map (fun k => (f (k - 1)%nat, f k)) (seq 1 (n - 1)).
  Proof.
    unfold pairs, series. rewrite skipn_bars. cbn [plus]. rewrite (shift_bars 1 f 0 n). cbn [plus]. rewrite combine_bars. f_equal. f_equal. lia.
  Qed.
  Lemma pairs_bars (f : nat -> F) a n : pairs (map f (seq a n)) = map (fun k => (f (k - 1)%nat, f k)) (seq (S a) (n - 1)).
  Proof.
    unfold pairs. rewrite skipn_bars. rewrite (shift_bars 1 f a n). rewrite Nat.add_1_r, combine_bars. f_equal. f_equal. lia.
  Qed.

  Lemma hlc_windows_bars (h l c : nat -> F) n w : (0 < w)%nat -> (w - 1 <= n)%nat ->
    hlc_windows (series h n) (series l n) (series c n) w =
    Ok (map (fun i => (last_bars w h i, last_bars w l i, c i)) (seq (w - 1) (n - (w - 1)))).
  Proof.
    intros Hw Hn. unfold hlc_windows, series. rewrite !rwindows_bars by easy. cbn [bind]. unfold usub. rewrite (proj2 (Nat.leb_le 1 w)) by lia. cbn [bind].
    rewrite slice_from_bars by lia. cbn [bind plus]. unfold zip3. replace (n + 1 - w)%nat with (n - (w - 1))%nat by lia. rewrite !combine_bars, !Nat.min_id. reflexivity.
  Qed.
  (** [wpr]: minus 100 times the distance of the close from the highest high, relative to the range. *)
  Theorem wpr_values (h l c : nat -> F) n w : (0 < w)%nat -> (w - 1 <= n)%nat ->
    exists o, wpr (series h n) (series l n) (series c n) w = Ok o /\
    aligned o n (w - 1) fnan (fun i =>
      #(-100) * ((max_of (last_bars w h i) - c i) / (max_of (last_bars w h i) - min_of (last_bars w l i)))).
  Proof.
    intros Hw Hn. unfold wpr. rewrite hlc_windows_bars by easy. unfold usub. rewrite (proj2 (Nat.leb_le 1 w)) by lia. cbn [bind]. eexists. split; [reflexivity|].
    rewrite map_map. now apply aligned_bars.
  Qed.

  (** [roc]: with window [w] the comparison is with the bar [w - 1] bars ago. *)
  Theorem roc_values (f : nat -> F) n w : (0 < w)%nat ->
    exists o, roc (series f n) w = Ok o /\
    aligned o n (w - 1) fnan (fun i => #100 * (f i / f (i - (w - 1))%nat - #1)).
  Proof.
    intros Hw. unfold roc, series. unfold usub. rewrite (proj2 (Nat.leb_le 1 w)) by lia. cbn [bind]. rewrite rwindows_bars by easy. cbn [bind]. eexists. split; [reflexivity|].
    rewrite map_map. replace (0 + w - 1)%nat with (w - 1)%nat by lia. apply aligned_bars_ext; [lia|]. intros i Hi. unfold roc_win.
    rewrite last__last_bars, at_last_bars by lia. do 4 f_equal. lia.
  Qed.

  Lemma rev_last_bars {A} w (f : nat -> A) i : (w <= i + 1)%nat -> rev (last_bars w f i) = map (fun j => f (i - j)%nat) (seq 0 w).
  Proof.
    intros Hw. unfold last_bars. rewrite <- map_rev. revert i Hw. induction w as [|w IH]; intros i Hw; [easy|].
    rewrite seq_S, rev_app_distr. cbn [rev app map seq]. f_equal; [f_equal; lia|]. destruct w as [|w]; [easy|].
    replace (i + 1 - S (S w))%nat with ((i - 1) + 1 - S w)%nat by lia. rewrite IH by lia. rewrite <- seq_shift, map_map. apply map_ext. intros. f_equal. lia.
  Qed.
  (** [cog]: position-weighted mean of the window, the latest bar at position 1, negated. *)
  Theorem cog_values (f : nat -> F) n w : (0 < w)%nat ->
    exists o, cog (series f n) w = Ok o /\
    aligned o n (w - 1) fnan (fun i => - fsum (map (fun j => f (i - j)%nat * fofnat (S j)) (seq 0 w)) / fsum (last_bars w f i)).
  Proof.
    intros Hw. unfold cog, series. unfold usub. rewrite (proj2 (Nat.leb_le 1 w)) by lia. cbn [bind]. rewrite rwindows_bars by easy. cbn [bind]. eexists. split; [reflexivity|].
    rewrite map_map. replace (0 + w - 1)%nat with (w - 1)%nat by lia. apply aligned_bars_ext; [lia|]. intros i Hi. unfold cog_win.
    rewrite rev_last_bars by lia. rewrite <- seq_shift, (map_map S), combine_bars, map_map, Nat.min_id. reflexivity.
  Qed.
  (** [psych]: share of the last [w] bars that did not close lower (a NaN or a
      negative zero difference counts as down). *)
  Theorem psych_values (f : nat -> F) n w : (0 < w)%nat ->
    exists o, psych (series f n) w = Ok o /\
    aligned o n w fnan (fun i => fsum (last_bars w (fun k => fmax (fsignum (f k - f (k - 1)%nat)) #0) i) * #100 / fofnat w).
  Proof.
    intros Hw. unfold psych. rewrite pairs_series, map_map. rewrite rwindows_bars by easy. cbn [bind]. eexists. split; [reflexivity|].
    rewrite map_map. replace (1 + w - 1)%nat with w by lia. apply aligned_bars. lia.
  Qed.
  (** [cci]: deviation of the typical price from its mean, in units of 0.015 mean deviations. *)
  Theorem cci_values (h l c : nat -> F) n w : (0 < w)%nat ->
    exists o, cci (series h n) (series l n) (series c n) w = Ok o /\
    aligned o n (w - 1) fnan (fun i =>
      let t := fun k => (h k + l k + c k) / #3 in
      let avg := fsum (last_bars w t i) / fofnat w in
      (t i - avg) / (flit 15 1000 * (fold_left (fun acc x => acc + fabs (x - avg)) (last_bars w t i) #0 / fofnat w))).
  Proof.
    intros Hw. unfold cci. rewrite hlc3_series. unfold usub. rewrite (proj2 (Nat.leb_le 1 w)) by lia. cbn [bind]. unfold series. rewrite rwindows_bars by easy. cbn [bind]. eexists. split; [reflexivity|].
    rewrite map_map. replace (0 + w - 1)%nat with (w - 1)%nat by lia. apply aligned_bars_ext; [lia|]. intros i Hi. unfold cci_win. cbv zeta. rewrite last__last_bars by lia. reflexivity.
  Qed.

  (** [si] and [asi] *)
  Lemma swing_bars (o h l c : nat -> F) lim n : (0 < n)%nat ->
    swing (series o n) (series h n) (series l n) (series c n) lim =
    Ok (map (fun k => swing_bar lim (o (k - 1)%nat) (o k) (h k) (l k) (c (k - 1)%nat) (c k)) (seq 1 (n - 1))).
  Proof.
    intros Hn. unfold swing. rewrite !length_series. unfold usub. rewrite (proj2 (Nat.leb_le 1 n)) by lia. cbn [bind].
    rewrite !slice_to_series, !slice_from_series by lia. cbn [bind]. unfold zip6, zip5, zip4, zip3.
    rewrite (shift_bars 1 o 0), (shift_bars 1 c 0). cbn [plus]. rewrite !combine_bars, !Nat.min_id, map_map. reflexivity.
  Qed.
  Theorem si_values (o h l c : nat -> F) lim n : (0 < n)%nat ->
    exists out, si (series o n) (series h n) (series l n) (series c n) lim = Ok out /\
    aligned out n 1 fnan (fun k =>
      let yc := c (k - 1)%nat in let yo := o (k - 1)%nat in
      let r1 := fabs (h k - yc) in let r2 := fabs (l k - yc) in let r3 := h k - l k in let r4 := fabs (yc - yo) / #4 in
      let m := fmax (fmax r1 r2) r3 in
      let r := if r1 =? m then r1 - r2 / #2 + r4 else if r2 =? m then r2 - r1 / #2 + r4 else r3 + r4 in
      ((c k - yc + (c k - o k) / #2 + (yc - yo) / #4) / r) * #50 * fmax r1 r2 / lim).
  Proof. intros Hn. unfold si. rewrite swing_bars by easy. cbn [bind]. eexists. split; [reflexivity|]. now apply aligned_bars1. Qed.
  (** [asi] is the running total of [si], added up from zero in bar order. *)
  Theorem asi_values (o h l c : list F) lim out :
    si o h l c lim = Ok out -> exists x0 xs acc, out = x0 :: xs /\ asi o h l c lim = Ok (x0 :: acc) /\
    length acc = length xs /\
    forall i, (i < length xs)%nat -> nth_error acc i = Some (fold_left fadd (firstn (S i) xs) #0).
  Proof.
    unfold si, asi. destruct (swing o h l c lim) as [s|] eqn:E; [|easy]. cbn [bind]. intros [= <-].
    exists fnan, s, (scan acc_step #0 s). split; [easy|]. split; [easy|]. clear E. generalize (#0 : F) as z. induction s as [|x s IH]; intros z; [easy|].
    cbn [scan acc_step length]. split; [f_equal; apply IH|]. intros i Hi. destruct i as [|i]; [easy|]. cbn [nth_error firstn fold_left].
    destruct (IH (z + x)) as [_ H]. now rewrite H by lia.
  Qed.

  (** [apo] is [macd]. *)
  Theorem apo_macd (d : list F) s l : apo d s l = macd d s l.
  Proof. reflexivity. Qed.

  (** [ultimate] *)
  Theorem ultimate_values (h l c : nat -> F) n w1 w2 w3 : (0 < w3)%nat -> (0 < n)%nat -> (w1 <= w3)%nat -> (w2 <= w3)%nat ->
    exists o, ultimate (series h n) (series l n) (series c n) w1 w2 w3 = Ok o /\
    aligned o n w3 fnan (fun i =>
      let bp := fun k => c k - fmin (l k) (c (k - 1)%nat) in
      let tr := fun k => fmax (h k) (c (k - 1)%nat) - fmin (l k) (c (k - 1)%nat) in
      let tot f w := fold_left fadd (last_bars w f i) #0 in
      #100 * (tot bp w1 / tot tr w1 * #4 + tot bp w2 / tot tr w2 * #2 + tot bp w3 / tot tr w3) / (#4 + #2 + #1)).
  Proof.
    intros Hw Hn H1 H2. unfold ultimate. rewrite !length_series. rewrite !slice_from_series by lia. cbn [bind]. unfold usub. rewrite (proj2 (Nat.leb_le 1 n)) by lia. cbn [bind].
    rewrite slice_to_series by lia. cbn [bind]. unfold zip4, zip3. rewrite (shift_bars 1 c 0). cbn [plus]. rewrite !combine_bars, !Nat.min_id, map_map.
    rewrite rwindows_bars by easy. cbn [bind].
    set (f := fun k => bp_tr (h k, l k, c (k - 1)%nat, c k)).
    assert (S : forall w i, (w <= w3)%nat -> (w3 <= i + 1)%nat -> bp_sums (w3 - w) (last_bars w3 f i) =
        (fold_left fadd (last_bars w (fun k => c k - fmin (l k) (c (k - 1)%nat)) i) #0,
         fold_left fadd (last_bars w (fun k => fmax (h k) (c (k - 1)%nat) - fmin (l k) (c (k - 1)%nat)) i) #0)).
    { intros w i Hw' Hi. unfold bp_sums, last_bars. rewrite skipn_bars. replace (w3 - (w3 - w))%nat with w by lia. replace (i + 1 - w3 + (w3 - w))%nat with (i + 1 - w)%nat by lia.
      generalize (seq (i + 1 - w) w) as ks. generalize (#0 : F) at 1 3 as a. generalize (#0 : F) as b. intros b a ks. revert a b.
      induction ks as [|k ks IH]; intros a b; [easy|]. cbn [map fold_left]. unfold f at 2. cbn [bp_tr]. apply IH. }
    rewrite (@rmap_Ok_map _ _ _ (fun x => match ultimate_win w1 w2 w3 x with Ok y => y | Panic => fnan end)).
    - cbn [bind]. eexists. split; [reflexivity|]. rewrite map_map. replace (1 + w3 - 1)%nat with w3 by lia. apply aligned_bars_ext; [lia|]. intros i Hi.
      unfold ultimate_win. unfold usub. rewrite (proj2 (Nat.leb_le w1 w3)), (proj2 (Nat.leb_le w2 w3)) by lia. cbn [bind].
      rewrite (S w1), (S w2) by lia. pose proof (S w3 i ltac:(lia) ltac:(lia)) as S3. rewrite Nat.sub_diag in S3. rewrite S3. reflexivity.
    - intros x Hx. unfold ultimate_win. unfold usub. rewrite (proj2 (Nat.leb_le w1 w3)), (proj2 (Nat.leb_le w2 w3)) by lia. cbn [bind].
      destruct (bp_sums _ x), (bp_sums _ x), (bp_sums _ x). reflexivity.
  Qed.
End Generic.

Local Open Scope R_scope.

(** ** Shares *)
Lemma x_share a b : 0 <= a -> 0 <= b -> fdiv (fmul (Fin 100) (Fin a)) (Fin (a + b)) = if Req (a + b) 0 then NaN else Fin (100 * (a / (a + b))).
Proof.
  intros Ha Hb. rewrite x_mul. destruct (Req (a + b) 0) eqn:E.
  - apply Req_true in E. assert (a = 0) by lra. assert (b = 0) by lra. subst. rewrite Rplus_0_r, Rmult_0_r. cbn. unfold xdiv. now rewrite !(proj2 (Req_true 0 0)) by easy.
  - apply Req_false in E. rewrite x_div by easy. f_equal. unfold Rdiv. ring.
Qed.
Theorem share_range a b : 0 <= a -> 0 <= b -> a + b <> 0 -> 0 <= 100 * (a / (a + b)) <= 100.
Proof. apply mfi_range. Qed.

Lemma ema_nonneg a s xs : 0 <= a <= 1 -> 0 <= s -> (forall x, In x xs -> 0 <= x) -> 0 <= ema a s xs.
Proof.
  intros Ha. unfold ema. revert s. induction xs as [|x xs IH]; intros s Hs H; [easy|]. cbn [fold_left].
  apply IH; [|intros; apply H; now right]. specialize (H x (or_introl eq_refl)). nra.
Qed.
Lemma mean_nonneg l : (forall x, In x l -> 0 <= x) -> 0 <= mean l.
Proof.
  intros H. unfold mean. destruct l as [|a l]; [cbn; unfold Rdiv; lra|]. apply Rdiv_nonneg; [now apply Rsum_nonneg|apply pos_INR].
Qed.
Lemma wilder_weight w : (0 < w)%nat -> 0 <= 1 / INR w <= 1.
Proof.
  intros Hw. pose proof (INR_pos w Hw). assert (1 <= INR w) by (change 1 with (INR 1); apply le_INR; lia). split; [apply Rdiv_nonneg; lra|].
  apply Rmult_le_reg_r with (INR w); [lra|]. unfold Rdiv. rewrite Rmult_assoc, Rinv_l by lra. lra.
Qed.
Lemma ewma_weight w : (0 < w)%nat -> 0 <= 2 / (INR w + 1) <= 1.
Proof.
  intros Hw. pose proof (INR_pos w Hw). assert (1 <= INR w) by (change 1 with (INR 1); apply le_INR; lia). split; [apply Rdiv_nonneg; lra|].
  apply Rmult_le_reg_r with (INR w + 1); [lra|]. unfold Rdiv. rewrite Rmult_assoc, Rinv_l by lra. lra.
Qed.
Lemma wilder_from_nonneg w k f i : (0 < w)%nat -> (forall j, (k <= j)%nat -> 0 <= f j) -> 0 <= wilder_from w k f i.
Proof.
  intros Hw H. unfold wilder_from. apply ema_nonneg; [now apply wilder_weight|apply mean_nonneg|];
    intros x Hx; apply in_map_iff in Hx as (j & <- & Hj); apply in_seq in Hj; apply H; lia.
Qed.
Lemma ewma_from_nonneg w k f i : (0 < w)%nat -> (forall j, (k <= j)%nat -> 0 <= f j) -> 0 <= ewma_from w k f i.
Proof.
  intros Hw H. unfold ewma_from. apply ema_nonneg; [now apply ewma_weight|apply mean_nonneg|];
    intros x Hx; apply in_map_iff in Hx as (j & <- & Hj); apply in_seq in Hj; apply H; lia.
Qed.
(** Averages are monotone in the data. *)
Lemma ema_le a s s' xs ys : 0 <= a <= 1 -> s <= s' -> Forall2 Rle xs ys -> ema a s xs <= ema a s' ys.
Proof.
  intros Ha Hs H. unfold ema. revert s s' Hs. induction H as [|x y xs ys Hxy H IH]; intros s s' Hs; [easy|]. cbn [fold_left]. apply IH. nra.
Qed.
Lemma Forall2_map_le {A} (f g : A -> R) l : (forall x, In x l -> f x <= g x) -> Forall2 Rle (map f l) (map g l).
Proof. induction l as [|a l IH]; intros H; constructor; [apply H; now left|apply IH; intros; apply H; now right]. Qed.
Lemma mean_le {A} (f g : A -> R) l : (forall x, In x l -> f x <= g x) -> mean (map f l) <= mean (map g l).
Proof.
  intros H. unfold mean. rewrite !map_length. destruct l as [|a l]; [cbn; lra|]. unfold Rdiv. apply Rmult_le_compat_r; [left; apply Rinv_0_lt_compat, INR_pos; cbn; lia|now apply Rsum_le].
Qed.
Lemma ewma_from_le w k f g i : (0 < w)%nat -> (forall j, (k <= j)%nat -> f j <= g j) -> ewma_from w k f i <= ewma_from w k g i.
Proof.
  intros Hw H. unfold ewma_from. apply ema_le; [now apply ewma_weight|apply mean_le|apply Forall2_map_le]; intros j Hj; apply in_seq in Hj; apply H; lia.
Qed.
Lemma ewma_from_opp w k f i : (0 < w)%nat -> ewma_from w k (fun j => - f j) i = - ewma_from w k f i.
Proof.
  intros Hw. unfold ewma_from. replace (mean (map (fun j => - f j) (seq k w))) with (- mean (map f (seq k w))).
  - generalize (mean (map f (seq k w))) as s. generalize (seq (k + w) (i + 1 - (k + w))) as l. unfold ema. induction l as [|j l IH]; intros s; [easy|].
    cbn [map fold_left]. rewrite <- IH. apply f_equal. ring.
  - unfold mean. rewrite !map_length. rewrite (map_ext (fun j => - f j) (fun j => -1 * f j)) by (intros; ring). rewrite Rsum_map_scale. unfold Rdiv. ring.
Qed.
Lemma ewma_from_abs w k f i : (0 < w)%nat -> - ewma_from w k (fun j => Rabs (f j)) i <= ewma_from w k f i <= ewma_from w k (fun j => Rabs (f j)) i.
Proof.
  intros Hw. rewrite <- ewma_from_opp by easy. split; apply ewma_from_le; try easy; intros j _; unfold Rabs; destruct (Rcase_abs (f j)); lra.
Qed.

(** ** rsi *)
(** Up-move and down-move of bar [k] against the bar before. *)
Definition up_move (f : nat -> R) (k : nat) : R := Rmax 0 (f k - f (k - 1)%nat).
Definition down_move (f : nat -> R) (k : nat) : R := Rmax 0 (f (k - 1)%nat - f k).
Lemma up_move_nonneg f k : 0 <= up_move f k.
Proof. apply Rmax_l. Qed.
Lemma down_move_nonneg f k : 0 <= down_move f k.
Proof. apply Rmax_l. Qed.
Lemma x_gain a b : gain (Fin a, Fin b) = Fin (Rmax 0 (b - a)).
Proof. unfold gain. now rewrite x_lit, x_sub, x_max. Qed.
Lemma x_loss a b : loss (Fin a, Fin b) = Fin (Rmax 0 (a - b)).
Proof. unfold loss. rewrite x_lit, x_sub, x_min, x_abs. f_equal. unfold Rabs, Rmin, Rmax. destruct (Rle_dec 0 (b - a)), (Rle_dec 0 (a - b)); destruct (Rcase_abs _); lra. Qed.

(** [rsi]: 100 times the share of the average up-move in the average move, both
    smoothed Wilder's way from bar 1 on; NaN while there has been no move. *)
Theorem rsi_real f n w : (0 < w < n)%nat ->
  exists o, rsi (xseries f n) w = Ok o /\
  aligned o n w NaN (fun i =>
    let u := wilder_from w 1 (up_move f) i in let d := wilder_from w 1 (down_move f) i in
    if Req (u + d) 0 then NaN else Fin (100 * (u / (u + d)))).
Proof.
  intros Hw. unfold rsi, xseries. rewrite pairs_series, !map_map.
  rewrite (map_ext _ (fun k => Fin (up_move f k))) by (intros; apply x_gain).
  rewrite (map_ext (fun x => loss _) (fun k => Fin (down_move f k))) by (intros; apply x_loss).
  destruct (wilder_from_at (up_move f) w 1 (n - 1)) as (g & E & A); [lia|]. destruct (wilder_from_at (down_move f) w 1 (n - 1)) as (l & E' & A'); [lia|].
  rewrite E, E'. cbn [bind]. eexists. split; [reflexivity|]. replace w with (S (w - 1)) at 1 by lia. apply aligned_shift1; [lia|].
  generalize (aligned_pair_same _ _ _ _ _ _ NaN _ _ rsi_ratio A A' ltac:(lia) eq_refl). apply aligned_ext. intros i Hi. cbv beta zeta. unfold rsi_ratio. cbv iota.
  rewrite x_add, x_lit. apply x_share; apply wilder_from_nonneg; try lia; intros; [apply up_move_nonneg|apply down_move_nonneg].
Qed.
Theorem rsi_range f w i : (0 < w)%nat ->
  let u := wilder_from w 1 (up_move f) i in let d := wilder_from w 1 (down_move f) i in
  u + d <> 0 -> 0 <= 100 * (u / (u + d)) <= 100.
Proof. intros Hw u d. apply share_range; apply wilder_from_nonneg; try lia; intros; [apply up_move_nonneg|apply down_move_nonneg]. Qed.

(** ** macd, apo, ppo *)
Theorem macd_real f n s l : (0 < s <= n)%nat -> (0 < l <= n)%nat ->
  exists o, macd (xseries f n) s l = Ok o /\
  aligned o n (Nat.max s l - 1) NaN (fun i => Fin (ewma_from s 0 f i - ewma_from l 0 f i)).
Proof.
  intros Hs Hl. unfold macd, xseries, series. destruct (ewma_from_at f s 0 n Hs) as (o1 & E1 & A1). destruct (ewma_from_at f l 0 n Hl) as (o2 & E2 & A2).
  rewrite E1, E2. cbn [bind]. eexists. split; [reflexivity|]. replace (Nat.max s l - 1)%nat with (Nat.max (s - 1) (l - 1)) by lia.
  generalize (aligned_pair _ _ _ _ _ _ _ NaN _ _ (fun '(x, y) => fsub x y) A1 A2 ltac:(lia) ltac:(lia) x_sub_nan_l x_sub_nan_r). apply aligned_ext. reflexivity.
Qed.
Theorem ppo_real f n s l : (0 < s <= n)%nat -> (0 < l <= n)%nat -> (forall i, (Nat.max s l - 1 <= i < n)%nat -> ewma_from l 0 f i <> 0) ->
  exists o, ppo (xseries f n) s l = Ok o /\
  aligned o n (Nat.max s l - 1) NaN (fun i => Fin (100 * ((ewma_from s 0 f i - ewma_from l 0 f i) / ewma_from l 0 f i))).
Proof.
  intros Hs Hl H. unfold ppo, xseries, series. destruct (ewma_from_at f s 0 n Hs) as (o1 & E1 & A1). destruct (ewma_from_at f l 0 n Hl) as (o2 & E2 & A2).
  rewrite E1, E2. cbn [bind]. eexists. split; [reflexivity|]. replace (Nat.max s l - 1)%nat with (Nat.max (s - 1) (l - 1)) by lia.
  refine (aligned_ext _ (aligned_pair _ _ _ _ _ _ _ NaN _ _ (fun '(x, y) => fmul (flit 100 1) (fsub (fdiv x y) (flit 1 1))) A1 A2 ltac:(lia) ltac:(lia) _ _)).
  - intros i Hi. cbv beta iota. cbn [plus]. specialize (H i ltac:(lia)). rewrite x_div, !x_lit, x_sub, x_mul by easy. f_equal. field. easy.
  - intros x. now rewrite x_div_nan_l, x_sub_nan_l, x_mul_nan_r.
  - intros x. now rewrite x_div_nan_r, x_sub_nan_l, x_mul_nan_r.
Qed.
(** ** elder_ray *)
Theorem elder_ray_real h l c n w : (0 < w <= n)%nat ->
  exists o, elder_ray (xseries h n) (xseries l n) (xseries c n) w = Ok o /\
  aligned o n (w - 1) (NaN, NaN) (fun i => (Fin (h i - ewma_from w 0 c i), Fin (l i - ewma_from w 0 c i))).
Proof.
  intros Hw. unfold elder_ray, xseries, series. destruct (ewma_from_at c w 0 n Hw) as (o & E & A). rewrite E. cbn [bind]. eexists. split; [reflexivity|].
  unfold zip3. rewrite combine_bars, Nat.min_id.
  refine (aligned_ext _ (aligned_pair _ _ n 0 (w - 1) (NaN, NaN) NaN (NaN, NaN) _ _ (fun '(p, c0) => let '(h0, l0) := p in (fsub h0 c0, fsub l0 c0)) (aligned_bars0 (NaN, NaN) _ n) A ltac:(lia) ltac:(lia) _ _)).
  - reflexivity.
  - reflexivity.
  - intros [x y]. now rewrite !x_sub_nan_r.
Qed.
(** ** cmo *)
Theorem cmo_real f n w : (0 < n)%nat ->
  exists o, cmo (xseries f n) w = Ok o /\
  aligned o n w NaN (fun i =>
    let u := Rsum (last_bars w (up_move f) i) in let d := Rsum (last_bars w (down_move f) i) in
    if Req (u + d) 0 then NaN else Fin (100 * ((u - d) / (u + d)))).
Proof.
  intros Hn. unfold cmo, cmo_raw. eexists. split; [reflexivity|].
  assert (C : cmo_cum (xseries f n) = map (fun i => (Fin (sum_bars (up_move f) 1 i), Fin (sum_bars (down_move f) 1 i))) (seq 0 n)).
  { unfold cmo_cum, xseries. rewrite windows2_series. replace n with (S (n - 1)) at 2 by lia. cbn [seq map]. f_equal.
    - now rewrite !sum_bars_empty, !x_lit by lia.
    - apply (scan_inv_bars _ (fun i => (Fin (sum_bars (up_move f) 1 (i - 1)), Fin (sum_bars (down_move f) 1 (i - 1))))).
      + cbn [minus]. now rewrite !sum_bars_empty, !x_lit by lia.
      + intros i Hi. cbn [at_ nth]. rewrite !x_sub, !x_lit, !x_max, !x_add. replace (S i - 1)%nat with i by lia.
        assert (G : forall g, Fin (sum_bars g 1 (i - 1) + g i) = Fin (sum_bars g 1 i)).
        { intros g. f_equal. destruct i as [|[|i]]; [lia|cbn [minus]; rewrite sum_bars_empty, sum_bars_single by lia; lra|].
          cbn [minus]. rewrite (sum_bars_last g 1 (S i)) by lia. reflexivity. }
        rewrite <- (G (up_move f)), <- (G (down_move f)). reflexivity. }
  rewrite C, windows_bars by lia. rewrite !map_map. replace (0 + (w + 1) - 1)%nat with w by lia. apply aligned_bars_ext; [lia|]. intros i Hi. cbv zeta.
  unfold cmo_win. rewrite length_last_bars, !nth_last_bars by lia. replace (i + 1 - (w + 1) + (w + 1 - 1))%nat with i by lia. replace (i + 1 - (w + 1) + 0)%nat with (i - w)%nat by lia.
  cbn [fst snd].
  assert (G : forall g, sum_bars g 1 i - sum_bars g 1 (i - w) = Rsum (last_bars w g i)).
  { intros g. unfold sum_bars, last_bars. replace (i + 1 - 1)%nat with ((i - w) + w)%nat by lia. rewrite seq_app, map_app, Rsum_app.
    replace (i - w + 1 - 1)%nat with (i - w)%nat by lia. replace (1 + (i - w))%nat with (i + 1 - w)%nat by lia. ring. }
  rewrite !x_sub, !G, x_add, x_lit.
  set (u := Rsum (last_bars w (up_move f) i)). set (d := Rsum (last_bars w (down_move f) i)).
  assert (0 <= u) by (apply Rsum_nonneg; intros x Hx; apply in_map_iff in Hx as (k & <- & _); apply up_move_nonneg).
  assert (0 <= d) by (apply Rsum_nonneg; intros x Hx; apply in_map_iff in Hx as (k & <- & _); apply down_move_nonneg).
  destruct (Req (u + d) 0) eqn:E.
  - apply Req_true in E. assert (u = 0) by lra. assert (d = 0) by lra. replace (u - d) with 0 by lra. rewrite E. cbn. unfold xdiv. now rewrite !(proj2 (Req_true 0 0)) by easy.
  - apply Req_false in E. rewrite x_div, x_mul by easy. f_equal. ring.
Qed.
Theorem cmo_range u d : 0 <= u -> 0 <= d -> u + d <> 0 -> -100 <= 100 * ((u - d) / (u + d)) <= 100.
Proof.
  intros. assert (P : 0 < u + d) by lra.
  assert (-1 <= (u - d) / (u + d) <= 1) by (split; apply Rmult_le_reg_r with (1 := P); unfold Rdiv; rewrite Rmult_assoc, Rinv_l by lra; lra). lra.
Qed.

(** ** cfo *)
Theorem cfo_real f n w : (2 <= w)%nat -> (N.of_nat w < 2 ^ 31)%N -> (w - 1 <= n)%nat -> (forall k, (k < n)%nat -> f k <> 0) ->
  exists o (e : nat -> R), cfo (xseries f n) w = Ok o /\
  aligned o n (w - 1) NaN (fun i => Fin (100 * ((f i - e i) / f i))) /\
  forall i, (w - 1 <= i)%nat -> lsq_end (last_bars w f i) (e i).
Proof.
  intros Hw Hb Hn H. unfold cfo. destruct (lrf_of_aligned (xseries f n) n 0 f w (aligned_bars0 NaN _ n) Hw Hb) as (r & e & E & A & L); [lia|].
  rewrite E. cbn [bind]. eexists _, e. split; [reflexivity|]. split; [|exact L]. replace (w - 1)%nat with (Nat.max (0 + w - 1) 0) by lia.
  refine (aligned_ext _ (aligned_pair _ _ n (0 + w - 1) 0 NaN NaN NaN _ _ (fun '(t, x) => fdiv (fmul (flit 100 1) (fsub x t)) x) A (aligned_bars0 NaN _ n) ltac:(lia) ltac:(lia) _ _)).
  - intros i Hi. cbv beta iota. rewrite x_sub, x_lit, x_mul, x_div by (apply H; lia). f_equal. unfold Rdiv. ring.
  - intros x. now rewrite x_sub_nan_r, x_mul_nan_r, x_div_nan_l.
  - intros x. now rewrite x_div_nan_r.
Qed.

(** ** wpr *)
Lemma x_part a b : 0 <= a <= b -> fdiv (Fin a) (Fin b) = if Req b 0 then NaN else Fin (a / b).
Proof.
  intros H. destruct (Req b 0) eqn:E.
  - apply Req_true in E. subst. assert (a = 0) by lra. subst. cbn. unfold xdiv. now rewrite !(proj2 (Req_true 0 0)) by easy.
  - apply Req_false in E. now apply x_div.
Qed.
Lemma part_range a b : 0 <= a <= b -> b <> 0 -> 0 <= a / b <= 1.
Proof.
  intros H N. assert (P : 0 < b) by lra. split; apply Rmult_le_reg_r with (1 := P); unfold Rdiv; rewrite Rmult_assoc, Rinv_l by lra; lra.
Qed.
Lemma close_in_window h l c w i : (0 < w <= i + 1)%nat -> (forall k, (k <= i)%nat -> l k <= c k <= h k) -> lowest w l i <= c i <= highest w h i.
Proof.
  intros Hw H. destruct (highest_spec w h i Hw) as [_ A]. destruct (lowest_spec w l i Hw) as [_ B].
  specialize (A i ltac:(lia) ltac:(lia)). specialize (B i ltac:(lia) ltac:(lia)). specialize (H i ltac:(lia)). lra.
Qed.
(** [wpr] on consistent bars: NaN when the window is flat. *)
Theorem wpr_real h l c n w : (0 < w)%nat -> (w - 1 <= n)%nat -> (forall k, (k < n)%nat -> l k <= c k <= h k) ->
  exists o, wpr (xseries h n) (xseries l n) (xseries c n) w = Ok o /\
  aligned o n (w - 1) NaN (fun i =>
    let hh := highest w h i in let ll := lowest w l i in
    if Req (hh - ll) 0 then NaN else Fin (-100 * ((hh - c i) / (hh - ll)))).
Proof.
  intros Hw Hn H. destruct (wpr_values (fun k => Fin (h k)) (fun k => Fin (l k)) (fun k => Fin (c k)) n w Hw Hn) as (o & E & A). exists o. split; [exact E|].
  revert A. apply aligned_ext. intros i Hi. cbv zeta. rewrite x_highest, x_lowest, !x_sub by easy.
  pose proof (close_in_window h l c w i ltac:(lia) ltac:(intros; apply H; lia)). rewrite x_part by lra. destruct (Req _ 0); [reflexivity|]. now rewrite x_lit, x_mul.
Qed.
Theorem wpr_range h l c w i : (0 < w <= i + 1)%nat -> (forall k, (k <= i)%nat -> l k <= c k <= h k) -> highest w h i - lowest w l i <> 0 ->
  -100 <= -100 * ((highest w h i - c i) / (highest w h i - lowest w l i)) <= 0.
Proof.
  intros Hw H N. pose proof (close_in_window h l c w i Hw H).
  assert (0 <= (highest w h i - c i) / (highest w h i - lowest w l i) <= 1) by (apply part_range; lra). lra.
Qed.

(** ** Chains of averages *)
Lemma skipn_aligned {B} (o : list B) n k na f : aligned o n k na f -> skipn k o = map f (seq k (n - k)).
Proof.
  intros A. rewrite (aligned_eq _ _ _ _ _ A). rewrite skipn_app, length_pad, Nat.sub_diag. rewrite skipn_all2 by now rewrite length_pad. reflexivity.
Qed.
Lemma slice_from_aligned {B} (o : list B) n k na f : aligned o n k na f -> slice_from o k = Ok (map f (seq k (n - k))).
Proof.
  intros A. unfold slice_from. rewrite (proj2 (Nat.leb_le k (length o))) by (destruct A as [-> _]; lia). now rewrite (skipn_aligned _ _ _ _ _ A).
Qed.
(** An average of the part of a list that comes after its warm-up. *)
Lemma aligned_from_start {B} (o : list B) n a k na f : (a <= n)%nat -> aligned o (n - a) k na (fun i => f (a + i)%nat) -> aligned (pad a na ++ o) n (k + a) na f.
Proof. intros Ha A. apply aligned_shift; [easy|]. revert A. apply aligned_ext. intros. f_equal. lia. Qed.

Lemma slice_from_pad {A} k (na : A) l : slice_from (pad k na ++ l) k = Ok l.
Proof.
  unfold slice_from. rewrite app_length, length_pad, (proj2 (Nat.leb_le k _)) by lia. now rewrite skipn_app, length_pad, Nat.sub_diag, skipn_all2 by (rewrite length_pad; lia).
Qed.
(** ** pmo *)
Theorem pmo_real f n w1 w2 : (0 < w1)%nat -> (0 < w2)%nat -> (w1 + w2 <= n)%nat -> (forall k, (k < n)%nat -> f k <> 0) ->
  let r k := 1000 * (f k / f (k - 1)%nat - 1) in
  exists o, pmo (xseries f n) w1 w2 = Ok o /\
  aligned o n (w1 + w2 - 1) NaN (fun i => Fin (ewma_from w2 w1 (ewma_from w1 1 r) i)).
Proof.
  intros H1 H2 Hn H r. unfold pmo, xseries. rewrite pairs_series, map_map.
  rewrite (map_ext_in _ (fun k => Fin (r k))) by (intros k Hk; apply in_seq in Hk; rewrite x_div by (apply H; lia); now rewrite !x_lit, x_sub, x_mul).
  rewrite ewma_bars by lia. cbn [bind]. unfold usub. rewrite (proj2 (Nat.leb_le 1 w1)) by lia. cbn [bind].
  replace (1 + w1 - 1)%nat with w1 by lia. rewrite slice_from_pad. cbn [bind].
  destruct (ewma_from_at (ewma_from w1 1 r) w2 w1 (n - 1 + 1 - w1)) as (o & E & A); [lia|]. rewrite E. cbn [bind]. eexists. split; [reflexivity|].
  replace (w1 + w2 - 1)%nat with (w2 - 1 + w1)%nat by lia. apply aligned_from_start; [lia|]. replace (n - w1)%nat with (n - 1 + 1 - w1)%nat by lia. exact A.
Qed.

(** ** ultimate *)
(** Buying pressure and true range of bar [k]. *)
Definition buying_pressure (l c : nat -> R) (k : nat) : R := c k - Rmin (l k) (c (k - 1)%nat).
Definition ult_range (h l c : nat -> R) (k : nat) : R := Rmax (h k) (c (k - 1)%nat) - Rmin (l k) (c (k - 1)%nat).
Lemma x_fold_fadd l : fold_left fadd (map Fin l) (Fin 0) = Fin (Rsum l).
Proof. rewrite <- (map_id l) at 1. rewrite map_map. rewrite <- (Rplus_0_l (Rsum l)). rewrite <- (map_id l) at 2. generalize 0 as a. induction l as [|x l IH]; intros a; cbn [map fold_left Rsum fold_right]; [now rewrite Rplus_0_r|].
  rewrite x_add, IH. f_equal. unfold Rsum. ring. Qed.
Theorem ultimate_real h l c n w1 w2 w3 : (0 < n)%nat -> (0 < w1 <= w3)%nat -> (0 < w2 <= w3)%nat ->
  (forall w i, w = w1 \/ w = w2 \/ w = w3 -> (w3 <= i < n)%nat -> Rsum (last_bars w (ult_range h l c) i) <> 0) ->
  exists o, ultimate (xseries h n) (xseries l n) (xseries c n) w1 w2 w3 = Ok o /\
  aligned o n w3 NaN (fun i =>
    let avg w := Rsum (last_bars w (buying_pressure l c) i) / Rsum (last_bars w (ult_range h l c) i) in
    Fin (100 * ((4 * avg w1 + 2 * avg w2 + avg w3) / 7))).
Proof.
  intros Hn H1 H2 H. destruct (ultimate_values (fun k => Fin (h k)) (fun k => Fin (l k)) (fun k => Fin (c k)) n w1 w2 w3) as (o & E & A); try lia. exists o. split; [exact E|].
  revert A. apply aligned_ext. intros i Hi. cbv beta zeta.
  assert (B : forall w, last_bars w (fun k => fsub (Fin (c k)) (fmin (Fin (l k)) (Fin (c (k - 1)%nat)))) i = map Fin (last_bars w (buying_pressure l c) i)).
  { intros w. unfold last_bars. rewrite map_map. apply map_ext. intros k. now rewrite x_min, x_sub. }
  assert (T : forall w, last_bars w (fun k => fsub (fmax (Fin (h k)) (Fin (c (k - 1)%nat))) (fmin (Fin (l k)) (Fin (c (k - 1)%nat)))) i = map Fin (last_bars w (ult_range h l c) i)).
  { intros w. unfold last_bars. rewrite map_map. apply map_ext. intros k. now rewrite x_min, x_max, x_sub. }
  rewrite !B, !T, !x_lit, !x_fold_fadd, !x_div by (apply H; tauto). rewrite !x_mul, !x_add, x_mul, x_div by lra. f_equal. field. repeat split; apply H; tauto.
Qed.
Theorem ultimate_range h l c w i : (0 < w <= i)%nat -> (forall k, (k <= i)%nat -> l k <= c k <= h k) -> Rsum (last_bars w (ult_range h l c) i) <> 0 ->
  0 <= Rsum (last_bars w (buying_pressure l c) i) / Rsum (last_bars w (ult_range h l c) i) <= 1.
Proof.
  intros Hw H N. apply part_range; [|easy]. split.
  - apply Rsum_nonneg. intros x Hx. apply in_map_iff in Hx as (k & <- & Hk). apply in_seq in Hk. unfold buying_pressure. pose proof (Rmin_l (l k) (c (k - 1)%nat)). specialize (H k ltac:(lia)). lra.
  - unfold last_bars. apply Rsum_le. intros k Hk. apply in_seq in Hk. unfold buying_pressure, ult_range. pose proof (Rmax_l (h k) (c (k - 1)%nat)). specialize (H k ltac:(lia)). lra.
Qed.
Theorem ultimate_within a b d : 0 <= a <= 1 -> 0 <= b <= 1 -> 0 <= d <= 1 -> 0 <= 100 * ((4 * a + 2 * b + d) / 7) <= 100.
Proof. lra. Qed.

(** ** pgo *)
Theorem pgo_real h l c n w : (0 < w < n)%nat -> (forall k, (k < n)%nat -> l k <= h k) ->
  let a := ewma_from w 1 (true_range_of h l c) in
  (forall i, (w <= i < n)%nat -> a i <> 0) ->
  exists o, pgo (xseries h n) (xseries l n) (xseries c n) w = Ok o /\
  aligned o n w NaN (fun i => Fin ((c i - mean (last_bars w c i)) / a i)).
Proof.
  intros Hw H a Ha. unfold pgo. rewrite true_range_bars_x by (easy || lia). cbn [bind].
  destruct (ewma_from_at (true_range_of h l c) w 1 (n - 1)) as (e & E & A); [lia|]. rewrite E. cbn [bind]. unfold xseries, series.
  destruct (sma_from c w 0 n) as (s & E2 & A2); [lia|]. rewrite E2. cbn [bind]. eexists. split; [reflexivity|]. unfold zip3.
  assert (B : aligned (NaN :: e) n w NaN (fun i => Fin (a i))).
  { replace w with (S (w - 1)) by lia. apply aligned_shift1; [lia|]. replace (S (w - 1) - 1)%nat with (w - 1)%nat by lia. exact A. }
  pose proof (aligned_pair _ _ _ _ _ _ _ (NaN, NaN) _ _ (fun p : xr * xr => (snd p, fst p)) A2 B ltac:(lia) ltac:(lia)) as P.
  replace (map _ (combine (combine _ s) (NaN :: e))) with
    (map (fun '(p, c0) => let '(cm, t) := p in fdiv (fsub c0 cm) t) (combine (combine s (NaN :: e)) (map (fun k => Fin (c k)) (seq 0 n)))).
  - assert (Q : aligned (combine s (NaN :: e)) n (w - 1) (NaN, NaN) (fun i => (Fin (mean (last_bars w c i)), if (i <? w)%nat then NaN else Fin (a i)))).
    { rewrite <- (map_id (combine s (NaN :: e))). refine (aligned_ext _ (aligned_pair_same _ _ _ _ _ NaN (NaN, NaN) _ (fun i => if (i <? w)%nat then NaN else Fin (a i)) (fun p => p) A2 _ ltac:(lia) eq_refl)).
      - reflexivity.
      - destruct B as (B1 & B2 & B3). split; [lia|]. split; intros i Hi; [apply B2; lia|]. destruct (Nat.ltb_spec i w); [now apply B2|apply B3; lia]. }
    pose proof (aligned_pair _ _ n (w - 1) 0 (NaN, NaN) (NaN) NaN _ _ (fun '(p, c0) => let '(cm, t) := p in fdiv (fsub c0 cm) t) Q (aligned_bars0 NaN (fun k => Fin (c k)) n) ltac:(lia) ltac:(lia)) as Z.
    eapply aligned_late; [apply Z| | |].
    + intros x. now rewrite x_sub_nan_r, x_div_nan_l.
    + intros [x y]. now rewrite x_sub_nan_l, x_div_nan_l.
    + lia.
    + intros i Hi. cbv beta iota. rewrite (proj2 (Nat.ltb_lt i w)) by lia. apply x_div_nan_r.
    + intros i Hi. cbv beta iota. rewrite (proj2 (Nat.ltb_ge i w)) by lia. now rewrite x_sub, x_div by now apply Ha.
  - apply nth_error_ext. intros i. rewrite !nth_error_map'.
    assert (C : forall {X Y} (p : list X) (q : list Y) j, nth_error (combine p q) j = match nth_error p j, nth_error q j with Some x, Some y => Some (x, y) | _, _ => None end).
    { intros X Y p. induction p as [|x p IH]; intros [|y q] [|j]; cbn; try easy; now destruct (nth_error p j). }
    rewrite !C. destruct (nth_error s i), (nth_error (NaN :: e) i), (nth_error (map _ (seq 0 n)) i); reflexivity.
Qed.

(** ** trix *)
Theorem trix_real f n w : (0 < w)%nat -> (3 * (w - 1) + 1 <= n)%nat ->
  let e1 := ewma_from w 0 f in let e2 := ewma_from w (w - 1) e1 in let e3 := ewma_from w (2 * (w - 1)) e2 in
  (forall i, (i < n)%nat -> e3 i <> 0) ->
  exists o, trix (xseries f n) w = Ok o /\
  aligned o n (3 * (w - 1) + 1) NaN (fun i => Fin (100 * ((e3 i - e3 (i - 1)%nat) / e3 (i - 1)%nat))).
Proof.
  intros Hw Hn e1 e2 e3 H. unfold trix, xseries, series. destruct (ewma_from_at f w 0 n) as (o1 & E1 & A1); [lia|]. rewrite E1. cbn [bind]. unfold usub. rewrite (proj2 (Nat.leb_le 1 w)) by lia. cbn [bind].
  rewrite (slice_from_aligned _ _ _ _ _ A1). cbn [bind plus].
  destruct (ewma_from_at e1 w (w - 1) (n - (w - 1))) as (o2 & E2 & A2); [lia|]. fold e1. rewrite E2. cbn [bind]. fold e2 in A2.
  rewrite (slice_from_aligned _ _ _ _ _ A2). cbn [bind].
  replace (map (fun i => Fin (e2 (w - 1 + i)%nat)) (seq (w - 1) (n - (w - 1) - (w - 1)))) with (map (fun i => Fin (e2 i)) (seq (2 * (w - 1)) (n - 2 * (w - 1)))).
  2:{ replace (n - 2 * (w - 1))%nat with (n - (w - 1) - (w - 1))%nat by lia. rewrite (shift_bars (w - 1) _ (w - 1)). replace (2 * (w - 1))%nat with (w - 1 + (w - 1))%nat by lia.
      apply map_ext_in. intros i Hi. apply in_seq in Hi. do 2 f_equal. lia. }
  destruct (ewma_from_at e2 w (2 * (w - 1)) (n - 2 * (w - 1))) as (o3 & E3 & A3); [lia|]. rewrite E3. cbn [bind]. fold e3 in A3.
  assert (A3' : aligned o3 (n - 2 * (w - 1)) (w - 1) NaN (fun i => Fin (e3 (i + 2 * (w - 1))%nat))) by (revert A3; apply aligned_ext; intros; do 2 f_equal; lia).
  assert (L : length o3 = (n - 2 * (w - 1))%nat) by (destruct A3 as [-> _]; lia).
  unfold slice_from. rewrite (proj2 (Nat.leb_le 1 (length o3))) by lia. cbn [bind]. eexists. split; [reflexivity|].
  rewrite (aligned_is_series _ _ _ _ _ A3') by lia.
  change (combine (series _ _) (skipn 1 (series _ _))) with (pairs (series (fun i => if (i <? w - 1)%nat then NaN else Fin (e3 (i + 2 * (w - 1))%nat)) (n - 2 * (w - 1)))).
  rewrite pairs_series, map_map. replace ((w - 1) * 2 + 1)%nat with (2 * (w - 1) + 1)%nat by lia.
  rewrite (shift_bars (2 * (w - 1))). replace (1 + 2 * (w - 1))%nat with (2 * (w - 1) + 1)%nat by lia.
  eapply aligned_late; [apply aligned_bars; lia|lia| |].
  - intros i Hi. cbv beta iota. rewrite (proj2 (Nat.ltb_lt (i - 2 * (w - 1) - 1) (w - 1))) by lia. now rewrite x_div_nan_r.
  - intros i Hi. cbv beta iota. rewrite !(proj2 (Nat.ltb_ge _ (w - 1))) by lia. replace (i - 2 * (w - 1) - 1 + 2 * (w - 1))%nat with (i - 1)%nat by lia. replace (i - 2 * (w - 1) + 2 * (w - 1))%nat with i by lia.
    rewrite x_sub, x_lit, x_mul, x_div by (apply H; lia). f_equal. unfold Rdiv. ring.
Qed.

(** ** tii *)
(** Deviations above and below the average; bars before the first average count
    as no deviation. *)
Definition above_avg (w : nat) (f : nat -> R) (k : nat) : R := if (k <? w - 1)%nat then 0 else Rmax (f k - mean (last_bars w f k)) 0.
Definition below_avg (w : nat) (f : nat -> R) (k : nat) : R := if (k <? w - 1)%nat then 0 else Rmax (mean (last_bars w f k) - f k) 0.
(** [tii]: the first values already come out at bar [ceil(w/2) - 1]; the window of
    deviations is only full from bar [w + ceil(w/2) - 2] on. *)
Theorem tii_real f n w : (0 < w)%nat -> (w - 1 <= n)%nat ->
  let v := ((w + 1) / 2)%nat in
  exists o, tii (xseries f n) w = Ok o /\
  aligned o n (v - 1) NaN (fun i =>
    let u := Rsum (last_bars v (above_avg w f) i) in let d := Rsum (last_bars v (below_avg w f) i) in
    if Req (u + d) 0 then NaN else Fin (100 * (u / (u + d)))).
Proof.
  intros Hw Hn v. assert (Hv : (0 < v)%nat) by (pose proof (div_ceil2_spec w) as D; unfold div_ceil2 in D; fold v in D; lia).
  unfold tii, div_ceil2. fold v. unfold usub. rewrite (proj2 (Nat.leb_le 1 v)) by lia. cbn [bind]. unfold xseries, series.
  destruct (sma_from f w 0 n Hw) as (s & E & A). rewrite E. cbn [bind].
  assert (D : map (fun '(avg, actual) => (fmax (fsub actual avg) (flit 0 1), fabs (fmin (fsub actual avg) (flit 0 1)))) (combine s (map (fun k => Fin (f k)) (seq 0 n)))
              = map (fun k => (Fin (above_avg w f k), Fin (below_avg w f k))) (seq 0 n)).
  { rewrite (aligned_is_series _ _ _ _ _ A) by lia. unfold series. rewrite combine_bars, map_map, Nat.min_id. apply map_ext. intros k. unfold above_avg, below_avg. cbn [plus].
    destruct (k <? w - 1)%nat.
    - rewrite x_sub_nan_r, x_max_nan_l, x_min_nan_l, x_lit, x_abs, Rabs_R0. reflexivity.
    - rewrite x_sub, x_lit, x_max, x_min, x_abs. do 2 f_equal. unfold Rabs, Rmin, Rmax.
      destruct (Rle_dec (f k - mean (last_bars w f k)) 0), (Rle_dec (mean (last_bars w f k) - f k) 0); destruct (Rcase_abs _); lra. }
  cbv zeta. rewrite D. rewrite rwindows_bars by easy. cbn [bind]. eexists. split; [reflexivity|]. rewrite map_map. replace (0 + v - 1)%nat with (v - 1)%nat by lia.
  apply aligned_bars_ext; [lia|]. intros i Hi. cbv zeta.
  assert (T : forall l, fold_left (fun '(a, b) '(x, y) => (fadd a x, fadd b y)) (map (fun k => (Fin (above_avg w f k), Fin (below_avg w f k))) l) (flit 0 1, flit 0 1)
              = (Fin (Rsum (map (above_avg w f) l)), Fin (Rsum (map (below_avg w f) l)))).
  { intros l. rewrite x_lit. replace (Rsum (map (above_avg w f) l)) with (0 + Rsum (map (above_avg w f) l)) by ring. replace (Rsum (map (below_avg w f) l)) with (0 + Rsum (map (below_avg w f) l)) by ring.
    generalize 0 at 1 3 as a. generalize 0 as b. induction l as [|k l IH]; intros b a; cbn [map fold_left]; [now rewrite Rsum_nil, !Rplus_0_r|].
    rewrite !x_add, IH, !Rsum_cons. do 2 f_equal; ring. }
  unfold tii_win, last_bars. rewrite T. rewrite x_lit, x_add. apply x_share; apply Rsum_nonneg; intros x Hx; apply in_map_iff in Hx as (k & <- & _); unfold above_avg, below_avg; destruct (k <? w - 1)%nat; try lra; apply Rmax_r.
Qed.

(** ** stochastic, kdj, stc *)
(** Position of [c] in the range of the last [w] bars, in percent. *)
Definition percent_k (w : nat) (h l c : nat -> R) (i : nat) : R := 100 * ((c i - lowest w l i) / (highest w h i - lowest w l i)).
Lemma percent_k_range w h l c i : (0 < w <= i + 1)%nat -> (forall k, (k <= i)%nat -> l k <= c k <= h k) -> highest w h i - lowest w l i <> 0 -> 0 <= percent_k w h l c i <= 100.
Proof. intros Hw H N. pose proof (close_in_window h l c w i Hw H). unfold percent_k. assert (0 <= (c i - lowest w l i) / (highest w h i - lowest w l i) <= 1) by (apply part_range; lra). lra. Qed.
Lemma stoch_bars_x h l c n w : (0 < w)%nat -> (w - 1 <= n)%nat -> (forall i, (w - 1 <= i < n)%nat -> highest w h i - lowest w l i <> 0) ->
  exists ws, hlc_windows (xseries h n) (xseries l n) (xseries c n) w = Ok ws /\
  map stoch_win ws = map (fun i => Fin (percent_k w h l c i)) (seq (w - 1) (n - (w - 1))).
Proof.
  intros Hw Hn N. unfold xseries. rewrite hlc_windows_bars by easy. eexists. split; [reflexivity|]. rewrite map_map. apply map_ext_in. intros i Hi. apply in_seq in Hi.
  unfold stoch_win. rewrite x_highest, x_lowest, !x_sub, x_lit, x_mul, x_div by (lia || apply N; lia). f_equal. unfold percent_k, Rdiv. ring.
Qed.
Lemma stoch_real h l c n w s : (0 < w)%nat -> (0 < s)%nat -> (w + 2 * (s - 1) <= n + 1)%nat ->
  (forall i, (w - 1 <= i < n)%nat -> highest w h i - lowest w l i <> 0) ->
  let k := fun i => mean (last_bars s (percent_k w h l c) i) in
  let d := fun i => mean (last_bars s k i) in
  exists o, stoch (xseries h n) (xseries l n) (xseries c n) w s = Ok o /\
  aligned (map fst o) n (w - 1 + (s - 1)) NaN (fun i => Fin (k i)) /\
  aligned (map snd o) n (w - 1 + 2 * (s - 1)) NaN (fun i => Fin (d i)) /\ length o = n.
Proof.
  intros Hw Hs Hn N k d. unfold stoch. destruct (stoch_bars_x h l c n w Hw ltac:(lia) N) as (ws & E & M). rewrite E. cbn [bind]. rewrite M.
  destruct (sma_from (percent_k w h l c) s (w - 1) (n - (w - 1)) Hs) as (o1 & E1 & A1). rewrite E1. cbn [bind]. unfold usub. rewrite (proj2 (Nat.leb_le 1 s)), (proj2 (Nat.leb_le 1 w)) by lia. cbn [bind].
  rewrite (slice_from_aligned _ _ _ _ _ A1). cbn [bind].
  replace (map _ (seq (s - 1) (n - (w - 1) - (s - 1)))) with (map (fun i => Fin (k i)) (seq (w - 1 + (s - 1)) (n - (w - 1) - (s - 1)))).
  2:{ rewrite (shift_bars (w - 1) _ (s - 1)). rewrite (Nat.add_comm (w - 1)). apply map_ext_in. intros i Hi. apply in_seq in Hi. unfold k. do 3 f_equal. lia. }
  destruct (sma_from k s (w - 1 + (s - 1)) (n - (w - 1) - (s - 1)) Hs) as (o2 & E2 & A2). rewrite E2. cbn [bind]. eexists. split; [reflexivity|].
  assert (B1 : aligned (pad (w - 1) NaN ++ o1) n (w - 1 + (s - 1)) NaN (fun i => Fin (k i))).
  { rewrite (Nat.add_comm (w - 1)). apply aligned_from_start; [lia|]. exact A1. }
  assert (B2 : aligned (pad (w - 1 + (s - 1)) NaN ++ o2) n (w - 1 + 2 * (s - 1)) NaN (fun i => Fin (d i))).
  { replace (w - 1 + 2 * (s - 1))%nat with (s - 1 + (w - 1 + (s - 1)))%nat by lia. apply aligned_from_start; [lia|].
    replace (n - (w - 1 + (s - 1)))%nat with (n - (w - 1) - (s - 1))%nat by lia. exact A2. }
  assert (L1 : length (pad (w - 1) NaN ++ o1) = n) by (destruct B1 as [-> _]; lia). assert (L2 : length (pad (w - 1 + (s - 1)) NaN ++ o2) = n) by (destruct B2 as [-> _]; lia).
  assert (F1 : forall {A B} (a : list A) (b : list B), length a = length b -> map fst (combine a b) = a /\ map snd (combine a b) = b).
  { intros A B a. induction a as [|x a IH]; intros [|y b] L; try easy. cbn. destruct (IH b) as [-> ->]; [now injection L|easy]. }
  destruct (F1 _ _ (pad (w - 1) NaN ++ o1) (pad (w - 1 + (s - 1)) NaN ++ o2)) as [X Y]; [congruence|]. change (@fnan xr XR) with NaN. rewrite X, Y. split; [exact B1|]. split; [exact B2|]. rewrite combine_length. lia.
Qed.
Theorem stochastic_real h l c n w : (0 < w)%nat -> (w + 4 <= n + 1)%nat -> (forall i, (w - 1 <= i < n)%nat -> highest w h i - lowest w l i <> 0) ->
  let k := fun i => mean (last_bars 3 (percent_k w h l c) i) in
  exists o, stochastic (xseries h n) (xseries l n) (xseries c n) w = Ok o /\
  aligned (map fst o) n (w + 1) NaN (fun i => Fin (k i)) /\
  aligned (map snd o) n (w + 3) NaN (fun i => Fin (mean (last_bars 3 k i))).
Proof.
  intros Hw Hn N k. destruct (stoch_real h l c n w 3 Hw ltac:(lia) ltac:(lia) N) as (o & E & A & B & _). exists o. split; [exact E|].
  replace (w + 1)%nat with (w - 1 + (3 - 1))%nat by lia. replace (w + 3)%nat with (w - 1 + 2 * (3 - 1))%nat by lia. easy.
Qed.
Theorem stochastic_range h l c w s i : (0 < w)%nat -> (0 < s)%nat -> (w - 1 + 2 * (s - 1) <= i)%nat -> (forall k, (k <= i)%nat -> l k <= c k <= h k) ->
  (forall j, (w - 1 <= j <= i)%nat -> highest w h j - lowest w l j <> 0) ->
  let k := fun i => mean (last_bars s (percent_k w h l c) i) in
  0 <= k i <= 100 /\ 0 <= mean (last_bars s k i) <= 100.
Proof.
  intros Hw Hs Hi H N k. assert (K : forall j, (w - 1 + (s - 1) <= j <= i)%nat -> 0 <= k j <= 100).
  { intros j Hj. unfold k. apply last_bars_bounds; [lia|]. intros m H1 H2. apply percent_k_range; [lia| |apply N; lia]. intros; apply H; lia. }
  split; [apply K; lia|]. apply last_bars_bounds; [lia|]. intros m H1 H2. apply K. lia.
Qed.
(** [kdj]: J is [kf * K - df * D]. *)
Theorem kdj_real h l c n w s kf df : (0 < w)%nat -> (0 < s)%nat -> (w + 2 * (s - 1) <= n + 1)%nat ->
  (forall i, (w - 1 <= i < n)%nat -> highest w h i - lowest w l i <> 0) ->
  let k := fun i => mean (last_bars s (percent_k w h l c) i) in
  let d := fun i => mean (last_bars s k i) in
  exists o, kdj (xseries h n) (xseries l n) (xseries c n) w s (option_map Fin kf) (option_map Fin df) = Ok o /\
  aligned (map (fun '(x, _, _) => x) o) n (w - 1 + (s - 1)) NaN (fun i => Fin (k i)) /\
  aligned (map (fun '(_, x, _) => x) o) n (w - 1 + 2 * (s - 1)) NaN (fun i => Fin (d i)) /\
  aligned (map (fun '(_, _, x) => x) o) n (w - 1 + 2 * (s - 1)) NaN (fun i => Fin (unwrap_or kf 3 * k i - unwrap_or df 2 * d i)).
Proof.
  intros Hw Hs Hn N k d. unfold kdj. destruct (stoch_real h l c n w s Hw Hs Hn N) as (o & E & A & B & L). rewrite E. cbn [bind]. eexists. split; [reflexivity|].
  rewrite !map_map.
  replace (map _ o) with (map fst o) by (apply map_ext; now intros [x y]). split; [exact A|].
  replace (map (fun x => let '(_, x0, _) := _ in x0) o) with (map snd o) by (apply map_ext; now intros [x y]). split; [exact B|].
  replace (map _ o) with (map (fun p => fsub (fmul (Fin (unwrap_or kf 3)) (fst p)) (fmul (Fin (unwrap_or df 2)) (snd p))) (combine (map fst o) (map snd o))).
  - pose proof (aligned_pair _ _ n _ _ NaN NaN NaN _ _ (fun p => fsub (fmul (Fin (unwrap_or kf 3)) (fst p)) (fmul (Fin (unwrap_or df 2)) (snd p))) A B ltac:(lia) ltac:(lia)) as P.
    replace (Nat.max (w - 1 + (s - 1)) (w - 1 + 2 * (s - 1))) with (w - 1 + 2 * (s - 1))%nat in P by lia.
    refine (aligned_ext _ (P _ _)); [reflexivity|reflexivity|]. intros x. cbn [snd]. now rewrite x_mul_nan_r, x_sub_nan_r.
  - assert (U1 : unwrap_or (option_map Fin kf) (flit 3 1) = Fin (unwrap_or kf 3)) by (destruct kf; [easy|apply x_lit]).
    assert (U2 : unwrap_or (option_map Fin df) (flit 2 1) = Fin (unwrap_or df 2)) by (destruct df; [easy|apply x_lit]).
    rewrite U1, U2. clear. induction o as [|[x y] o IH]; [easy|]. cbn [map fst snd combine]. f_equal. exact IH.
Qed.

(** ** relative_vigor *)
(** Symmetric weighting 1-2-2-1 of the last four bars. *)
Definition swma (f : nat -> R) (i : nat) : R := (f i + 2 * f (i - 1)%nat + 2 * f (i - 2)%nat + f (i - 3)%nat) / 6.
Lemma swma4_bars f n : map swma4 (windows 4 (map (fun k => Fin (f k)) (seq 0 n))) = map (fun i => Fin (swma f i)) (seq 3 (n - 3)).
Proof.
  rewrite windows_bars by lia. rewrite map_map. replace (n + 1 - 4)%nat with (n - 3)%nat by lia. apply map_ext_in. intros i Hi. apply in_seq in Hi. unfold swma4.
  rewrite !at_last_bars by lia. rewrite !x_lit, !x_mul, !x_add, x_div by lra. f_equal. unfold swma.
  replace (i + 1 - 4 + 3)%nat with i by lia. replace (i + 1 - 4 + 2)%nat with (i - 1)%nat by lia. replace (i + 1 - 4 + 1)%nat with (i - 2)%nat by lia. replace (i + 1 - 4 + 0)%nat with (i - 3)%nat by lia. reflexivity.
Qed.
Theorem relative_vigor_real op h l c n w : (0 < w)%nat -> (w + 2 <= n)%nat ->
  let num := fun i => mean (last_bars w (swma (fun k => c k - op k)) i) in
  let den := fun i => mean (last_bars w (swma (fun k => h k - l k)) i) in
  (forall i, (w + 2 <= i < n)%nat -> den i <> 0) ->
  exists o, relative_vigor (xseries op n) (xseries h n) (xseries l n) (xseries c n) w = Ok o /\
  aligned o n (w + 2) NaN (fun i => Fin (num i / den i)).
Proof.
  intros Hw Hn num den H. unfold relative_vigor, xseries. rewrite !combine_series, !map_map.
  change (map (fun x => fsub (Fin (c x)) (Fin (op x))) (seq 0 n)) with (map (fun k => Fin ((fun k => c k - op k) k)) (seq 0 n)).
  change (map (fun x => fsub (Fin (h x)) (Fin (l x))) (seq 0 n)) with (map (fun k => Fin ((fun k => h k - l k) k)) (seq 0 n)).
  rewrite (swma4_bars (fun k => c k - op k)), (swma4_bars (fun k => h k - l k)).
  destruct (sma_from (swma (fun k => c k - op k)) w 3 (n - 3) Hw) as (o1 & E1 & A1). destruct (sma_from (swma (fun k => h k - l k)) w 3 (n - 3) Hw) as (o2 & E2 & A2).
  rewrite E1, E2. cbn [bind]. eexists. split; [reflexivity|]. replace (w + 2)%nat with (w - 1 + 3)%nat by lia. apply aligned_from_start; [lia|].
  refine (aligned_ext _ (aligned_pair_same _ _ _ _ _ _ NaN _ _ (fun '(n, d) => fdiv n d) A1 A2 ltac:(lia) eq_refl)).
  intros i Hi. cbv beta iota. apply x_div. apply (H (3 + i)%nat). lia.
Qed.

(** ** roc, disparity, qstick, bal_power *)
Theorem roc_real f n w : (0 < w)%nat -> (forall k, (k < n)%nat -> f k <> 0) ->
  exists o, roc (xseries f n) w = Ok o /\
  aligned o n (w - 1) NaN (fun i => Fin (100 * ((f i - f (i - (w - 1))%nat) / f (i - (w - 1))%nat))).
Proof.
  intros Hw H. destruct (roc_values (fun k => Fin (f k)) n w Hw) as (o & E & A). exists o. split; [exact E|]. revert A. apply aligned_ext. intros i Hi.
  assert (f (i - (w - 1))%nat <> 0) by (apply H; lia). rewrite x_div, !x_lit, x_sub, x_mul by easy. f_equal. field. easy.
Qed.
Theorem disparity_real f n w : (0 < w <= n)%nat -> (forall i, (w - 1 <= i < n)%nat -> ewma_from w 0 f i <> 0) ->
  exists o, disparity (xseries f n) w = Ok o /\
  aligned o n (w - 1) NaN (fun i => Fin (100 * ((f i - ewma_from w 0 f i) / ewma_from w 0 f i))).
Proof.
  intros Hw H. unfold disparity, xseries, series. destruct (ewma_from_at f w 0 n Hw) as (o & E & A). rewrite E. cbn [bind]. eexists. split; [reflexivity|].
  refine (aligned_ext _ (aligned_pair _ _ n 0 (w - 1) NaN NaN NaN _ _ (fun '(x, ma) => fdiv (fmul (flit 100 1) (fsub x ma)) ma) (aligned_bars0 NaN _ n) A ltac:(lia) ltac:(lia) _ _)).
  - intros i Hi. cbv beta iota. cbn [plus]. rewrite x_sub, x_lit, x_mul, x_div by (apply H; lia). f_equal. unfold Rdiv. ring.
  - intros x. now rewrite x_sub_nan_l, x_mul_nan_r, x_div_nan_l.
  - intros x. now rewrite x_div_nan_r.
Qed.
Theorem qstick_real op c n w : (0 < w <= n)%nat ->
  exists o, qstick (xseries op n) (xseries c n) w = Ok o /\
  aligned o n (w - 1) NaN (fun i => Fin (ewma_from w 0 (fun k => c k - op k) i)).
Proof.
  intros Hw. unfold qstick, xseries. rewrite combine_series, map_map.
  exact (ewma_from_at (fun k => c k - op k) w 0 n Hw).
Qed.
Theorem bal_power_real op h l c n w : (0 < w <= n)%nat -> (forall k, (k < n)%nat -> h k <> l k) ->
  exists o, bal_power (xseries op n) (xseries h n) (xseries l n) (xseries c n) w = Ok o /\
  aligned o n (w - 1) NaN (fun i => Fin (ewma_from w 0 (fun k => (c k - op k) / (h k - l k)) i)).
Proof.
  intros Hw H. unfold bal_power, xseries. rewrite zip4_series, map_map.
  rewrite (map_ext_in _ (fun k => Fin ((c k - op k) / (h k - l k)))); [exact (ewma_from_at (fun k => (c k - op k) / (h k - l k)) w 0 n Hw)|].
  intros k Hk. apply in_seq in Hk. assert (h k <> l k) by (apply H; lia). rewrite !x_sub, x_div by lra. reflexivity.
Qed.
Theorem bal_power_range op h l c w i : (0 < w <= i + 1)%nat -> (forall k, (k <= i)%nat -> l k <= op k <= h k /\ l k <= c k <= h k /\ l k < h k) ->
  -1 <= ewma_from w 0 (fun k => (c k - op k) / (h k - l k)) i <= 1.
Proof.
  intros Hw H. apply ewma_from_bounds; [lia|lia|]. intros k Hk. destruct (H k ltac:(lia)) as (H1 & H2 & H3). assert (P : 0 < h k - l k) by lra.
  split; apply Rmult_le_reg_r with (1 := P); unfold Rdiv; rewrite Rmult_assoc, Rinv_l by lra; lra.
Qed.

(** ** cog, psych, cci *)
Theorem cog_real f n w : (0 < w)%nat -> (forall i, (w - 1 <= i < n)%nat -> Rsum (last_bars w f i) <> 0) ->
  exists o, cog (xseries f n) w = Ok o /\
  aligned o n (w - 1) NaN (fun i => Fin (- (Rsum (map (fun j => INR (S j) * f (i - j)%nat) (seq 0 w)) / Rsum (last_bars w f i)))).
Proof.
  intros Hw H. destruct (cog_values (fun k => Fin (f k)) n w Hw) as (o & E & A). exists o. split; [exact E|]. revert A. apply aligned_ext. intros i Hi.
  rewrite (x_fsum_map _ (fun j => INR (S j) * f (i - j)%nat)) by (intros j Hj; rewrite x_nat, x_mul; f_equal; ring). rewrite x_last_bars, x_fsum, x_neg, x_div by now apply H. f_equal. unfold Rdiv. ring.
Qed.
(** For positive prices it lies between minus the window and minus one. *)
Theorem cog_range f w i : (0 < w <= i + 1)%nat -> (forall k, (k <= i)%nat -> 0 < f k) ->
  - INR w <= - (Rsum (map (fun j => INR (S j) * f (i - j)%nat) (seq 0 w)) / Rsum (last_bars w f i)) <= -1.
Proof.
  intros Hw H. assert (E : Rsum (last_bars w f i) = Rsum (map (fun j => f (i - j)%nat) (seq 0 w))) by (rewrite <- rev_last_bars by lia; now rewrite Rsum_rev).
  rewrite E. destruct (ratio_bounds (fun j => INR (S j)) (fun j => f (i - j)%nat) (seq 0 w) 1 (INR w)) as [B1 B2]; [| |lra].
  - intros j Hj. apply in_seq in Hj. split; [left; apply H; lia|]. split; [change 1 with (INR 1)|]; apply le_INR; lia.
  - apply Rsum_pos; [|destruct w; [lia|easy]]. intros x Hx. apply in_map_iff in Hx as (j & <- & _). apply H. lia.
Qed.
(** [psych]: percentage of the last [w] bars that closed at or above the bar before. *)
Theorem psych_real f n w : (0 < w)%nat ->
  exists o, psych (xseries f n) w = Ok o /\
  aligned o n w NaN (fun i => Fin (100 * (INR (length (filter (fun k => Rleb (f (k - 1)%nat) (f k)) (seq (i + 1 - w) w))) / INR w))).
Proof.
  intros Hw. destruct (psych_values (fun k => Fin (f k)) n w Hw) as (o & E & A). exists o. split; [exact E|]. revert A. apply aligned_ext. intros i Hi.
  rewrite (last_bars_ext w _ (fun k => Fin (if Rleb (f (k - 1)%nat) (f k) then 1 else 0))).
  - rewrite x_last_bars, x_fsum, x_nat, x_lit, x_mul, x_div by (apply INR_neq0; lia). f_equal. unfold last_bars.
    assert (C : forall l, Rsum (map (fun k => if Rleb (f (k - 1)%nat) (f k) then 1 else 0) l) = INR (length (filter (fun k => Rleb (f (k - 1)%nat) (f k)) l))).
    { intros l. induction l as [|k l IH]; [easy|]. cbn [map filter]. rewrite Rsum_cons, IH. destruct (Rleb _ _); [cbn [length]; rewrite S_INR; ring|ring]. }
    rewrite C. unfold Rdiv. ring.
  - intros k _ _. rewrite x_sub, x_signum, x_lit, x_max. f_equal. destruct (Rltb _ 0) eqn:B1, (Rleb _ _) eqn:B2; rewrite ?Rltb_true, ?Rltb_false, ?Rleb_true, ?Rleb_false in *; try lra; unfold Rmax; destruct (Rle_dec _ _); lra.
  - lia.
Qed.
Theorem psych_range f w i : (0 < w)%nat ->
  0 <= 100 * (INR (length (filter (fun k => Rleb (f (k - 1)%nat) (f k)) (seq (i + 1 - w) w))) / INR w) <= 100.
Proof.
  intros Hw. set (c := length _). assert (c <= w)%nat by (unfold c; rewrite <- (seq_length w (i + 1 - w)) at 3; generalize (seq (i + 1 - w) w); intros q; induction q as [|x q IH]; cbn; [lia|destruct (Rleb _ _); cbn; lia]).
  assert (0 <= INR c / INR w <= 1) by (apply part_range; [split; [apply pos_INR|now apply le_INR]|apply INR_neq0; lia]). lra.
Qed.
Theorem cci_real h l c n w : (0 < w)%nat ->
  let t := typical_price h l c in
  let md := fun i => mean (map (fun x => Rabs (x - mean (last_bars w t i))) (last_bars w t i)) in
  (forall i, (w - 1 <= i < n)%nat -> md i <> 0) ->
  exists o, cci (xseries h n) (xseries l n) (xseries c n) w = Ok o /\
  aligned o n (w - 1) NaN (fun i => Fin ((t i - mean (last_bars w t i)) / (0.015 * md i))).
Proof.
  intros Hw t md H. destruct (cci_values (fun k => Fin (h k)) (fun k => Fin (l k)) (fun k => Fin (c k)) n w Hw) as (o & E & A). exists o. split; [exact E|]. revert A. apply aligned_ext. intros i Hi. cbv beta zeta.
  assert (T : forall k, fdiv (fadd (fadd (Fin (h k)) (Fin (l k))) (Fin (c k))) (flit 3 1) = Fin (t k)) by (intros k; rewrite x_lit, !x_add, x_div by lra; reflexivity).
  rewrite (last_bars_ext w _ (fun k => Fin (t k))) by (intros; apply T || lia). rewrite !T. rewrite x_last_bars, x_fsum, x_nat, x_div by (apply INR_neq0; lia).
  replace (Rsum (last_bars w t i) / INR w) with (mean (last_bars w t i)) by (unfold mean; now rewrite length_last_bars).
  rewrite x_lit. rewrite <- (map_id (last_bars w t i)) at 2. 
  assert (G : forall ys a m, fold_left (fun acc x => fadd acc (fabs (fsub x (Fin m)))) (map Fin ys) (Fin a) = Fin (a + Rsum (map (fun x => Rabs (x - m)) ys))).
  { intros ys. induction ys as [|y ys IH]; intros a m; cbn [map fold_left]; [now rewrite Rsum_nil, Rplus_0_r|]. rewrite x_sub, x_abs, x_add, IH, Rsum_cons. f_equal. ring. }
  rewrite map_id, G, Rplus_0_l, x_frac. rewrite (x_div _ (INR w)) by (apply INR_neq0; lia).
  replace (Rsum (map (fun x => Rabs (x - mean (last_bars w t i))) (last_bars w t i)) / INR w) with (md i) by (unfold md; unfold mean at 1; now rewrite map_length, length_last_bars).
  assert (md i <> 0) by now apply H. rewrite x_mul, x_sub, x_div; [f_equal; f_equal; lra|]. apply Rmult_integral_contrapositive_currified; [lra|easy].
Qed.

(** ** tsi *)
Theorem tsi_real f n s l : (0 < s)%nat -> (0 < l)%nat -> (l + s <= n)%nat ->
  let d := fun k => f k - f (k - 1)%nat in
  let num := ewma_from s l (ewma_from l 1 d) in
  let den := ewma_from s l (ewma_from l 1 (fun k => Rabs (d k))) in
  exists o, tsi (xseries f n) s l = Ok o /\
  aligned o n (l + s - 1) NaN (fun i => if Req (den i) 0 then NaN else Fin (100 * (num i / den i))) /\
  forall i, den i <> 0 -> -100 <= 100 * (num i / den i) <= 100.
Proof.
  intros Hs Hl Hn d num den.
  assert (B : forall i, - den i <= num i <= den i).
  { intros i. unfold num, den. destruct (ewma_from_abs s l (ewma_from l 1 d) i Hs) as [B1 B2].
    assert (ewma_from s l (fun j => Rabs (ewma_from l 1 d j)) i <= ewma_from s l (ewma_from l 1 (fun k => Rabs (d k))) i).
    { apply ewma_from_le; [easy|]. intros j _. destruct (ewma_from_abs l 1 d j Hl). unfold Rabs at 1. destruct (Rcase_abs _); lra. }
    lra. }
  unfold tsi, xseries. rewrite pairs_series, !map_map.
  rewrite (map_ext _ (fun k => Fin (d k))) by (intros; apply x_sub). rewrite (map_ext (fun x => fabs _) (fun k => Fin (Rabs (d k)))) by (intros; now rewrite x_sub, x_abs).
  destruct (ewma_from_at d l 1 (n - 1)) as (o1 & E1 & A1); [lia|]. rewrite E1. cbn [bind]. unfold usub. rewrite (proj2 (Nat.leb_le 1 l)) by lia. cbn [bind].
  destruct (ewma_from_at (fun k => Rabs (d k)) l 1 (n - 1)) as (o2 & E2 & A2); [lia|].
  assert (K : forall o g, aligned o (n - 1) (l - 1) NaN (fun i => Fin (g (1 + i)%nat)) -> skipn (l - 1) o = map (fun i => Fin (g i)) (seq l (n - l))).
  { intros o g A. rewrite (skipn_aligned _ _ _ _ _ A). rewrite (shift_bars 1). replace (l - 1 + 1)%nat with l by lia. replace (n - 1 - (l - 1))%nat with (n - l)%nat by lia.
    apply map_ext_in. intros i Hi. apply in_seq in Hi. do 2 f_equal. lia. }
  rewrite (K _ _ A1). destruct (ewma_from_at (ewma_from l 1 d) s l (n - l)) as (p1 & F1 & C1); [lia|]. rewrite F1. cbn [bind]. rewrite E2. cbn [bind].
  rewrite (K _ _ A2). destruct (ewma_from_at (ewma_from l 1 (fun k => Rabs (d k))) s l (n - l)) as (p2 & F2 & C2); [lia|]. rewrite F2. cbn [bind].
  eexists. split; [reflexivity|]. split.
  - replace (l + s - 1)%nat with (s - 1 + l)%nat by lia. apply aligned_from_start; [lia|].
    refine (aligned_ext _ (aligned_pair_same _ _ _ _ _ _ NaN _ _ (fun '(pcd, apcd) => fdiv (fmul (flit 100 1) pcd) apcd) C1 C2 ltac:(lia) eq_refl)).
    intros i Hi. cbv beta iota. fold num. fold den. specialize (B (l + i)%nat). rewrite x_lit, x_mul. destruct (Req (den (l + i)%nat) 0) eqn:Z.
    + apply Req_true in Z. rewrite Z in *. replace (num (l + i)%nat) with 0 by lra. rewrite Rmult_0_r. cbn. unfold xdiv. now rewrite !(proj2 (Req_true 0 0)) by easy.
    + apply Req_false in Z. rewrite x_div by easy. f_equal. unfold Rdiv. ring.
  - intros i N. specialize (B i). assert (P : 0 < den i) by lra.
    assert (-1 <= num i / den i <= 1) by (split; apply Rmult_le_reg_r with (1 := P); unfold Rdiv; rewrite Rmult_assoc, Rinv_l by lra; lra). lra.
Qed.

(** ** stc *)
Lemma x_highest_last w g i : (0 < w <= i + 1)%nat -> stc_win (last_bars w (fun k => Fin (g k)) i) =
  fdiv (fmul (flit 100 1) (fsub (Fin (g i)) (Fin (lowest w g i)))) (fsub (Fin (highest w g i)) (Fin (lowest w g i))).
Proof. intros Hw. unfold stc_win. now rewrite last__last_bars, x_highest, x_lowest by lia. Qed.
Lemma stc_raw_bars g a m w : (0 < w)%nat -> (w + 1 <= m)%nat -> (forall i, (a + w - 1 <= i < a + m)%nat -> highest w g i - lowest w g i <> 0) ->
  exists o, stc_raw (map (fun k => Fin (g k)) (seq a m)) w 2 = Ok o /\
  skipn 1 o = map (fun i => Fin (wilder_from 2 (a + w - 1) (percent_k w g g g) i)) (seq (a + w) (m - w)).
Proof.
  intros Hw Hm N. unfold stc_raw. rewrite rwindows_bars by easy. cbn [bind]. rewrite map_map.
  rewrite (map_ext_in _ (fun i => Fin (percent_k w g g g i))).
  - rewrite wilder_bars by lia. eexists. split; [reflexivity|]. rewrite skipn_app, length_pad. cbn [minus pad repeat skipn app].
    replace (a + w - 1 + 2 - 1)%nat with (a + w)%nat by lia. replace (m + 1 - w + 1 - 2)%nat with (m - w)%nat by lia. reflexivity.
  - intros i Hi. apply in_seq in Hi. rewrite x_highest_last by lia. rewrite !x_sub, x_lit, x_mul, x_div by (apply N; lia). f_equal. unfold percent_k, Rdiv. ring.
Qed.
(** [stc]: twice the stochastic position of a series in its own window, each
    smoothed Wilder's way over two bars, of the macd line. *)
Theorem stc_real f n w s l : (0 < w)%nat -> (0 < s <= l)%nat -> (l + 2 * w <= n)%nat ->
  let m := fun i => ewma_from s 0 f i - ewma_from l 0 f i in
  let p := wilder_from 2 (l + w - 2) (percent_k w m m m) in
  let q := wilder_from 2 (l + 2 * w - 2) (percent_k w p p p) in
  (forall i, (l + w - 2 <= i < n)%nat -> highest w m i - lowest w m i <> 0) ->
  (forall i, (l + 2 * w - 2 <= i < n)%nat -> highest w p i - lowest w p i <> 0) ->
  exists o, stc (xseries f n) w s l = Ok o /\ aligned o n (l + 2 * w - 1) NaN (fun i => Fin (q i)).
Proof.
  intros Hw Hs Hn m p q Nm Np. unfold stc. unfold usub. rewrite (proj2 (Nat.leb_le 1 l)), (proj2 (Nat.leb_le 1 w)) by lia. cbn [bind].
  destruct (macd_real f n s l) as (o & E & A); [lia|lia|]. rewrite E. cbn [bind]. replace (Nat.max s l - 1)%nat with (l - 1)%nat in A by lia.
  change (aligned o n (l - 1) NaN (fun i => Fin (m i))) in A. rewrite (skipn_aligned _ _ _ _ _ A).
  destruct (stc_raw_bars m (l - 1) (n - (l - 1)) w Hw) as (o1 & E1 & S1); [lia|intros; apply Nm; lia|]. rewrite E1. cbn [bind]. rewrite S1.
  replace (l - 1 + w - 1)%nat with (l + w - 2)%nat by lia. fold p. replace (l - 1 + w)%nat with (l + w - 1)%nat by lia.
  destruct (stc_raw_bars p (l + w - 1) (n - (l - 1) - w) w Hw) as (o2 & E2 & S2); [lia|intros; apply Np; lia|]. rewrite E2. cbn [bind]. rewrite S2.
  replace (l + w - 1 + w - 1)%nat with (l + 2 * w - 2)%nat by lia. fold q. eexists. split; [reflexivity|].
  replace (l - 1 + (w - 1) * 2 + 2)%nat with (l + 2 * w - 1)%nat by lia. replace (l + w - 1 + w)%nat with (l + 2 * w - 1)%nat by lia. apply aligned_bars. lia.
Qed.
Theorem stc_range g w a i : (0 < w)%nat -> (a + 1 <= i)%nat -> (w <= a + 1)%nat -> (forall j, (a <= j <= i)%nat -> highest w g j - lowest w g j <> 0) ->
  0 <= wilder_from 2 a (percent_k w g g g) i <= 100.
Proof. intros Hw Hi Ha N. apply wilder_from_bounds; [lia|lia|]. intros j Hj. apply percent_k_range; [lia| |now apply N]. intros. lra. Qed.

(** ** fisher *)
Lemma iterate_bars {S} (step : nat -> S -> S) s a : exists st, st a = s /\ forall i, (a <= i)%nat -> st (Datatypes.S i) = step i (st i).
Proof.
  exists (fun i => fold_left (fun s k => step k s) (seq a (i - a)) s). split; [now rewrite Nat.sub_diag|]. intros i Hi.
  replace (Datatypes.S i - a)%nat with (Datatypes.S (i - a)) by lia. rewrite seq_S, fold_left_app. cbn [fold_left]. f_equal. lia.
Qed.
Definition max_f64 : R := IZR (2 ^ 1024 - 2 ^ 971).
Lemma x_fold_max_from l : forall a, fold_left fmax (map Fin l) (Fin a) = Fin (fold_left Rmax l a).
Proof. induction l as [|x l IH]; intros a; cbn [map fold_left]; [easy|]. now rewrite x_max, IH. Qed.
Lemma x_fold_min_from l : forall a, fold_left fmin (map Fin l) (Fin a) = Fin (fold_left Rmin l a).
Proof. induction l as [|x l IH]; intros a; cbn [map fold_left]; [easy|]. now rewrite x_min, IH. Qed.
Lemma fold_Rmax_list l a : l <> [] -> fold_left Rmax l a = Rmax a (Rmax_list l).
Proof.
  destruct l as [|x l]; [easy|]. intros _. cbn [fold_left Rmax_list]. revert a x. induction l as [|y l IH]; intros a x; cbn [fold_left]; [easy|].
  rewrite <- IH. f_equal. symmetry. apply Rmax_assoc.
Qed.
Lemma fold_Rmin_list l a : l <> [] -> fold_left Rmin l a = Rmin a (Rmin_list l).
Proof.
  destruct l as [|x l]; [easy|]. intros _. cbn [fold_left Rmin_list]. revert a x. induction l as [|y l IH]; intros a x; cbn [fold_left]; [easy|].
  rewrite <- IH. f_equal. symmetry. apply Rmin_assoc.
Qed.
Definition clamp (lo hi x : R) : R := Rmax lo (Rmin hi x).
(** [fisher]: (smoothed position in the window, its Fisher transform smoothed);
    for prices up to the greatest f64; negative prices count as if the window
    also contained a price of zero at its top. *)
Theorem fisher_real h l n w : (0 < w)%nat -> (forall k, (k < n)%nat -> (h k + l k) / 2 <= max_f64) ->
  let p := fun k => (h k + l k) / 2 in
  exists o (t y : nat -> R), fisher (xseries h n) (xseries l n) w = Ok o /\
  aligned o n (w - 1) NaN (fun i => Fin (y (S i))) /\
  t (w - 1)%nat = 0 /\ y (w - 1)%nat = 0 /\
  (forall i, (w - 1 <= i < n)%nat ->
     let hi := Rmax 0 (highest w p i) in let lo := lowest w p i in
     t (S i) = clamp (-0.999999) 0.999999 (0.66 * ((p i - lo) / Rmax (hi - lo) 0.000001 - 0.5) + 0.67 * t i) /\
     y (S i) = 0.5 * ln ((1 + t (S i)) / (1 - t (S i))) + 0.5 * y i).
Proof.
  intros Hw H p. unfold fisher, xseries. rewrite combine_series, map_map. unfold usub. rewrite (proj2 (Nat.leb_le 1 w)) by lia. cbn [bind].
  rewrite (map_ext _ (fun k => Fin (p k))) by (intros k; now rewrite x_add, x_lit, x_div by lra).
  rewrite rwindows_bars by easy. cbn [bind].
  set (nt := fun i t => clamp (-0.999999) 0.999999 (0.66 * ((p i - lowest w p i) / Rmax (Rmax 0 (highest w p i) - lowest w p i) 0.000001 - 0.5) + 0.67 * t)).
  set (ny := fun t y => 0.5 * ln ((1 + t) / (1 - t)) + 0.5 * y).
  destruct (iterate_bars (fun i (s : R * R) => (nt i (fst s), ny (nt i (fst s)) (snd s))) (0, 0) (w - 1)) as (st & S0 & SS).
  replace (0 + w - 1)%nat with (w - 1)%nat by lia.
  assert (B : forall i t, -1 < nt i t < 1).
  { intros i t. unfold nt, clamp. set (x := _ + _). unfold Rmax, Rmin. destruct (Rle_dec 0.999999 x); repeat destruct (Rle_dec _ _); lra. }
  rewrite (rscan_inv_bars (fisher_step w) (fun i => (Fin (fst (st i)), Fin (snd (st i)))) (fun i => Fin (snd (st (S i)))) (last_bars w (fun k => Fin (p k)))).
  - cbn [bind]. eexists _, (fun i => fst (st i)), (fun i => snd (st i)). split; [reflexivity|]. split; [apply aligned_bars; lia|]. rewrite S0. split; [easy|]. split; [easy|].
    intros i Hi. cbv zeta. rewrite SS by lia. cbn [fst snd]. split; [reflexivity|reflexivity].
  - rewrite S0. now rewrite !x_lit.
  - intros i Hi. unfold fisher_step. rewrite x_last_bars. rewrite x_lit, x_fold_max_from. change (@fmaxval xr XR) with (Fin max_f64). rewrite x_fold_min_from.
    rewrite fold_Rmax_list, fold_Rmin_list by (apply last_bars_nonempty; lia). fold (highest w p i). fold (lowest w p i).
    replace (Rmin max_f64 (lowest w p i)) with (lowest w p i).
    2:{ symmetry. apply Rmin_right. destruct (lowest_spec w p i ltac:(lia)) as [(k & K1 & K2 & ->) _]. apply H. lia. }
    rewrite <- x_last_bars, at_last_bars by lia. replace (i + 1 - w + (w - 1))%nat with i by lia. rewrite !x_frac. rewrite !x_sub, x_max. cbn [fst snd].
    assert (0 < Rmax (Rmax 0 (highest w p i) - lowest w p i) (1 / 1000000)) by (eapply Rlt_le_trans; [|apply Rmax_r]; lra).
    rewrite x_div by lra. rewrite x_sub, !x_mul, x_add.
    assert (C : forall x, fclamp (Fin x) (Fin (-999999 / 1000000)) (Fin (999999 / 1000000)) = Ok (Fin (clamp (-0.999999) 0.999999 x))).
    { intros x. unfold fclamp, fclamp_val. rewrite x_leb. rewrite (proj2 (Rleb_true _ _)) by lra. cbv zeta. rewrite x_ltb. unfold clamp.
      destruct (Rltb x (-999999 / 1000000)) eqn:E1; rewrite x_ltb;
      (match goal with |- context [Rltb (999999 / 1000000) ?y] => destruct (Rltb (999999 / 1000000) y) eqn:E2 end);
      rewrite ?Rltb_true, ?Rltb_false in *; do 2 f_equal; unfold Rmax, Rmin; repeat destruct (Rle_dec _ _); lra. }
    rewrite C. cbn [bind]. replace (clamp _ _ (66 / 100 * _ + _)) with (nt i (fst (st i))).
    2:{ unfold nt. f_equal. replace 0.000001 with (1 / 1000000) by lra. lra. }
    rewrite SS by lia. cbn [fst snd]. pose proof (B i (fst (st i))) as [B1 B2]. set (t := nt i (fst (st i))) in *.
    replace (1 / 1) with 1 by lra. rewrite x_add, x_sub, x_div by lra. rewrite x_ln by (apply Rdiv_lt_0_compat; lra). rewrite !x_mul, x_add. unfold ny. replace 0.5 with (1 / 2) by lra. reflexivity.
Qed.
(** Hence the Fisher line never leaves +-ln 1999999 (about 14.5). *)
Theorem fisher_bounded (t y : nat -> R) a n : y a = 0 -> (forall i, (a <= i < n)%nat ->
    -0.999999 <= t (S i) <= 0.999999 /\ y (S i) = 0.5 * ln ((1 + t (S i)) / (1 - t (S i))) + 0.5 * y i) ->
  forall i, (a <= i <= n)%nat -> - ln 1999999 <= y i <= ln 1999999.
Proof.
  intros Y0 H i Hi. assert (L0 : 0 <= ln 1999999) by (rewrite <- ln_1; left; apply ln_increasing; lra).
  replace i with (a + (i - a))%nat by lia. assert (Hm : (a + (i - a) <= n)%nat) by lia. revert Hm. generalize (i - a)%nat as m. clear i Hi.
  induction m as [|m IH]; intros Hm; [rewrite Nat.add_0_r, Y0; lra|]. rewrite Nat.add_succ_r in *. destruct (H (a + m)%nat ltac:(lia)) as [T ->]. specialize (IH ltac:(lia)).
  set (x := t (S (a + m))) in *. assert (P : 0 < 1 - x) by lra.
  assert (ln ((1 + x) / (1 - x)) <= ln 1999999).
  { assert (Q : (1 + x) / (1 - x) <= 1999999) by (apply Rmult_le_reg_r with (1 := P); unfold Rdiv; rewrite Rmult_assoc, Rinv_l by lra; lra).
    destruct (Rle_lt_or_eq_dec _ _ Q) as [Q'| ->]; [left; apply ln_increasing; [apply Rdiv_lt_0_compat; lra|easy]|lra]. }
  assert (- ln 1999999 <= ln ((1 + x) / (1 - x))).
  { rewrite <- ln_Rinv by lra. assert (Q : / 1999999 <= (1 + x) / (1 - x)). { apply Rmult_le_reg_r with (1 := P). unfold Rdiv. rewrite Rmult_assoc, Rinv_l by lra. lra. }
    destruct (Rle_lt_or_eq_dec _ _ Q) as [Q'| <-]; [left; apply ln_increasing; [lra|easy]|lra]. }
  lra.
Qed.

(** ** coppock *)
Lemma wma_from (f : nat -> R) w a n : (0 < w)%nat -> (N.of_nat w < 2 ^ 32)%N -> exists o, wma (map (fun k => Fin (f k)) (seq a n)) w = Ok o /\
  aligned o n (w - 1) NaN (fun i => Fin (wmean (map INR (seq 1 w)) (last_bars w f (a + i)))).
Proof.
  intros Hw Hb. rewrite <- map_map with (f := f) (g := Fin). destruct (wma_real (map f (seq a n)) w Hw Hb) as (o & E & A). exists o. split; [exact E|].
  rewrite map_length, seq_length in A. revert A. apply aligned_ext. intros i Hi. do 2 f_equal. unfold win, last_bars. rewrite skipn_bars, firstn_bars. do 2 f_equal; lia.
Qed.
Theorem coppock_real f n w s l : (0 < w)%nat -> (N.of_nat w < 2 ^ 32)%N -> (s <= l <= n)%nat -> (forall k, (k < n)%nat -> f k <> 0) ->
  let r := fun i => 100 * ((f i - f (i - s)%nat) / f (i - s)%nat) + 100 * ((f i - f (i - l)%nat) / f (i - l)%nat) in
  exists o, coppock (xseries f n) w s l = Ok o /\
  aligned o n (w - 1 + l) NaN (fun i => Fin (wmean (map INR (seq 1 w)) (last_bars w r i))).
Proof.
  intros Hw Hb Hs H r. unfold coppock, xseries. rewrite length_series.
  rewrite (@rmap_Ok_map _ _ _ (fun x => Fin (r x))).
  - cbn [bind]. destruct (wma_from r w l (n - l) Hw Hb) as (o & E & A). rewrite E. cbn [bind]. eexists. split; [reflexivity|]. apply aligned_from_start; [lia|exact A].
  - intros x Hx. apply in_seq in Hx. unfold coppock_at. rewrite idx_series by lia. cbn [bind]. unfold usub. rewrite (proj2 (Nat.leb_le s x)), (proj2 (Nat.leb_le l x)) by lia. cbn [bind].
    rewrite !idx_series by lia. cbn [bind]. assert (f (x - s)%nat <> 0) by (apply H; lia). assert (f (x - l)%nat <> 0) by (apply H; lia).
    rewrite !x_div, x_add, !x_lit, x_sub, x_mul by easy. do 2 f_equal. unfold r. field. easy.
Qed.

(** ** kst, special_k *)
(** Average over [p] bars of the rate of change (percent) over [r] bars. *)
Definition avg_roc (f : nat -> R) (r p i : nat) : R := mean (last_bars p (fun k => 100 * ((f k - f (k - r)%nat) / f (k - r)%nat)) i).
Lemma x_prings f n ts i : (forall k, (k < n)%nat -> f k <> 0) -> (i < n)%nat -> (forall r p m, In (r, p, m) ts -> (0 < p)%nat) ->
  prings_val (xseries f n) (map (fun '(r, p, m) => (r, p, Fin m)) ts) i =
  Fin (Rsum (map (fun '(r, p, m) => if (r + p <=? i + 1)%nat then m * avg_roc f r p i else 0) ts)).
Proof.
  intros H Hi Hp. unfold prings_val. rewrite x_lit. rewrite <- (Rplus_0_l (Rsum _)). generalize 0 at 1 2 as a. induction ts as [|[[r p] m] ts IH]; intros a; cbn [map fold_left]; [now rewrite Rsum_nil, Rplus_0_r|].
  assert (0 < p)%nat by (eapply Hp; now left). rewrite Rsum_cons. replace (Nat.max 1 p) with p by lia. destruct (r + p <=? i + 1)%nat eqn:E.
  - apply Nat.leb_le in E. assert (M : mean_roc (xseries f n) r p i = Fin (avg_roc f r p i)).
    { unfold mean_roc, avg_roc. rewrite (x_fsum_map _ (fun k => 100 * ((f k - f (k - r)%nat) / f (k - r)%nat))).
      - rewrite x_nat, x_div by (apply INR_neq0; lia). f_equal. unfold mean. now rewrite length_last_bars.
      - intros k Hk. apply in_seq in Hk. unfold roc_at, xseries. rewrite !at_series by lia. assert (f (k - r)%nat <> 0) by (apply H; lia).
        rewrite x_div, !x_lit, x_sub, x_mul by easy. f_equal. field. easy. }
    rewrite M, x_mul, x_add, IH by (intros; eapply Hp; right; eassumption). f_equal. ring.
  - rewrite IH by (intros; eapply Hp; right; eassumption). f_equal. ring.
Qed.
(** The terms of a [kst] with the default windows; a term counts from the first
    bar with enough history on, so the line changes its make-up until then. *)
Theorem kst_real f n : (19 <= n)%nat -> (forall k, (k < n)%nat -> f k <> 0) ->
  exists o, kst (xseries f n) None None = Ok o /\
  aligned o n 19 NaN (fun i => Fin (Rsum (map (fun '(r, p, m) => if (r + p <=? i + 1)%nat then m * avg_roc f r p i else 0)
    [(10%nat, 10%nat, 1); (15%nat, 10%nat, 2); (20%nat, 10%nat, 3); (30%nat, 15%nat, 4)]))).
Proof.
  intros Hn H. destruct (kst_spec (xseries f n) None None) as [[B E]|[_ (o & E & A)]].
  - exfalso. pose proof (proj1 (outcome_panic (kst_default_outcome (xseries f n))) E) as P. unfold xseries in P. rewrite length_series in P. lia.
  - exists o. split; [exact E|]. unfold xseries in A at 1. rewrite length_series in A. revert A. apply aligned_ext. intros i Hi.
    rewrite <- (x_prings f n) by (try easy; try lia; cbn [In]; intros r p m Hin; repeat (destruct Hin as [Hin|Hin]; [injection Hin as <- <- <-; lia|]); destruct Hin).
    f_equal. unfold kst_terms. cbn [unwrap_or map]. now rewrite !x_lit.
Qed.
Theorem special_k_real f n : (19 <= n)%nat -> (forall k, (k < n)%nat -> f k <> 0) ->
  exists o, special_k (xseries f n) = Ok o /\
  aligned o n 19 NaN (fun i => Fin (Rsum (map (fun '(r, p, m) => if (r + p <=? i + 1)%nat then m * avg_roc f r p i else 0)
    [(10%nat, 10%nat, 1); (15%nat, 10%nat, 2); (20%nat, 10%nat, 3); (30%nat, 15%nat, 4);
     (50%nat, 50%nat, 1); (65%nat, 65%nat, 2); (75%nat, 75%nat, 3); (100%nat, 100%nat, 4);
     (195%nat, 130%nat, 1); (265%nat, 130%nat, 2); (390%nat, 130%nat, 3); (530%nat, 195%nat, 4)]))).
Proof.
  intros Hn H. destruct (special_k_spec (xseries f n)) as [[B E]|[_ (o & E & A)]].
  - exfalso. unfold xseries in B. rewrite length_series in B. lia.
  - exists o. split; [exact E|]. unfold xseries in A at 1. rewrite length_series in A. revert A. apply aligned_ext. intros i Hi.
    rewrite <- (x_prings f n) by (try easy; try lia; cbn [In]; intros r p m Hin; repeat (destruct Hin as [Hin|Hin]; [injection Hin as <- <- <-; lia|]); destruct Hin).
    f_equal. unfold special_k_terms. cbn [map]. now rewrite !x_lit.
Qed.

(** ** derivative *)
Definition rsi_of (w : nat) (f : nat -> R) (i : nat) : R :=
  let u := wilder_from w 1 (up_move f) i in let d := wilder_from w 1 (down_move f) i in 100 * (u / (u + d)).
(** There has been a move within the smoothed history of bar [i]. *)
Definition moved (w : nat) (f : nat -> R) (i : nat) : Prop := wilder_from w 1 (up_move f) i + wilder_from w 1 (down_move f) i <> 0.
Lemma rsi_of_aligned f n w : (0 < w < n)%nat -> (forall i, (w <= i < n)%nat -> moved w f i) ->
  exists o, rsi (xseries f n) w = Ok o /\ aligned o n w NaN (fun i => Fin (rsi_of w f i)).
Proof.
  intros Hw H. destruct (rsi_real f n w Hw) as (o & E & A). exists o. split; [exact E|]. revert A. apply aligned_ext. intros i Hi. cbv zeta.
  specialize (H i Hi). unfold moved in H. now rewrite (proj2 (Req_false _ _) H).
Qed.
Lemma skipn_aligned_from {B} (o : list B) n a k na f : aligned o n k na (fun i => f (a + i)%nat) -> skipn k o = map f (seq (a + k) (n - k)).
Proof.
  intros A. rewrite (skipn_aligned _ _ _ _ _ A). rewrite (shift_bars a). rewrite (Nat.add_comm a k). apply map_ext_in. intros i Hi. apply in_seq in Hi. f_equal. lia.
Qed.
Theorem derivative_real f n w1 w2 s : (0 < w1)%nat -> (0 < w2)%nat -> (0 < s)%nat -> (2 * w1 + w2 + s <= n + 2)%nat -> (2 * w1 + w2 <= n + 1)%nat ->
  (forall i, (w1 <= i < n)%nat -> moved w1 f i) ->
  let e := ewma_from w2 (2 * w1 - 1) (ewma_from w1 w1 (rsi_of w1 f)) in
  exists o, derivative (xseries f n) w1 w2 s = Ok o /\
  aligned o n (2 * w1 + w2 + s - 3) NaN (fun i => Fin (e i - mean (last_bars s e i))).
Proof.
  intros H1 H2 Hs Hn Hn' M e. unfold derivative. destruct (rsi_of_aligned f n w1) as (r & E & A); [lia|easy|]. rewrite E. cbn [bind].
  rewrite (skipn_aligned _ _ _ _ _ A). destruct (ewma_from_at (rsi_of w1 f) w1 w1 (n - w1)) as (e1 & E1 & A1); [lia|]. rewrite E1. cbn [bind].
  unfold usub. rewrite (proj2 (Nat.leb_le 1 w1)) by lia. cbn [bind].
  rewrite (skipn_aligned_from e1 _ _ _ _ (fun i => Fin (ewma_from w1 w1 (rsi_of w1 f) i)) A1). replace (w1 + (w1 - 1))%nat with (2 * w1 - 1)%nat by lia.
  destruct (ewma_from_at (ewma_from w1 w1 (rsi_of w1 f)) w2 (2 * w1 - 1) (n - w1 - (w1 - 1))) as (e2 & E2 & A2); [lia|]. rewrite E2. cbn [bind]. fold e in A2.
  destruct (sma_of_aligned e2 _ _ (fun i => e (2 * w1 - 1 + i)%nat) s A2) as (o3 & E3 & A3); [lia|lia|lia|]. rewrite E3. cbn [bind]. eexists. split; [reflexivity|].
  replace (2 * w1 + w2 + s - 3)%nat with (w2 + s - 2 + (2 * w1 - 1))%nat by lia. apply aligned_from_start; [lia|]. replace (n - (2 * w1 - 1))%nat with (n - w1 - (w1 - 1))%nat by lia.
  replace (w2 + s - 2)%nat with (Nat.max (w2 - 1 + s - 1) (w2 - 1)) by lia.
  refine (aligned_ext _ (aligned_pair _ _ _ _ _ _ _ NaN _ _ (fun '(sig, val) => fsub val sig) A3 A2 ltac:(lia) ltac:(lia) _ _)).
  - intros i Hi. cbv beta iota. rewrite x_sub. do 3 f_equal. unfold last_bars. rewrite (shift_bars (2 * w1 - 1)). replace (2 * w1 - 1 + i + 1 - s)%nat with (i + 1 - s + (2 * w1 - 1))%nat by lia.
    apply map_ext_in. intros k Hk. apply in_seq in Hk. f_equal. lia.
  - intros x. apply x_sub_nan_r.
  - intros x. apply x_sub_nan_l.
Qed.

(** ** deli *)
Theorem deli_real h l n w : (0 < w)%nat -> (3 * w <= n)%nat ->
  let q := fun k => (Rmax (h (k - 1)%nat) (h k) + Rmin (l (k - 1)%nat) (l k)) / 2 in
  let d := fun i => ewma_from w 1 q i - ewma_from (2 * w) 1 q i in
  exists o, deli (xseries h n) (xseries l n) w = Ok o /\
  aligned o n (3 * w - 1) NaN (fun i => Fin (d i - ewma_from w (2 * w) d i)).
Proof.
  intros Hw Hn q d. unfold deli, deli_quotes, xseries. rewrite !pairs_series, combine_bars, map_map, Nat.min_id.
  rewrite (map_ext _ (fun k => Fin (q k))) by (intros k; now rewrite x_max, x_min, x_add, x_lit, x_div by lra).
  destruct (ewma_from_at q w 1 (n - 1)) as (e1 & E1 & A1); [lia|]. destruct (ewma_from_at q (2 * w) 1 (n - 1)) as (e2 & E2 & A2); [lia|]. rewrite E1, E2. cbn [bind]. cbv zeta.
  unfold usub. rewrite (proj2 (Nat.leb_le 1 (2 * w))) by lia. cbn [bind].
  assert (A : aligned (map (fun '(ma1, ma2) => fsub ma1 ma2) (combine e1 e2)) (n - 1) (2 * w - 1) NaN (fun i => Fin (d (1 + i)%nat))).
  { replace (2 * w - 1)%nat with (Nat.max (w - 1) (2 * w - 1)) by lia. refine (aligned_ext _ (aligned_pair _ _ _ _ _ _ _ NaN _ _ (fun '(x, y) => fsub x y) A1 A2 ltac:(lia) ltac:(lia) x_sub_nan_l x_sub_nan_r)). reflexivity. }
  rewrite (slice_from_aligned _ _ _ _ _ A). cbn [bind].
  replace (map _ (seq (2 * w - 1) (n - 1 - (2 * w - 1)))) with (map (fun i => Fin (d i)) (seq (2 * w) (n - 2 * w))).
  2:{ rewrite (shift_bars 1 _ (2 * w - 1)). replace (2 * w - 1 + 1)%nat with (2 * w)%nat by lia. replace (n - 1 - (2 * w - 1))%nat with (n - 2 * w)%nat by lia.
      apply map_ext_in. intros i Hi. apply in_seq in Hi. do 2 f_equal. lia. }
  destruct (ewma_from_at d w (2 * w) (n - 2 * w)) as (e3 & E3 & A3); [lia|]. rewrite E3. cbn [bind]. eexists. split; [reflexivity|].
  replace (3 * w - 1)%nat with (w - 1 + 2 * w)%nat by lia. apply aligned_from_start; [lia|].
  pose proof (aligned_bars0 NaN (fun i => Fin (d (2 * w + i)%nat)) (n - 2 * w)) as B.
  replace (map (fun i => Fin (d i)) (seq (2 * w) (n - 2 * w))) with (map (fun i => Fin (d (2 * w + i)%nat)) (seq 0 (n - 2 * w))).
  2:{ rewrite (shift_bars (2 * w)). cbn [plus]. apply map_ext_in. intros i Hi. apply in_seq in Hi. do 2 f_equal. lia. }
  replace (w - 1)%nat with (Nat.max 0 (w - 1)) by lia.
  refine (aligned_ext _ (aligned_pair _ _ _ _ _ _ _ NaN _ _ (fun '(x, y) => fsub x y) B A3 ltac:(lia) ltac:(lia) x_sub_nan_l x_sub_nan_r)). reflexivity.
Qed.

(** ** rainbow *)
(** [j] plain averages over [w] bars, one on top of the other. *)
Fixpoint smoothed (w : nat) (f : nat -> R) (j : nat) : nat -> R :=
  match j with O => f | S j' => fun i => mean (last_bars w (smoothed w f j') i) end.
Lemma smoothed_bounds w f j i lo hi : (0 < w)%nat -> (j * (w - 1) <= i)%nat -> (forall k, (k <= i)%nat -> lo <= f k <= hi) -> lo <= smoothed w f j i <= hi.
Proof.
  intros Hw. revert i. induction j as [|j IH]; intros i Hj H; cbn [smoothed]; [apply H; lia|]. apply last_bars_bounds; [lia|]. intros k H1 H2. apply IH; [lia|]. intros; apply H; lia.
Qed.
Lemma rainbow_smas_real w f n : (0 < w)%nat -> forall m s j, (S (j + m) * (w - 1) <= n)%nat -> aligned s n (S j * (w - 1)) NaN (fun i => Fin (smoothed w f (S j) i)) ->
  exists ss, rainbow_smas m s w = Ok ss /\
  Forall2 (fun s' j' => aligned s' n (j' * (w - 1)) NaN (fun i => Fin (smoothed w f j' i))) ss (seq (S j) (S m)).
Proof.
  intros Hw. induction m as [|m IH]; intros s j Hn A; cbn [rainbow_smas].
  - exists [s]. split; [easy|]. constructor; [exact A|constructor].
  - destruct (sma_of_aligned s n _ _ w A Hw) as (s' & E & A'); [nia|nia|]. rewrite E. cbn [bind].
    destruct (IH s' (S j)) as (ss & E2 & F2); [nia| |].
    + replace (S (S j) * (w - 1))%nat with (S j * (w - 1) + w - 1)%nat by nia. exact A'.
    + rewrite E2. cbn [bind]. exists (s :: ss). split; [easy|]. cbn [seq]. constructor; [exact A|exact F2].
Qed.
Theorem rainbow_real f n w lb : (0 < w)%nat -> (0 < lb)%nat -> (10 * (w - 1) <= n)%nat -> (lb - 1 <= 10 * (w - 1))%nat -> (forall k, (k < n)%nat -> Rabs (f k) <= max_f64) ->
  exists o, rainbow (xseries f n) w lb = Ok o /\
  aligned o n (10 * (w - 1)) (NaN, NaN) (fun i =>
    let sm := map (fun j => smoothed w f j i) (seq 1 10) in
    let range := Rmax (highest lb f i - lowest lb f i) 0.000001 in
    (Fin (100 * (f i - mean sm) / range), Fin (100 * (Rmax_list sm - Rmin_list sm) / range))).
Proof.
  intros Hw Hl Hn Hlb HM. unfold rainbow. destruct (sma_from f w 0 n Hw) as (s & E & A). unfold xseries, series at 1. rewrite E. cbn [bind].
  destruct (rainbow_smas_real w f n Hw 9 s 0) as (ss & E2 & F2); [nia| |].
  { replace (1 * (w - 1))%nat with (w - 1)%nat by lia. exact A. }
  rewrite E2. cbn [bind]. unfold usub at 1. rewrite (proj2 (Nat.leb_le 1 w)) by lia. cbn [bind]. rewrite length_series.
  assert (MB : forall k, (k < n)%nat -> - max_f64 <= f k <= max_f64). { intros k Hk. specialize (HM k Hk). revert HM. unfold Rabs. destruct (Rcase_abs _); lra. }
  set (V := fun i => let sm := map (fun j => smoothed w f j i) (seq 1 10) in
    let range := Rmax (highest lb f i - lowest lb f i) 0.000001 in
    (Fin (100 * (f i - mean sm) / range), Fin (100 * (Rmax_list sm - Rmin_list sm) / range))).
  rewrite (@rmap_Ok_map _ _ _ V).
  - cbn [bind]. eexists. split; [reflexivity|]. replace ((w - 1) * 10)%nat with (10 * (w - 1))%nat by lia. now apply aligned_bars.
  - intros i Hi. apply in_seq in Hi. unfold rainbow_at.
    assert (I : rmap (fun s0 => idx s0 i) ss = Ok (map Fin (map (fun j => smoothed w f j i) (seq 1 10)))).
    { assert (J : forall j, In j (seq 1 10) -> (j * (w - 1) <= i)%nat). { intros j Hj. apply in_seq in Hj. nia. }
      change (S 9) with 10%nat in F2. revert F2 J. generalize (seq 1 10) as js. intros js F2. clear E2. induction F2 as [|s' j' ss' js' A' F2 IH]; intros J; [easy|].
      cbn [rmap map]. destruct A' as (_ & _ & A'). unfold idx at 1. rewrite A' by (split; [apply J; now left|lia]). cbn [bind]. rewrite IH by (intros; apply J; now right). reflexivity. }
    rewrite I. cbn [bind]. unfold usub. rewrite (proj2 (Nat.leb_le 1 lb)) by lia. cbn [bind]. rewrite (proj2 (Nat.leb_le (lb - 1) i)) by lia. cbn [bind].
    replace (i + 1 - (i - (lb - 1)))%nat with lb by lia.
    rewrite (@rmap_Ok_map _ _ _ (fun k => Fin (f k))) by (intros k Hk; apply in_seq in Hk; apply (idx_series (fun k => Fin (f k))); lia). cbn [bind]. rewrite (idx_series (fun k => Fin (f k))) by lia. cbn [bind].
    set (sm := map (fun j => smoothed w f j i) (seq 1 10)). change (@fminval xr XR) with (Fin (- max_f64)). change (@fmaxval xr XR) with (Fin max_f64).
    assert (SB : forall x, In x sm -> - max_f64 <= x <= max_f64).
    { intros x Hx. apply in_map_iff in Hx as (j & <- & Hj). apply in_seq in Hj. apply smoothed_bounds; [easy|nia|]. intros. apply MB. lia. }
    assert (SN : sm <> []) by easy.
    replace (map (fun k => Fin (f k)) (seq (i - (lb - 1)) lb)) with (map Fin (last_bars lb f i)) by (unfold last_bars; rewrite map_map; do 2 f_equal; lia).
    rewrite !x_fold_max_from, !x_fold_min_from, !x_lit, x_fold_fadd. rewrite !fold_Rmax_list, !fold_Rmin_list by (easy || now apply last_bars_nonempty).
    fold (highest lb f i). fold (lowest lb f i).
    destruct (Rmax_list_spec sm SN) as [M1 _]. destruct (Rmin_list_spec sm SN) as [M2 _].
    destruct (highest_spec lb f i ltac:(lia)) as [(k1 & K1 & _ & H1) _]. destruct (lowest_spec lb f i ltac:(lia)) as [(k2 & K2 & _ & H2) _].
    rewrite !Rmax_right by (try (rewrite H1; apply MB; lia); apply SB; assumption). rewrite !Rmin_right by (try (rewrite H2; apply MB; lia); apply SB; assumption).
    rewrite ?x_frac, !x_sub, !x_max. rewrite (x_div _ 10) by lra. rewrite !x_sub, !x_mul.
    set (R := Rmax (highest lb f i - lowest lb f i) (1 / 1000000)).
    assert (0 < R) by (unfold R; eapply Rlt_le_trans; [|apply Rmax_r]; lra).
    rewrite !x_div by lra. unfold V. cbv zeta. fold sm. replace 0.000001 with (1 / 1000000) by lra. fold R. unfold mean. replace (INR (length sm)) with 10 by (cbn [sm map seq length INR]; lra). reflexivity.
Qed.

(** ** qqe *)
Theorem qqe_real f n w s : (0 < w)%nat -> (0 < s)%nat -> (3 * w + s <= n + 1)%nat -> (forall i, (w <= i < n)%nat -> moved w f i) ->
  let m := ewma_from s w (rsi_of w f) in
  let a := wilder_from w (w + s) (fun i => Rabs (m i - m (i - 1)%nat)) in
  let d := fun i => 4.236 * wilder_from w (2 * w + s - 1) a i in
  exists o (t : nat -> R), qqe (xseries f n) w s = Ok o /\
  aligned o n (3 * w + s - 1) NaN (fun i => Fin (t (S i))) /\ t (3 * w + s - 1)%nat = 0 /\
  forall i, (3 * w + s - 1 <= i < n)%nat ->
    t (S i) = if Rltb (t i) (m i) then (if Rltb (t i) (m (i - 1)%nat) then Rmax (t i) (m i - d i) else m i - d i)
              else if Rltb (m i) (t i) then (if Rltb (m (i - 1)%nat) (t i) then Rmin (t i) (m i + d i) else m i + d i)
              else t i.
Proof.
  intros Hw Hs Hn M m a d. unfold qqe. destruct (rsi_of_aligned f n w) as (r & E & A); [lia|easy|]. rewrite E. cbn [bind].
  rewrite (skipn_aligned _ _ _ _ _ A). destruct (ewma_from_at (rsi_of w f) s w (n - w)) as (e & E1 & A1); [lia|]. rewrite E1. cbn [bind]. fold m in A1.
  unfold usub at 1. rewrite (proj2 (Nat.leb_le 1 s)) by lia. cbn [bind].
  rewrite (skipn_aligned_from e _ _ _ _ (fun i => Fin (m i)) A1). replace (n - w - (s - 1))%nat with (n - (w + (s - 1)))%nat by lia.
  replace (w + (s - 1))%nat with (w + s - 1)%nat by lia. rewrite pairs_bars, map_map. replace (S (w + s - 1)) with (w + s)%nat by lia.
  rewrite (map_ext (fun x => fabs _) (fun i => Fin (Rabs (m i - m (i - 1)%nat)))) by (intros; now rewrite x_sub, x_abs).
  replace (n - (w + s - 1) - 1)%nat with (n - (w + s))%nat by lia.
  destruct (wilder_from_at (fun i => Rabs (m i - m (i - 1)%nat)) w (w + s) (n - (w + s))) as (w1 & E2 & A2); [lia|]. rewrite E2. cbn [bind]. fold a in A2.
  unfold usub at 1. rewrite (proj2 (Nat.leb_le 1 w)) by lia. cbn [bind].
  rewrite (skipn_aligned_from w1 _ _ _ _ (fun i => Fin (a i)) A2). replace (w + s + (w - 1))%nat with (2 * w + s - 1)%nat by lia. replace (n - (w + s) - (w - 1))%nat with (n - (2 * w + s - 1))%nat by lia.
  destruct (wilder_from_at a w (2 * w + s - 1) (n - (2 * w + s - 1))) as (w2 & E3 & A3); [lia|]. rewrite E3. cbn [bind].
  rewrite (skipn_aligned_from w2 _ _ _ _ (fun i => Fin (wilder_from w (2 * w + s - 1) a i)) A3), map_map.
  replace (2 * w + s - 1 + (w - 1))%nat with (3 * w + s - 2)%nat by lia. replace (n - (2 * w + s - 1) - (w - 1))%nat with (n - (3 * w + s - 2))%nat by lia.
  rewrite (map_ext (fun x => fmul _ _) (fun i => Fin (d i))) by (intros i; rewrite x_frac, x_mul; f_equal; unfold d; lra).
  unfold usub. rewrite (proj2 (Nat.leb_le 1 (w * 2))) by lia. cbn [bind]. rewrite skipn_bars, map_length, seq_length.
  replace (w + s - 1 + (w * 2 - 1))%nat with (3 * w + s - 2)%nat by lia. replace (n - (w + s - 1) - (w * 2 - 1))%nat with (n - (3 * w + s - 2))%nat by lia.
  set (b := (3 * w + s - 2)%nat) in *. replace (3 * w + s - 1)%nat with (S b) in * by lia.
  destruct (iterate_bars (fun i t => if Rltb t (m i) then (if Rltb t (m (i - 1)%nat) then Rmax t (m i - d i) else m i - d i)
              else if Rltb (m i) t then (if Rltb (m (i - 1)%nat) t then Rmin t (m i + d i) else m i + d i) else t) 0 (S b)) as (t & T0 & TS).
  rewrite <- (map_id (seq 1 (n - b - 1))).
  rewrite (rscan_inv_bars _ (fun x => Fin (t (b + x)%nat)) (fun x => Fin (t (S (b + x))%nat))).
  - cbn [bind]. eexists _, t. split; [reflexivity|]. split; [|split; [exact T0|intros i Hi; now apply TS]].
    replace (w * 3 + (s - 1))%nat with (S b) by lia. replace (map (fun x => Fin (t (S (b + x)))) (seq 1 (n - b - 1))) with (map (fun i => Fin (t (S i))) (seq (S b) (n - S b))).
    + apply aligned_bars. lia.
    + replace (n - S b)%nat with (n - b - 1)%nat by lia. rewrite (shift_bars b (fun x => Fin (t (S (b + x)))) 1). cbn [plus]. apply map_ext_in. intros i Hi. apply in_seq in Hi. do 3 f_equal. lia.
  - rewrite Nat.add_1_r, T0. apply x_lit.
  - intros x Hx. unfold qqe_step.
    assert (X : forall (g : nat -> R) y, (y < n - b)%nat -> idx (map (fun i => Fin (g i)) (seq b (n - b))) y = Ok (Fin (g (b + y)%nat))).
    { intros g y Hy. unfold idx. rewrite nth_error_map', nth_error_seq by lia. reflexivity. }
    rewrite X by lia. cbn [bind]. unfold usub. rewrite (proj2 (Nat.leb_le 1 x)) by lia. cbn [bind]. rewrite !X by lia. cbn [bind].
    unfold fgtb. rewrite !x_ltb, !x_sub, !x_add, !x_max, !x_min. rewrite !Nat.add_succ_r, (TS (b + x)%nat) by lia. replace (b + (x - 1))%nat with (b + x - 1)%nat by lia.
    cbv beta. repeat (match goal with |- context [Rltb ?a ?c] => destruct (Rltb a c) end); try reflexivity; rewrite ?x_max, ?x_min, ?x_sub, ?x_add; reflexivity.
Qed.

(** ** crsi *)
(** Number of bars the price has been rising (positive) or falling (negative) in
    a row; zero when unchanged. *)
Fixpoint streak (f : nat -> R) (k : nat) : R :=
  match k with
  | O => 0
  | S j => if Req (f (S j)) (f j) then 0 else if Rltb (f j) (f (S j)) then Rmax (streak f j) 0 + 1 else Rmin (streak f j) 0 - 1
  end.
(** Percentage of the last [w] one-bar returns, the latest apart, that are below the latest. *)
Definition return_rank (w : nat) (f : nat -> R) (i : nat) : R :=
  let ret := fun k => (f k - f (k - 1)%nat) / f (k - 1)%nat in
  100 * (INR (length (filter (fun k => Rltb (ret k) (ret i)) (seq (i + 1 - w) w))) / INR (w - 1)).
Lemma streak_sign f k : (1 <= k)%nat -> (f (k - 1)%nat < f k -> 0 < streak f k) /\ (f k < f (k - 1)%nat -> streak f k < 0) /\ (f k = f (k - 1)%nat -> streak f k = 0).
Proof.
  destruct k as [|k]; [lia|]. intros _. replace (S k - 1)%nat with k by lia. cbn [streak].
  destruct (Req (f (S k)) (f k)) eqn:E; [apply Req_true in E; repeat split; lra|]. apply Req_false in E.
  destruct (Rltb (f k) (f (S k))) eqn:E2; [apply Rltb_true in E2|apply Rltb_false in E2]; unfold Rmax, Rmin; destruct (Rle_dec _ _); repeat split; lra.
Qed.
Lemma streaks_bars f n : (forall k, (k < n)%nat -> 0 < f k) ->
  scan streak_step (flit 0 1, flit 0 1) (pairs (xseries f n)) = map (fun k => (Fin (streak f k), Fin ((f k - f (k - 1)%nat) / f (k - 1)%nat))) (seq 1 (n - 1)).
Proof.
  intros H. unfold xseries. rewrite pairs_series.
  apply (scan_inv_bars _ (fun k => if (k =? 1)%nat then (Fin 0, Fin 0) else (Fin (streak f (k - 1)), Fin ((f (k - 1)%nat - f (k - 1 - 1)%nat) / f (k - 1 - 1)%nat)))).
  - now rewrite !x_lit.
  - intros i Hi. replace (S i =? 1)%nat with false by (symmetry; apply Nat.eqb_neq; lia). replace (S i - 1)%nat with i by lia.
    assert (P0 : 0 < f (i - 1)%nat) by (apply H; lia). assert (P1 : 0 < f i) by (apply H; lia).
    set (st := if (i =? 1)%nat then _ else _).
    assert (ST : exists s r, st = (Fin s, Fin r) /\ s = streak f (i - 1) /\ (0 <= r <-> 0 <= s) ).
    { unfold st. destruct (Nat.eqb_spec i 1) as [->|N1]; [exists 0, 0; repeat split; cbn; lra|].
      eexists _, _. split; [reflexivity|]. split; [reflexivity|]. destruct (streak_sign f (i - 1) ltac:(lia)) as (S1 & S2 & S3).
      assert (0 < f (i - 1 - 1)%nat) by (apply H; lia). 
      assert (Q : 0 <= (f (i - 1)%nat - f (i - 1 - 1)%nat) / f (i - 1 - 1)%nat <-> f (i - 1 - 1)%nat <= f (i - 1)%nat).
      { split; intros HH; [|apply Rdiv_nonneg; lra]. apply Rnot_lt_le. intros Z.
        assert ((f (i - 1)%nat - f (i - 1 - 1)%nat) / f (i - 1 - 1)%nat < 0); [|lra]. apply Rmult_lt_reg_r with (f (i - 1 - 1)%nat); [lra|]. unfold Rdiv. rewrite Rmult_assoc, Rinv_l by lra. lra. }
      rewrite Q. destruct (Rtotal_order (f (i - 1)%nat) (f (i - 1 - 1)%nat)) as [Z|[Z|Z]]; [specialize (S2 Z)|specialize (S3 Z)|specialize (S1 Z)]; lra. }
    destruct ST as (s & r & -> & -> & SR). unfold streak_step. cbn [fst snd]. rewrite x_eqb, !x_sub, !x_signum, x_eqb, x_div by lra.
    assert (KS : streak f i = if Req (f i) (f (i - 1)%nat) then 0 else if Rltb (f (i - 1)%nat) (f i) then Rmax (streak f (i - 1)) 0 + 1 else Rmin (streak f (i - 1)) 0 - 1).
    { destruct i as [|i]; [lia|]. replace (S i - 1)%nat with i by lia. reflexivity. }
    rewrite KS. set (q := streak f (i - 1)) in *. rewrite x_add, x_lit.
    destruct (Req (f i) (f (i - 1)%nat)) eqn:E; [reflexivity|]. apply Req_false in E.
    destruct (Rltb (f i - f (i - 1)%nat) 0) eqn:E1, (Rltb r 0) eqn:E2, (Rltb (f (i - 1)%nat) (f i)) eqn:E3; rewrite ?Rltb_true, ?Rltb_false in *; try lra;
      (match goal with |- context [Req ?x ?y] => destruct (Req x y) eqn:E4 end); rewrite ?Req_true, ?Req_false in *; try lra;
      do 3 f_equal; unfold Rmax, Rmin; destruct (Rle_dec q 0); try lra; 
      repeat match goal with |- (_, _) = (_, _) => f_equal | |- Fin _ = Fin _ => f_equal end; lra.
Qed.
Theorem crsi_real f n w sw rw : (0 < w < n)%nat -> (0 < sw)%nat -> (sw + 2 <= n)%nat -> (2 <= rw <= n)%nat -> (forall k, (k < n)%nat -> 0 < f k) ->
  let st := fun j => streak f (S j) in
  (forall i, (w <= i < n)%nat -> moved w f i) -> (forall i, (sw <= i < n - 1)%nat -> moved sw st i) ->
  exists o, crsi (xseries f n) w sw rw = Ok o /\
  aligned o n (Nat.max (Nat.max w (S sw)) rw) NaN (fun i => Fin ((rsi_of w f i + rsi_of sw st (i - 1) + return_rank rw f i) / 3)).
Proof.
  intros Hw Hs Hsn Hr H st M1 M2. unfold crsi. destruct (rsi_of_aligned f n w Hw M1) as (r & E & A). rewrite E. cbn [bind].
  rewrite streaks_bars by easy. rewrite !map_map. cbn [fst snd].
  destruct (rsi_of_aligned st (n - 1) sw) as (o2 & E2 & A2); [lia|easy|].
  assert (X : map (fun x => Fin (streak f x)) (seq 1 (n - 1)) = xseries st (n - 1)).
  { unfold xseries, series. rewrite (shift_bars 1 (fun k => Fin (st k))). cbn [plus]. apply map_ext_in. intros k Hk. apply in_seq in Hk. unfold st. do 2 f_equal. lia. }
  rewrite X, E2. cbn [bind]. rewrite rwindows_bars by lia. cbn [bind]. eexists. split; [reflexivity|].
  assert (B2 : aligned (NaN :: o2) n (S sw) NaN (fun i => Fin (rsi_of sw st (i - 1)))).
  { apply aligned_shift1; [lia|]. revert A2. apply aligned_ext. intros i Hi. do 2 f_equal. lia. }
  set (rank := pad rw fnan ++ _).
  assert (B3 : aligned rank n rw NaN (fun i => Fin (return_rank rw f i))).
  { unfold rank. rewrite map_map. replace (1 + rw - 1)%nat with rw by lia. apply aligned_bars_ext; [lia|]. intros i Hi. unfold percent_rank.
    rewrite at_last_bars by lia. replace (i + 1 - rw + (rw - 1))%nat with i by lia. rewrite !x_nat, x_div by (apply INR_neq0; lia). rewrite x_lit, x_mul. f_equal. unfold return_rank. cbv zeta.
    unfold last_bars. set (ret := fun k => (f k - f (k - 1)%nat) / f (k - 1)%nat).
    rewrite Rmult_comm. do 3 f_equal.
    generalize (seq (i + 1 - rw) rw) as ks. induction ks as [|k ks IH]; [easy|]. cbn [map filter]. rewrite x_ltb. destruct (Rltb _ _); cbn [length]; [f_equal|]; exact IH. }
  unfold zip3.
  assert (Z : map (fun '(x, y, z) => fdiv (fadd (fadd x y) z) (flit 3 1)) (combine (combine r (NaN :: o2)) rank)
            = map (fun '(s, z) => fdiv (fadd s z) (flit 3 1)) (combine (map (fun '(x, y) => fadd x y) (combine r (NaN :: o2))) rank)).
  { generalize (combine r (NaN :: o2)) as q. intros q. generalize rank as t. clear. induction q as [|[x y] q IH]; intros [|z t]; try easy. cbn [combine map]. f_equal. apply IH. }
  change (@fnan xr XR) with NaN. rewrite Z.
  pose proof (aligned_pair _ _ _ _ _ _ _ NaN _ _ (fun '(x, y) => fadd x y) A B2 ltac:(lia) ltac:(lia) x_add_nan_l x_add_nan_r) as P1.
  refine (aligned_ext _ (aligned_pair _ _ _ _ _ _ _ NaN _ _ (fun '(s, z) => fdiv (fadd s z) (flit 3 1)) P1 B3 ltac:(lia) ltac:(lia) _ _)).
  - intros i Hi. cbv beta iota. rewrite !x_add, x_lit, x_div by lra. reflexivity.
  - intros x. now rewrite x_add_nan_l, x_div_nan_l.
  - intros x. now rewrite x_add_nan_r, x_div_nan_l.
Qed.
Theorem crsi_range f w sw rw i : (0 < w)%nat -> (0 < sw)%nat -> (2 <= rw <= i)%nat ->
  let st := fun j => streak f (S j) in moved w f i -> moved sw st (i - 1) ->
  0 <= (rsi_of w f i + rsi_of sw st (i - 1) + return_rank rw f i) / 3 <= 100.
Proof.
  intros Hw Hs Hr st M1 M2. assert (A1 : 0 <= rsi_of w f i <= 100) by exact (rsi_range f w i Hw M1). assert (A2 : 0 <= rsi_of sw st (i - 1) <= 100) by exact (rsi_range st sw (i - 1) Hs M2).
  assert (0 <= return_rank rw f i <= 100); [|lra].
  unfold return_rank. cbv zeta. set (ret := fun k => (f k - f (k - 1)%nat) / f (k - 1)%nat). set (c := length _).
  assert (c <= rw - 1)%nat.
  { unfold c. replace rw with (rw - 1 + 1)%nat at 2 by lia. rewrite seq_app, filter_app, app_length. cbn [seq filter]. replace (i + 1 - rw + (rw - 1))%nat with i by lia.
    destruct (Rltb _ _) eqn:Z; [apply Rltb_true in Z; lra|]. clear Z. cbn [length]. rewrite Nat.add_0_r. rewrite <- (seq_length (rw - 1) (i + 1 - rw)) at 2.
    generalize (seq (i + 1 - rw) (rw - 1)) as q. induction q as [|x q IH]; cbn; [lia|]. destruct (Rltb _ _); cbn; lia. }
  assert (0 <= INR c / INR (rw - 1) <= 1) by (apply part_range; [split; [apply pos_INR|now apply le_INR]|apply INR_neq0; lia]). lra.
Qed.
