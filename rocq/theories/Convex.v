(** * Averages stay inside the range of what they average (exact arithmetic). *)

From Verif Require Export SmoothReal2.
Local Unset Implicit Arguments.
Local Open Scope R_scope.

Lemma max_ex l : l <> [] -> exists m, is_max l m.
Proof.
  induction l as [|a l IH]; [easy|]. intros _. destruct l as [|b l].
  - exists a. split; [now left|]. intros x [-> | []]. lra.
  - destruct IH as (m & Hm & Hmx); [easy|]. destruct (Rle_dec a m).
    + exists m. split; [now right|]. intros x [<- | Hx]; auto.
    + exists a. split; [now left|]. intros x [<- | Hx]; [lra|]. apply Hmx in Hx. lra.
Qed.
Lemma min_ex l : l <> [] -> exists m, is_min l m.
Proof.
  induction l as [|a l IH]; [easy|]. intros _. destruct l as [|b l].
  - exists a. split; [now left|]. intros x [-> | []]. lra.
  - destruct IH as (m & Hm & Hmx); [easy|]. destruct (Rle_dec m a).
    + exists m. split; [now right|]. intros x [<- | Hx]; auto.
    + exists a. split; [now left|]. intros x [<- | Hx]; [lra|]. apply Hmx in Hx. lra.
Qed.
Lemma within_bounds l v : l <> [] ->
  (forall lo hi, (forall x, In x l -> lo <= x <= hi) -> lo <= v <= hi) -> within l v.
Proof.
  intros Hn H. destruct (max_ex l Hn) as (M & HM & HMx), (min_ex l Hn) as (m & Hm & Hmn).
  destruct (H m M) as [B1 B2]; [intros x Hx; split; auto|].
  split; [now exists m | now exists M].
Qed.
Lemma within_elim l v lo hi : within l v -> (forall x, In x l -> lo <= x <= hi) -> lo <= v <= hi.
Proof.
  intros [(a & Ha & A) (b & Hb & B)] H. pose proof (H a Ha). pose proof (H b Hb). lra.
Qed.
(** A value within a constant list is that constant. *)
Lemma within_const l v c : within l v -> (forall x, In x l -> x = c) -> v = c.
Proof.
  intros W H. assert (c <= v <= c); [|lra]. apply (within_elim l); [easy|].
  intros x Hx. rewrite (H x Hx). lra.
Qed.
Lemma within_incl l l' v : within l v -> incl l l' -> within l' v.
Proof. intros [(a & Ha & A) (b & Hb & B)] I. split; eauto. Qed.

Lemma ema_bounds a s xs lo hi : 0 <= a <= 1 -> lo <= s <= hi ->
  (forall x, In x xs -> lo <= x <= hi) -> lo <= ema a s xs <= hi.
Proof.
  intros Ha. unfold ema. revert s. induction xs as [|x xs IH]; intros s Hs H; [easy|].
  cbn [fold_left]. apply IH; [|intros; apply H; now right].
  pose proof (H x (or_introl eq_refl)). nra.
Qed.
Lemma mean_bounds l lo hi : l <> [] -> (forall x, In x l -> lo <= x <= hi) -> lo <= mean l <= hi.
Proof. intros Hn H. apply (within_elim l); [now apply within_mean | easy]. Qed.

Lemma In_range {A} a b (l : list A) x : In x (range a b l) -> In x (firstn b l).
Proof.
  unfold range. intros H. apply In_nth_error in H as [j Hj].
  assert (j < b - a)%nat.
  { assert (j < length (firstn (b - a) (skipn a l)))%nat by (apply nth_error_Some; congruence).
    rewrite firstn_length in H. lia. }
  rewrite nth_error_firstn, nth_error_skipn in Hj by easy.
  apply nth_error_In with (n := (a + j)%nat). rewrite nth_error_firstn by lia. exact Hj.
Qed.
Lemma In_firstn_le {A} a b (l : list A) x : (a <= b)%nat -> In x (firstn a l) -> In x (firstn b l).
Proof.
  intros H. rewrite <- (Nat.min_l a b) by easy. rewrite <- firstn_firstn.
  intros X. rewrite <- (firstn_skipn a (firstn b l)). apply in_or_app. now left.
Qed.
Lemma In_firstn_win {A} w (l : list A) i x : (w <= i + 1)%nat -> In x (win w l i) -> In x (firstn (i + 1) l).
Proof.
  intros H X. apply (In_range (i + 1 - w)). unfold range.
  replace (i + 1 - (i + 1 - w))%nat with w by lia. exact X.
Qed.

(** [inside o k l seen]: from bar [k] on, each output is a real number lying
    between the least and the greatest of the bars [seen i]. *)
Definition inside (o : list xr) (k n : nat) (seen : nat -> list R) : Prop :=
  forall i, (k <= i < n)%nat -> exists v, nth_error o i = Some (Fin v) /\ within (seen i) v.

Lemma inside_aligned o k n f seen : aligned o n k NaN (fun i => Fin (f i)) ->
  (forall i, (k <= i < n)%nat -> within (seen i) (f i)) -> inside o k n seen.
Proof. intros (_ & _ & V) H i Hi. exists (f i). split; [now apply V | now apply H]. Qed.

Theorem sma_inside l w : (0 < w)%nat ->
  exists o, sma (map Fin l) w = Ok o /\ inside o (w - 1) (length l) (win w l).
Proof.
  intros Hw. destruct (sma_real l w Hw) as (o & E & A). exists o. split; [easy|].
  apply (inside_aligned _ _ _ _ _ A). intros i Hi. apply within_mean. apply win_nonempty; lia.
Qed.
Theorem wma_inside l w : (0 < w)%nat -> (N.of_nat w < 2 ^ 32)%N ->
  exists o, wma (map Fin l) w = Ok o /\ inside o (w - 1) (length l) (win w l).
Proof.
  intros Hw Hb. destruct (wma_real l w Hw Hb) as (o & E & A). exists o. split; [easy|].
  apply (inside_aligned _ _ _ _ _ A). intros i Hi. apply within_mean_gen.
  - rewrite map_length, seq_length, length_win; lia.
  - intros a Ha. apply in_map_iff in Ha. destruct Ha as (k & <- & _). apply pos_INR.
  - rewrite Rsum_seq. pose proof (INR_pos w Hw). nra.
Qed.
Theorem pwma_inside l w : (0 < w < 64)%nat ->
  exists o, pwma (map Fin l) w = Ok o /\ inside o (w - 1) (length l) (win w l).
Proof.
  intros Hw. destruct (pwma_real l w Hw) as (o & E & A). exists o. split; [easy|].
  apply (inside_aligned _ _ _ _ _ A). intros i Hi. apply within_mean_gen.
  - rewrite map_length, seq_length, length_win; lia.
  - intros a Ha. apply in_map_iff in Ha. destruct Ha as (k & <- & _). apply (RN_nonneg (binom (w - 1) k)).
  - pose proof (Rsum_binom (w - 1)) as X. replace (S (w - 1)) with w in X by lia.
    unfold RN at 1 in X. rewrite X. apply RN_pos, N.neq_0_lt_0, N.pow_nonzero. easy.
Qed.
Theorem fwma_inside l w : (2 <= w)%nat ->
  exists o, fwma (map Fin l) w = Ok o /\ inside o (w - 1) (length l) (win w l).
Proof.
  intros Hw. destruct (fwma_real l w Hw) as (o & E & A). exists o. split; [easy|].
  apply (inside_aligned _ _ _ _ _ A). intros i Hi. apply within_mean_gen.
  - rewrite map_length, seq_length, length_win; lia.
  - intros a Ha. apply in_map_iff in Ha. destruct Ha as (k & <- & _). apply pos_INR.
  - apply Rsum_fib_pos. lia.
Qed.
Lemma In_win_win w1 w2 (l : list R) i j x : (w1 + w2 <= i + 2)%nat -> (0 < w1)%nat -> (0 < w2)%nat ->
  In j (seq (i + 1 - w2) w2) -> (i < length l)%nat -> In x (win w1 l j) -> In x (win (w1 + w2 - 1) l i).
Proof.
  intros H H1 H2 Hj Hi Hx. apply in_seq in Hj. apply In_nth_error in Hx as [k Hk].
  assert (K : (k < w1)%nat).
  { assert (k < length (win w1 l j))%nat by (apply nth_error_Some; congruence).
    unfold win in H0. rewrite firstn_length in H0. lia. }
  rewrite nth_error_win in Hk by easy.
  apply nth_error_In with (n := (j + 1 - w1 + k - (i + 1 - (w1 + w2 - 1)))%nat).
  rewrite nth_error_win by lia. rewrite <- Hk. f_equal. lia.
Qed.
Theorem trima_inside l w : (0 < w <= length l + 1)%nat ->
  exists o, trima (map Fin l) w = Ok o /\ inside o (w - 1) (length l) (win w l).
Proof.
  intros Hw. destruct (trima_real l w Hw) as (o & E & A). exists o. split; [easy|].
  apply (inside_aligned _ _ _ _ _ A). intros i Hi. cbv zeta.
  set (w1 := ((w + 1) / 2)%nat).
  assert (P : (0 < w1 <= w)%nat).
  { unfold w1. pose proof (Nat.div_mod (w + 1) 2). pose proof (Nat.mod_upper_bound (w + 1) 2). lia. }
  set (w2 := (w + 1 - w1)%nat). assert (P2 : (0 < w2)%nat) by (unfold w2; lia).
  apply within_bounds; [apply win_nonempty; lia|]. intros lo hi H.
  apply mean_bounds; [destruct w2; [lia|easy]|].
  intros x Hx. apply in_map_iff in Hx. destruct Hx as (j & <- & Hj).
  pose proof (proj1 (in_seq _ _ _) Hj) as Hj'.
  apply mean_bounds; [apply win_nonempty; lia|].
  intros x Hx. apply H. replace w with (w1 + w2 - 1)%nat by lia.
  apply (In_win_win w1 w2 l i j); try easy; lia.
Qed.
Theorem ewma_inside l w : (0 < w <= length l)%nat ->
  exists o, ewma (map Fin l) w = Ok o /\ inside o (w - 1) (length l) (fun i => firstn (i + 1) l).
Proof.
  intros Hw. destruct (ewma_real l w Hw) as (o & E & A). exists o. split; [easy|].
  apply (inside_aligned _ _ _ _ _ A). intros i Hi.
  apply within_bounds; [destruct l; cbn in *; [lia | now replace (i + 1)%nat with (S i) by lia]|].
  intros lo hi H. apply ema_bounds.
  - assert (1 <= INR w) by (change 1 with (INR 1); apply le_INR; lia). split.
    + apply Rlt_le, Rdiv_lt_0_compat; lra.
    + apply Rmult_le_reg_r with (INR w + 1); [lra|]. unfold Rdiv. rewrite Rmult_assoc, Rinv_l; lra.
  - apply mean_bounds.
    + destruct l; cbn in *; [lia|]. destruct w; [lia|easy].
    + intros x Hx. apply H. apply (In_firstn_le w); [lia|easy].
  - intros x Hx. apply H. now apply In_range in Hx.
Qed.
Theorem wilder_inside l w : (2 <= w <= length l)%nat ->
  exists o, wilder (map Fin l) w = Ok o /\ inside o (w - 1) (length l) (fun i => firstn (i + 1) l).
Proof.
  intros Hw. destruct (wilder_real l w Hw) as (o & E & A). exists o. split; [easy|].
  apply (inside_aligned _ _ _ _ _ A). intros i Hi.
  apply within_bounds; [destruct l; cbn in *; [lia | now replace (i + 1)%nat with (S i) by lia]|].
  intros lo hi H. apply ema_bounds.
  - assert (2 <= INR w) by (change 2 with (INR 2); apply le_INR; lia). split.
    + apply Rlt_le, Rdiv_lt_0_compat; lra.
    + apply Rmult_le_reg_r with (INR w); [lra|]. unfold Rdiv. rewrite Rmult_assoc, Rinv_l; lra.
  - apply mean_bounds.
    + destruct l; cbn in *; [lia|]. destruct w as [|[|w]]; [lia|lia|easy].
    + intros x Hx. apply H. apply (In_firstn_le (w - 1)); [lia|easy].
  - intros x Hx. apply H. now apply In_range in Hx.
Qed.
Lemma In_lags (l : list R) i m x : (m <= i + 1)%nat -> (i < length l)%nat ->
  In x (map (fun k => nth (i - k) l 0) (seq 0 m)) -> In x (win m l i).
Proof.
  intros Hm Hi H. apply in_map_iff in H. destruct H as (k & <- & Hk). apply in_seq in Hk.
  apply nth_error_In with (n := (m - 1 - k)%nat). rewrite nth_error_win by lia.
  replace (i + 1 - m + (m - 1 - k))%nat with (i - k)%nat by lia. apply nth_error_nth'. lia.
Qed.
Theorem kernel_inside l sigma : sigma <> 0 ->
  exists o, kernel (map Fin l) (Fin sigma) = Ok o /\
  inside o 0 (length l) (fun i => win (Nat.min (i + 1) 255) l i).
Proof.
  intros Hs. destruct (kernel_real l sigma Hs) as (o & E & A). exists o. split; [easy|].
  apply (inside_aligned _ _ _ _ _ A). intros i Hi. cbv zeta.
  eapply within_incl; [apply within_mean_gen|].
  - now rewrite !map_length.
  - intros a Ha. apply in_map_iff in Ha. destruct Ha as (k & <- & _). apply Rlt_le, exp_pos.
  - apply Rsum_exp_pos. replace (Nat.min (i + 1) 255) with (S (Nat.min i 254)) by lia. easy.
  - intros x. apply In_lags; lia.
Qed.
Theorem alma_inside l w sigma mu : (0 < w)%nat -> sigma <> 0 ->
  exists o, alma (map Fin l) w (Fin sigma) (option_map Fin mu) = Ok o /\
  inside o w (length l) (win w l).
Proof.
  intros Hw Hs. destruct (alma_real l w sigma mu Hw Hs) as (o & E & A). exists o. split; [easy|].
  apply (inside_aligned _ _ _ _ _ A). intros i Hi. cbv zeta.
  eapply within_incl; [apply within_mean_gen|].
  - now rewrite !map_length.
  - intros a Ha. apply in_map_iff in Ha. destruct Ha as (k & <- & _). apply Rlt_le, exp_pos.
  - apply Rsum_exp_pos. destruct w; [lia|easy].
  - intros x. apply In_lags; lia.
Qed.

(** So each of them reproduces a constant series. *)
Theorem inside_constant o k n seen c : inside o k n seen ->
  (forall i x, (k <= i < n)%nat -> In x (seen i) -> x = c) ->
  forall i, (k <= i < n)%nat -> nth_error o i = Some (Fin c).
Proof.
  intros H Hc i Hi. destruct (H i Hi) as (v & E & W). rewrite E. do 2 f_equal.
  apply (within_const _ _ _ W). intros x. now apply Hc.
Qed.

(** ** Higher order exponential averages of a constant *)

Lemma ema_const a c xs : (forall x, In x xs -> x = c) -> ema a c xs = c.
Proof.
  unfold ema. induction xs as [|x xs IH]; intros H; [easy|]. cbn [fold_left].
  rewrite (H x) by now left. replace (c * a + c * (1 - a)) with c by lra.
  apply IH. intros; apply H; now right.
Qed.
Lemma ewma_from_const w k f c i : (0 < w)%nat -> (forall j, (k <= j <= Nat.max i (k + w - 1))%nat -> f j = c) ->
  ewma_from w k f i = c.
Proof.
  intros Hw H. unfold ewma_from.
  assert (M : mean (map f (seq k w)) = c).
  { apply mean_const; [destruct w; easy|]. intros x Hx. apply in_map_iff in Hx. destruct Hx as (j & <- & Hj).
    apply in_seq in Hj. apply H. lia. }
  rewrite M. apply ema_const. intros x Hx. apply in_map_iff in Hx. destruct Hx as (j & <- & Hj).
  apply in_seq in Hj. apply H. lia.
Qed.
Lemma nth_const (l : list R) c j : (forall x, In x l -> x = c) -> (j < length l)%nat -> nth j l 0 = c.
Proof. intros H Hj. apply H. now apply nth_In. Qed.

Theorem dema_constant l w c : (0 < w)%nat -> (2 * w - 1 <= length l)%nat -> (forall x, In x l -> x = c) ->
  exists o, dema (map Fin l) w = Ok o /\ aligned o (length l) (2 * w - 2) NaN (fun _ => Fin c).
Proof.
  intros Hw Hn Hc. destruct (dema_real l w Hw Hn) as (o & E & A). exists o. split; [easy|].
  revert A. apply aligned_ext. intros i Hi. cbv zeta. f_equal.
  assert (E1 : forall j, (j < length l)%nat -> ewma_from w 0 (fun j => nth j l 0) j = c).
  { intros j Hj. apply ewma_from_const; [easy|]. intros j2 Hj2. apply nth_const; [easy|lia]. }
  rewrite E1 by lia. rewrite (ewma_from_const w (w - 1) _ c); [lra|easy|].
  intros j Hj. apply E1. lia.
Qed.
Theorem tema_constant l w c : (0 < w)%nat -> (3 * w - 2 <= length l)%nat -> (forall x, In x l -> x = c) ->
  exists o, tema (map Fin l) w = Ok o /\ aligned o (length l) (3 * w - 3) NaN (fun _ => Fin c).
Proof.
  intros Hw Hn Hc. destruct (tema_real l w Hw Hn) as (o & E & A). exists o. split; [easy|].
  revert A. apply aligned_ext. intros i Hi. cbv zeta. f_equal.
  set (e1 := ewma_from w 0 _). set (e2 := ewma_from w (w - 1) e1).
  assert (E1 : forall j, (j < length l)%nat -> e1 j = c).
  { intros j Hj. apply ewma_from_const; [easy|]. intros j2 Hj2. apply nth_const; [easy|lia]. }
  assert (E2 : forall j, (j < length l)%nat -> e2 j = c).
  { intros j Hj. apply ewma_from_const; [easy|]. intros j2 Hj2. apply E1. lia. }
  rewrite E1, E2 by lia. rewrite (ewma_from_const w (2 * w - 2) _ c); [lra|easy|].
  intros j Hj. apply E2. lia.
Qed.
Theorem t3_constant l w factor c : (0 < w)%nat -> (6 * w - 5 <= length l)%nat -> (forall x, In x l -> x = c) ->
  exists o, t3 (map Fin l) w (option_map Fin factor) = Ok o /\
  aligned o (length l) (6 * w - 6) NaN (fun _ => Fin c).
Proof.
  intros Hw Hn Hc. destruct (t3_real l w factor Hw Hn) as (o & E & A). exists o. split; [easy|].
  revert A. apply aligned_ext. intros i Hi. cbv zeta. f_equal.
  set (e1 := ewma_from w 0 _). set (e2 := ewma_from w (w - 1) e1).
  set (e3 := ewma_from w (2 * (w - 1)) e2). set (e4 := ewma_from w (3 * (w - 1)) e3).
  set (e5 := ewma_from w (4 * (w - 1)) e4).
  assert (E1 : forall j, (j < length l)%nat -> e1 j = c).
  { intros j Hj. apply ewma_from_const; [easy|]. intros j2 Hj2. apply nth_const; [easy|lia]. }
  assert (E2 : forall j, (j < length l)%nat -> e2 j = c).
  { intros j Hj. apply ewma_from_const; [easy|]. intros j2 Hj2. apply E1. lia. }
  assert (E3 : forall j, (j < length l)%nat -> e3 j = c).
  { intros j Hj. apply ewma_from_const; [easy|]. intros j2 Hj2. apply E2. lia. }
  assert (E4 : forall j, (j < length l)%nat -> e4 j = c).
  { intros j Hj. apply ewma_from_const; [easy|]. intros j2 Hj2. apply E3. lia. }
  assert (E5 : forall j, (j < length l)%nat -> e5 j = c).
  { intros j Hj. apply ewma_from_const; [easy|]. intros j2 Hj2. apply E4. lia. }
  rewrite E3, E4, E5 by lia. rewrite (ewma_from_const w (5 * (w - 1)) _ c); [lra|easy|].
  intros j Hj. apply E5. lia.
Qed.

(** With factor 0, [t3] is the triple exponential average. *)
Theorem t3_factor_0 l w : (0 < w)%nat -> (6 * w - 5 <= length l)%nat ->
  exists o, t3 (map Fin l) w (Some (Fin 0)) = Ok o /\
  aligned o (length l) (6 * w - 6) NaN
    (fun i => Fin (ewma_from w (2 * (w - 1)) (ewma_from w (w - 1) (ewma_from w 0 (fun j => nth j l 0))) i)).
Proof.
  intros Hw Hn. destruct (t3_real l w (Some 0) Hw Hn) as (o & E & A). exists o. split; [exact E|].
  revert A. apply aligned_ext. intros i Hi. cbv zeta. f_equal.
  replace (clamp01 0) with 0; [ring|]. unfold clamp01, Rmin, Rmax. repeat destruct Rle_dec; lra.
Qed.
