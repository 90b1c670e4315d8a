(** * Bars: series given bar by bar, and the calculus of lists indexed by bars. *)

From Verif Require Export RegReal.
Local Unset Implicit Arguments.

(** ** Specification vocabulary *)

(** The series of the [n] values [f 0], [f 1], ..., [f (n-1)]. *)
Definition series {A} (f : nat -> A) (n : nat) : list A := map f (seq 0 n).
(** The same for exact data. *)
Definition xseries (f : nat -> R) (n : nat) : list xr := series (fun k => Fin (f k)) n.

(** Sum of [f] over the bars [a], ..., [b] (both included). *)
Definition sum_bars (f : nat -> R) (a b : nat) : R := Rsum (map f (seq a (b + 1 - a))).
(** The values of [f] at the [w] bars that end at bar [i]. *)
Definition last_bars {A} (w : nat) (f : nat -> A) (i : nat) : list A := map f (seq (i + 1 - w) w).

(** Every list is such a series. *)
Lemma series_complete {A} (l : list A) d : l = series (fun k => nth k l d) (length l).
Proof.
  unfold series. induction l as [|a l IH]; [easy|]. cbn [length seq map nth]. f_equal.
  rewrite <- seq_shift, map_map. exact IH.
Qed.
Lemma xseries_complete l : map Fin l = xseries (fun k => nth k l 0%R) (length l).
Proof. unfold xseries, series. rewrite (series_complete l 0%R) at 1. unfold series. now rewrite map_map. Qed.

(** ** Calculus *)
Lemma length_series {A} (f : nat -> A) n : length (series f n) = n.
Proof. unfold series. now rewrite map_length, seq_length. Qed.
Lemma skipn_seq' k a n : skipn k (seq a n) = seq (a + k) (n - k).
Proof.
  revert a n. induction k as [|k IH]; intros a n; [now rewrite Nat.add_0_r, Nat.sub_0_r|].
  destruct n; [easy|]. cbn [seq skipn]. rewrite IH. f_equal; lia.
Qed.
Lemma firstn_seq' k a n : firstn k (seq a n) = seq a (Nat.min k n).
Proof. revert a n. induction k as [|k IH]; intros a [|n]; cbn; try easy. now rewrite IH. Qed.
Lemma skipn_bars {A} (f : nat -> A) k a n : skipn k (map f (seq a n)) = map f (seq (a + k) (n - k)).
Proof. now rewrite skipn_map, skipn_seq'. Qed.
Lemma firstn_bars {A} (f : nat -> A) k a n : firstn k (map f (seq a n)) = map f (seq a (Nat.min k n)).
Proof. now rewrite firstn_map, firstn_seq'. Qed.
Lemma combine_bars {A B} (f : nat -> A) (g : nat -> B) a n m :
  combine (map f (seq a n)) (map g (seq a m)) = map (fun k => (f k, g k)) (seq a (Nat.min n m)).
Proof. revert a m. induction n as [|n IH]; intros a [|m]; cbn; try easy. now rewrite IH. Qed.
Lemma shift_bars {A} d (f : nat -> A) a n : map f (seq a n) = map (fun k => f (k - d)) (seq (a + d) n).
Proof.
  revert a. induction n as [|n IH]; intros a; [easy|]. cbn [seq map]. f_equal; [f_equal; lia|]. apply (IH (S a)).
Qed.
Lemma windows_bars {A} w (f : nat -> A) a n : 0 < w ->
  windows w (map f (seq a n)) = map (last_bars w f) (seq (a + w - 1) (n + 1 - w)).
Proof.
  intros Hw. unfold windows, last_bars. rewrite map_length, seq_length.
  replace (map _ (seq (a + w - 1) (n + 1 - w))) with (map (fun i => map f (seq (a + i) w)) (seq 0 (n + 1 - w))).
  - apply map_ext_in. intros i Hi. apply in_seq in Hi. rewrite skipn_bars, firstn_bars. do 2 f_equal. lia.
  - rewrite (shift_bars (a + w - 1) (fun i => map f (seq (a + i) w))). cbn [plus].
    apply map_ext_in. intros i Hi. apply in_seq in Hi. do 2 f_equal. lia.
Qed.
Lemma rwindows_bars {A} w (f : nat -> A) a n : 0 < w ->
  rwindows w (map f (seq a n)) = Ok (map (last_bars w f) (seq (a + w - 1) (n + 1 - w))).
Proof. intros Hw. unfold rwindows. rewrite (proj2 (Nat.eqb_neq w 0)) by lia. now rewrite windows_bars. Qed.
(** A scan whose output is its state. *)
Lemma scan_bars {S A} (h : S -> A -> S) s (f : nat -> A) a n :
  scan (fun s x => (h s x, h s x)) s (map f (seq a n)) =
  map (fun i => fold_left h (map f (seq a (i + 1 - a))) s) (seq a n).
Proof.
  revert s a. induction n as [|n IH]; intros s a; [easy|]. cbn [seq map scan].
  replace (a + 1 - a) with 1 by lia. cbn [seq map fold_left]. f_equal. rewrite IH.
  apply map_ext_in. intros i Hi. apply in_seq in Hi. replace (i + 1 - a) with (Datatypes.S (i + 1 - Datatypes.S a)) by lia. reflexivity.
Qed.
(** A scan in general: the state before bar [i] comes from the bars before it. *)
Lemma scan_state_bars {S A B} (g : S -> A -> S * B) s (f : nat -> A) a n :
  scan g s (map f (seq a n)) =
  map (fun i => snd (g (fold_left (fun s x => fst (g s x)) (map f (seq a (i - a))) s) (f i))) (seq a n).
Proof.
  revert s a. induction n as [|n IH]; intros s a; [easy|]. cbn [seq map scan].
  rewrite Nat.sub_diag. cbn [seq map fold_left]. destruct (g s (f a)) as [s' b] eqn:E. cbn [snd]. f_equal. rewrite IH.
  apply map_ext_in. intros i Hi. apply in_seq in Hi. replace (i - a) with (Datatypes.S (i - Datatypes.S a)) by lia.
  cbn [seq map fold_left]. now rewrite E.
Qed.
(** A scan whose state after bar [i] is [st i]. *)
Lemma scan_inv_bars {S A B} (g : S -> A -> S * B) (st : nat -> S) (out : nat -> B) (f : nat -> A) s a n :
  s = st a -> (forall i, a <= i < a + n -> g (st i) (f i) = (st (Datatypes.S i), out i)) ->
  scan g s (map f (seq a n)) = map out (seq a n).
Proof.
  intros -> H. revert a H. induction n as [|n IH]; intros a H; [easy|]. cbn [seq map scan]. rewrite H by lia. f_equal. apply IH. intros. apply H. lia.
Qed.
Lemma last_bars_win {A} w (f : nat -> A) n i : w <= i + 1 -> i < n -> win w (series f n) i = last_bars w f i.
Proof.
  intros Hw Hi. unfold win, series, last_bars. rewrite skipn_bars, firstn_bars. cbn [plus]. do 2 f_equal. lia.
Qed.
Lemma length_last_bars {A} w (f : nat -> A) i : length (last_bars w f i) = w.
Proof. unfold last_bars. now rewrite map_length, seq_length. Qed.
Lemma map_last_bars {A B} (g : A -> B) w f i : map g (last_bars w f i) = last_bars w (fun k => g (f k)) i.
Proof. unfold last_bars. now rewrite map_map. Qed.
Lemma last_bars_ext {A} w (f g : nat -> A) i : (forall k, k <= i -> i < k + w -> f k = g k) -> w <= i + 1 -> last_bars w f i = last_bars w g i.
Proof. intros H Hw. apply map_ext_in. intros k Hk. apply in_seq in Hk. apply H; lia. Qed.
Lemma In_last_bars {A} w (f : nat -> A) i x : w <= i + 1 -> In x (last_bars w f i) <-> exists k, k <= i /\ i < k + w /\ x = f k.
Proof.
  intros Hw. unfold last_bars. rewrite in_map_iff. split.
  - intros (k & <- & Hk). apply in_seq in Hk. exists k. repeat split; lia.
  - intros (k & H1 & H2 & ->). exists k. split; [easy|]. apply in_seq. lia.
Qed.
Lemma combine_last_bars {A B} w (f : nat -> A) (g : nat -> B) i :
  combine (last_bars w f i) (last_bars w g i) = last_bars w (fun k => (f k, g k)) i.
Proof. unfold last_bars. now rewrite combine_bars, Nat.min_id. Qed.

Lemma aligned_bars {B} (na : B) (f : nat -> B) k m n : m = n - k -> aligned (pad k na ++ map f (seq k m)) n k na f.
Proof.
  intros ->. repeat split.
  - rewrite app_length, length_pad, map_length, seq_length. lia.
  - intros i Hi. rewrite nth_error_app1 by now rewrite length_pad. now apply nth_error_pad.
  - intros i Hi. rewrite nth_error_app2 by (rewrite length_pad; lia). rewrite length_pad, nth_error_map', nth_error_seq by lia.
    do 2 f_equal. lia.
Qed.
Lemma aligned_bars_ext {B} (na : B) (f g : nat -> B) k m n : m = n - k -> (forall i, k <= i < n -> f i = g i) ->
  aligned (pad k na ++ map f (seq k m)) n k na g.
Proof.
  intros E H. eapply aligned_ext; [|apply aligned_bars, E]. intros. now apply H.
Qed.
Lemma aligned_bars0 {B} (na : B) (f : nat -> B) n : aligned (map f (seq 0 n)) n 0 na f.
Proof. apply (aligned_bars na f 0). lia. Qed.
Lemma aligned_bars1 {B} (na : B) (f : nat -> B) m n : m = n - 1 -> aligned (na :: map f (seq 1 m)) n 1 na f.
Proof. apply (aligned_bars na f 1). Qed.

(** Zipped series of [n] bars. *)
Lemma zip2_series {A B} (f : nat -> A) (g : nat -> B) n : zip2 (series f n) (series g n) = map (fun k => (f k, g k)) (seq 0 n).
Proof. unfold zip2, series. now rewrite combine_bars, Nat.min_id. Qed.
Lemma zip3_series {A B C} (f : nat -> A) (g : nat -> B) (h : nat -> C) n :
  zip3 (series f n) (series g n) (series h n) = map (fun k => (f k, g k, h k)) (seq 0 n).
Proof. unfold zip3, series. now rewrite !combine_bars, !Nat.min_id. Qed.
Lemma zip4_series {A B C D} (f : nat -> A) (g : nat -> B) (h : nat -> C) (e : nat -> D) n :
  zip4 (series f n) (series g n) (series h n) (series e n) = map (fun k => (f k, g k, h k, e k)) (seq 0 n).
Proof. unfold zip4, zip3, series. now rewrite !combine_bars, !Nat.min_id. Qed.
Lemma combine_series {A B} (f : nat -> A) (g : nat -> B) n : combine (series f n) (series g n) = map (fun k => (f k, g k)) (seq 0 n).
Proof. apply zip2_series. Qed.
Lemma slice_from_series {A} (f : nat -> A) k n : k <= n -> slice_from (series f n) k = Ok (map f (seq k (n - k))).
Proof. intros H. unfold slice_from. rewrite length_series, (proj2 (Nat.leb_le k n)) by easy. unfold series. now rewrite skipn_bars. Qed.
Lemma slice_to_series {A} (f : nat -> A) k n : k <= n -> slice_to (series f n) k = Ok (map f (seq 0 k)).
Proof. intros H. unfold slice_to. rewrite length_series, (proj2 (Nat.leb_le k n)) by easy. unfold series. rewrite firstn_bars. do 3 f_equal. lia. Qed.
Lemma slice_from_bars {A} (f : nat -> A) k a n : k <= n -> slice_from (map f (seq a n)) k = Ok (map f (seq (a + k) (n - k))).
Proof. intros H. unfold slice_from. rewrite map_length, seq_length, (proj2 (Nat.leb_le k n)) by easy. now rewrite skipn_bars. Qed.
Lemma slice_to_bars {A} (f : nat -> A) k a n : k <= n -> slice_to (map f (seq a n)) k = Ok (map f (seq a k)).
Proof. intros H. unfold slice_to. rewrite map_length, seq_length, (proj2 (Nat.leb_le k n)) by easy. rewrite firstn_bars. do 3 f_equal. lia. Qed.
Lemma idx_series {A} (f : nat -> A) k n : k < n -> idx (series f n) k = Ok (f k).
Proof. intros H. unfold idx, series. now rewrite nth_error_map', nth_error_seq. Qed.
Lemma at_series {F} {O : FOps F} (f : nat -> F) k n : k < n -> at_ (series f n) k = f k.
Proof. intros H. unfold at_, series. rewrite (nth_indep _ _ (f 0)) by (rewrite map_length, seq_length; lia). now rewrite map_nth, seq_nth. Qed.
Lemma windows2_series {A} (f : nat -> A) n : windows 2 (series f n) = map (fun k => [f (k - 1); f k]) (seq 1 (n - 1)).
Proof.
  unfold series. rewrite windows_bars by lia. cbn [plus]. replace (2 - 1) with 1 by lia. replace (n + 1 - 2) with (n - 1) by lia.
  apply map_ext_in. intros k Hk. apply in_seq in Hk. unfold last_bars. cbn [seq map].
  replace (k + 1 - 2) with (k - 1) by lia. now replace (S (k - 1)) with k by lia.
Qed.

Local Open Scope R_scope.
(** Running sums. *)
Lemma sum_bars_last f a i : (a <= i)%nat -> sum_bars f a (S i) = sum_bars f a i + f (S i).
Proof.
  intros H. unfold sum_bars. replace (S i + 1 - a)%nat with (S (i + 1 - a)) by lia.
  rewrite seq_S, map_app, Rsum_app. cbn [map]. rewrite Rsum_cons, Rsum_nil. replace (a + (i + 1 - a))%nat with (S i) by lia. ring.
Qed.
Lemma sum_bars_empty f a b : (b < a)%nat -> sum_bars f a b = 0.
Proof. intros H. unfold sum_bars. now replace (b + 1 - a)%nat with 0%nat by lia. Qed.
Lemma sum_bars_single f a : sum_bars f a a = f a.
Proof. unfold sum_bars. replace (a + 1 - a)%nat with 1%nat by lia. cbn. lra. Qed.
Lemma x_scan_sum_bars {A} (g : xr -> A -> xr * xr) (f : nat -> A) (d : nat -> R) s a n :
  (forall r i, (a <= i < a + n)%nat -> g (Fin r) (f i) = (Fin (r + d i), Fin (r + d i))) ->
  scan g (Fin s) (map f (seq a n)) = map (fun i => Fin (s + sum_bars d a i)) (seq a n).
Proof.
  intros H. destruct n as [|n]; [easy|].
  assert (G : forall m b t, (forall i, (b <= i < b + m)%nat -> (a <= i < a + S n)%nat) ->
    scan g (Fin t) (map f (seq b m)) = map (fun i => Fin (t + sum_bars d b i)) (seq b m)).
  { induction m as [|m IH]; intros b t B; [easy|]. cbn [seq map scan]. rewrite H by (apply B; lia).
    rewrite sum_bars_single. f_equal. rewrite IH by (intros; apply B; lia). apply map_ext_in. intros i Hi. apply in_seq in Hi. f_equal.
    unfold sum_bars. replace (i + 1 - b)%nat with (S (i + 1 - S b)) by lia. cbn [seq map]. rewrite Rsum_cons. ring. }
  apply G. easy.
Qed.
Lemma Rsum_last_bars f w i : (0 < w)%nat -> (w <= i + 1)%nat -> Rsum (last_bars w f i) = sum_bars f (i + 1 - w) i.
Proof. intros. unfold last_bars, sum_bars. do 3 f_equal. lia. Qed.
Lemma x_last_bars w (f : nat -> R) i : last_bars w (fun k => Fin (f k)) i = map Fin (last_bars w f i).
Proof. unfold last_bars. now rewrite map_map. Qed.

(** ** Averages of a series that starts at bar [a] *)

(** Wilder's average of a series [f] whose first defined bar is [k]: seeded with
    the mean of [w - 1] values, then smoothed with weight [1/w]. *)
Definition wilder_from (w k : nat) (f : nat -> R) (i : nat) : R :=
  ema (1 / INR w) (mean (map f (seq k (w - 1)))) (map f (seq (k + w - 1) (i + 1 - (k + w - 1)))).

Lemma aligned_eq {B} (o : list B) n k na f : aligned o n k na f -> o = pad k na ++ map f (seq k (n - k)).
Proof.
  intros (L & W & V). apply nth_error_ext. intros i. destruct (Nat.lt_ge_cases i k).
  - rewrite nth_error_app1 by now rewrite length_pad. now rewrite W, nth_error_pad.
  - rewrite nth_error_app2 by now rewrite length_pad. rewrite length_pad, nth_error_map'.
    destruct (Nat.lt_ge_cases i n).
    + rewrite V, nth_error_seq by lia. cbn. do 2 f_equal. lia.
    + rewrite !(proj2 (nth_error_None _ _)); [easy|rewrite seq_length; lia|lia].
Qed.
Lemma sma_bars (f : nat -> R) w a n : (0 < w)%nat ->
  sma (map (fun k => Fin (f k)) (seq a n)) w =
  Ok (pad (w - 1) NaN ++ map (fun i => Fin (mean (last_bars w f i))) (seq (a + w - 1) (n + 1 - w))).
Proof.
  intros Hw. unfold sma. unfold usub. rewrite (proj2 (Nat.leb_le 1 w)) by lia. cbn [bind]. rewrite rwindows_bars by easy. cbn [bind].
  do 2 f_equal. rewrite map_map. apply map_ext. intros i. unfold sma_win. rewrite x_last_bars, x_fsum, x_nat, x_div by (apply INR_neq0; lia).
  unfold mean. now rewrite length_last_bars.
Qed.
Lemma ewma_bars (f : nat -> R) w a n : (0 < w <= n)%nat ->
  ewma (map (fun k => Fin (f k)) (seq a n)) w =
  Ok (pad (w - 1) NaN ++ map (fun i => Fin (ewma_from w a f i)) (seq (a + w - 1) (n + 1 - w))).
Proof.
  intros Hw. rewrite <- map_map with (f := f) (g := Fin).
  destruct (ewma_real (map f (seq a n)) w) as (o & E & A); rewrite ?map_length, ?seq_length in *; [lia|].
  rewrite E. apply aligned_eq in A. rewrite A. do 2 f_equal. rewrite (shift_bars a).
  replace (w - 1 + a)%nat with (a + w - 1)%nat by lia. replace (n - (w - 1))%nat with (n + 1 - w)%nat by lia.
  apply map_ext_in. intros i Hi. apply in_seq in Hi. unfold ewma_from. do 2 f_equal.
  - f_equal. rewrite firstn_bars. do 2 f_equal. lia.
  - rewrite range_map_seq by lia. do 2 f_equal. lia.
Qed.
Lemma wilder_bars (f : nat -> R) w a n : (0 < w <= n)%nat ->
  wilder (map (fun k => Fin (f k)) (seq a n)) w =
  Ok (pad (w - 1) NaN ++ map (fun i => Fin (wilder_from w a f i)) (seq (a + w - 1) (n + 1 - w))).
Proof.
  intros Hw. destruct (Nat.eq_dec w 1) as [->|N1].
  { rewrite wilder_values_1. cbn [pad repeat app minus]. replace (a + 1 - 1)%nat with a by lia. replace (n + 1 - 1)%nat with n by lia. f_equal.
    apply map_ext_in. intros i Hi. apply in_seq in Hi. f_equal. unfold wilder_from.
    replace (i + 1 - (a + 1 - 1))%nat with (S (i - a)) by lia. rewrite seq_S, map_app. unfold ema. rewrite fold_left_app. cbn [map fold_left].
    replace (a + 1 - 1 + (i - a))%nat with i by lia. cbn [INR]. field. }
  rewrite <- map_map with (f := f) (g := Fin).
  destruct (wilder_real (map f (seq a n)) w) as (o & E & A); rewrite ?map_length, ?seq_length in *; [lia|].
  rewrite E. apply aligned_eq in A. rewrite A. do 2 f_equal. rewrite (shift_bars a).
  replace (w - 1 + a)%nat with (a + w - 1)%nat by lia. replace (n - (w - 1))%nat with (n + 1 - w)%nat by lia.
  apply map_ext_in. intros i Hi. apply in_seq in Hi. unfold wilder_from. do 2 f_equal.
  - f_equal. rewrite firstn_bars. do 2 f_equal. lia.
  - rewrite range_map_seq by lia. do 2 f_equal; lia.
Qed.
(** Wilder's average of non-negative values is non-negative, and lies between bounds of the values. *)
Lemma ema_bounds a lo hi xs s : 0 <= a <= 1 -> lo <= s <= hi -> (forall x, In x xs -> lo <= x <= hi) -> lo <= ema a s xs <= hi.
Proof.
  intros Ha. unfold ema. revert s. induction xs as [|x xs IH]; intros s Hs H; [easy|]. cbn [fold_left].
  apply IH; [|intros; apply H; now right]. specialize (H x (or_introl eq_refl)). split; nra.
Qed.
Lemma mean_bounds lo hi l : l <> [] -> (forall x, In x l -> lo <= x <= hi) -> lo <= mean l <= hi.
Proof.
  intros Hl H. assert (Hn : (0 < length l)%nat) by (destruct l; cbn; [easy|lia]). pose proof (INR_pos _ Hn) as P.
  assert (B : INR (length l) * lo <= Rsum l <= INR (length l) * hi).
  { rewrite <- !Rsum_const. rewrite <- (map_id l) at 2 3. split; apply Rsum_le; intros x Hx; now apply H. }
  unfold mean. split; apply Rmult_le_reg_r with (1 := P); unfold Rdiv; rewrite Rmult_assoc, Rinv_l by lra; lra.
Qed.
Lemma wilder_from_bounds w k f i lo hi : (0 < w)%nat -> (k + w - 1 <= i)%nat ->
  (forall j, (k <= j <= i)%nat -> lo <= f j <= hi) -> lo <= wilder_from w k f i <= hi.
Proof.
  intros Hw Hi H. unfold wilder_from. destruct (Nat.eq_dec w 1) as [->|N1].
  { replace (i + 1 - (k + 1 - 1))%nat with (S (i - k)) by lia. rewrite seq_S, map_app. unfold ema. rewrite fold_left_app. cbn [map fold_left].
    replace (k + 1 - 1 + (i - k))%nat with i by lia. cbn [INR]. specialize (H i ltac:(lia)). set (q := fold_left _ _ _). replace (1 / 1) with 1 by lra. nra. }
  pose proof (INR_pos w Hw). apply ema_bounds.
  - assert (1 <= INR w) by (change 1 with (INR 1); apply le_INR; lia). split; [apply Rdiv_nonneg; lra|].
    apply Rmult_le_reg_r with (INR w); [lra|]. unfold Rdiv. rewrite Rmult_assoc, Rinv_l by lra. lra.
  - apply mean_bounds.
    + destruct (w - 1)%nat eqn:E; [lia|easy].
    + intros x Hx. apply in_map_iff in Hx as (j & <- & Hj). apply in_seq in Hj. apply H. lia.
  - intros x Hx. apply in_map_iff in Hx as (j & <- & Hj). apply in_seq in Hj. apply H. lia.
Qed.
Lemma ewma_from_bounds w k f i lo hi : (0 < w)%nat -> (k + w - 1 <= i)%nat ->
  (forall j, (k <= j <= i)%nat -> lo <= f j <= hi) -> lo <= ewma_from w k f i <= hi.
Proof.
  intros Hw Hi H. unfold ewma_from. pose proof (INR_pos w Hw). apply ema_bounds.
  - assert (1 <= INR w) by (change 1 with (INR 1); apply le_INR; lia). split; [apply Rdiv_nonneg; lra|].
    apply Rmult_le_reg_r with (INR w + 1); [lra|]. unfold Rdiv. rewrite Rmult_assoc, Rinv_l by lra. lra.
  - apply mean_bounds; [destruct w; [lia|easy]|].
    intros x Hx. apply in_map_iff in Hx as (j & <- & Hj). apply in_seq in Hj. apply H. lia.
  - intros x Hx. apply in_map_iff in Hx as (j & <- & Hj). apply in_seq in Hj. apply H. lia.
Qed.
Lemma last_bars_bounds w f i lo hi : (0 < w <= i + 1)%nat -> (forall j, (j <= i)%nat -> (i < j + w)%nat -> lo <= f j <= hi) -> lo <= mean (last_bars w f i) <= hi.
Proof.
  intros Hw H. apply mean_bounds.
  - intros E. apply (f_equal (@length R)) in E. rewrite length_last_bars in E. cbn in E. lia.
  - intros x Hx. apply In_last_bars in Hx as (k & H1 & H2 & ->); [|lia]. now apply H.
Qed.
Lemma rscan_inv_bars {S A B} (g : S -> A -> result (S * B)) (st : nat -> S) (out : nat -> B) (f : nat -> A) s a n :
  s = st a -> (forall i, (a <= i < a + n)%nat -> g (st i) (f i) = Ok (st (Datatypes.S i), out i)) ->
  rscan g s (map f (seq a n)) = Ok (map out (seq a n)).
Proof.
  intros -> H. revert a H. induction n as [|n IH]; intros a H; [easy|]. cbn [seq map rscan]. rewrite H by lia. cbn [bind].
  rewrite IH by (intros; apply H; lia). reflexivity.
Qed.
Lemma enumerate_bars {A} (f : nat -> A) n : enumerate (map f (seq 0 n)) = map (fun k => (k, f k)) (seq 0 n).
Proof. unfold enumerate. rewrite map_length, seq_length. rewrite <- (map_id (seq 0 n)) at 1. now rewrite combine_bars, Nat.min_id. Qed.

(** ** Lists whose first item belongs to a later bar *)
Lemma aligned_shift {B} (o : list B) n k d na f : (d <= n)%nat ->
  aligned o (n - d) k na (fun i => f (i + d)%nat) -> aligned (pad d na ++ o) n (k + d) na f.
Proof.
  intros Hd (L & W & V). split; [|split].
  - rewrite app_length, length_pad. lia.
  - intros i Hi. destruct (Nat.lt_ge_cases i d).
    + rewrite nth_error_app1 by now rewrite length_pad. now rewrite nth_error_pad.
    + rewrite nth_error_app2 by now rewrite length_pad. rewrite length_pad. apply W. lia.
  - intros i Hi. rewrite nth_error_app2 by (rewrite length_pad; lia). rewrite length_pad, V by lia. do 2 f_equal. lia.
Qed.
Lemma aligned_shift1 {B} (o : list B) n k na f : (1 <= n)%nat ->
  aligned o (n - 1) k na (fun i => f (S i)) -> aligned (na :: o) n (S k) na f.
Proof.
  intros Hd A. rewrite <- (Nat.add_1_r k). apply (aligned_shift o n k 1 na f Hd). revert A. apply aligned_ext. intros i _. f_equal. lia.
Qed.
Lemma aligned_from {B} (na : B) (f : nat -> B) k a m n : n = (k + m)%nat ->
  aligned (pad k na ++ map f (seq (a + k) m)) n k na (fun i => f (a + i)%nat).
Proof.
  intros ->. rewrite (Nat.add_comm a k). replace (map f (seq (k + a) m)) with (map (fun i => f (a + i)%nat) (seq k m)).
  - apply aligned_bars. lia.
  - rewrite (shift_bars a). apply map_ext_in. intros j Hj. apply in_seq in Hj. f_equal. lia.
Qed.
Lemma sma_from (f : nat -> R) w a n : (0 < w)%nat -> exists o, sma (map (fun k => Fin (f k)) (seq a n)) w = Ok o /\
  aligned o n (w - 1) NaN (fun i => Fin (mean (last_bars w f (a + i)))).
Proof.
  intros Hw. rewrite sma_bars by easy. eexists. split; [reflexivity|]. destruct (Nat.lt_ge_cases n (w - 1)).
  - replace (n + 1 - w)%nat with 0%nat by lia. cbn [seq map]. rewrite app_nil_r. split; [rewrite length_pad; lia|]. split; [|lia].
    intros i Hi. now apply nth_error_pad.
  - replace (a + w - 1)%nat with (a + (w - 1))%nat by lia. apply (aligned_from NaN (fun i => Fin (mean (last_bars w f i)))). lia.
Qed.
Lemma ewma_from_at (f : nat -> R) w a n : (0 < w <= n)%nat -> exists o, ewma (map (fun k => Fin (f k)) (seq a n)) w = Ok o /\
  aligned o n (w - 1) NaN (fun i => Fin (ewma_from w a f (a + i))).
Proof.
  intros Hw. rewrite ewma_bars by easy. eexists. split; [reflexivity|].
  replace (a + w - 1)%nat with (a + (w - 1))%nat by lia. apply (aligned_from NaN (fun i => Fin (ewma_from w a f i))). lia.
Qed.
Lemma wilder_from_at (f : nat -> R) w a n : (0 < w <= n)%nat -> exists o, wilder (map (fun k => Fin (f k)) (seq a n)) w = Ok o /\
  aligned o n (w - 1) NaN (fun i => Fin (wilder_from w a f (a + i))).
Proof.
  intros Hw. rewrite wilder_bars by easy. eexists. split; [reflexivity|].
  replace (a + w - 1)%nat with (a + (w - 1))%nat by lia. apply (aligned_from NaN (fun i => Fin (wilder_from w a f i))). lia.
Qed.
