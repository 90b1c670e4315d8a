(** * VolatReal: what the volatility indicators compute

    Data is given bar by bar: [h k], [l k], [c k], [o k] for bar [k], [n] bars. *)

From Verif Require Export VolumeReal OrderStat.
Local Unset Implicit Arguments.

(** ** Tools *)

Lemma aligned_pair {A B C} (a : list A) (b : list B) n ka kb na nb nc f g (h : A * B -> C) :
  aligned a n ka na f -> aligned b n kb nb g -> ka <= n -> kb <= n ->
  (forall x, h (na, x) = nc) -> (forall x, h (x, nb) = nc) ->
  aligned (map h (combine a b)) n (Nat.max ka kb) nc (fun i => h (f i, g i)).
Proof.
  intros (La & Wa & Va) (Lb & Wb & Vb) Ha Hb H1 H2. split; [|split].
  - rewrite map_length, combine_length, La, Lb. lia.
  - intros i Hi.
    destruct (@nth_error_is_Some _ a i ltac:(lia)) as [x Hx].
    destruct (@nth_error_is_Some _ b i ltac:(lia)) as [y Hy].
    rewrite (map2_combine h a b i x y Hx Hy). f_equal.
    destruct (le_lt_dec ka i) as [G|G].
    + rewrite Wb in Hy by lia. injection Hy as <-. apply H2.
    + rewrite Wa in Hx by lia. injection Hx as <-. apply H1.
  - intros i Hi. apply map2_combine; [apply Va; lia | apply Vb; lia].
Qed.
Lemma aligned_pair_same {A B C} (a : list A) (b : list B) n k na nb nc f g (h : A * B -> C) :
  aligned a n k na f -> aligned b n k nb g -> k <= n -> h (na, nb) = nc ->
  aligned (map h (combine a b)) n k nc (fun i => h (f i, g i)).
Proof.
  intros (La & Wa & Va) (Lb & Wb & Vb) Hk E. split; [rewrite map_length, combine_length; lia|]. split; intros i Hi.
  - rewrite (map2_combine h a b i na nb); [now rewrite E|now apply Wa|now apply Wb].
  - apply map2_combine; [now apply Va|now apply Vb].
Qed.
Lemma aligned_map {A B} (a : list A) n k na nb f (h : A -> B) :
  aligned a n k na f -> h na = nb -> aligned (map h a) n k nb (fun i => h (f i)).
Proof.
  intros (La & Wa & Va) E. split; [now rewrite map_length|]. split; intros i Hi; rewrite nth_error_map'.
  - rewrite Wa by easy. cbn. now rewrite E.
  - now rewrite Va.
Qed.

Section Gen.
  Context {F : Type} {FO : FOps F}.
  Local Open Scope F_scope.

  (** [tr]: the greatest of the three distances. *)
  Definition tr_at (h l c : nat -> F) (k : nat) : F :=
    fmax (fmax (h k - l k) (fabs (h k - c (k - 1)%nat))) (fabs (l k - c (k - 1)%nat)).
  Lemma true_range_bars h l c n : (0 < n)%nat ->
    true_range (series h n) (series l n) (series c n) = Ok (map (tr_at h l c) (seq 1 (n - 1))).
  Proof.
    intros Hn. unfold true_range. rewrite length_series. rewrite !slice_from_series by lia. cbn [bind]. unfold usub.
    rewrite (proj2 (Nat.leb_le 1 n)) by lia. cbn [bind]. rewrite slice_to_series by lia. cbn [bind]. unfold zip3.
    rewrite (shift_bars 1 c 0), !combine_bars, !Nat.min_id, map_map. reflexivity.
  Qed.
  Theorem tr_values h l c n : (0 < n)%nat -> exists o, tr (series h n) (series l n) (series c n) = Ok o /\
    aligned o n 1 fnan (tr_at h l c).
  Proof.
    intros Hn. unfold tr. rewrite true_range_bars by easy. cbn [bind]. eexists. split; [reflexivity|]. now apply aligned_bars1.
  Qed.
  (** [donchian] *)
  Theorem donchian_values h l n w : (0 < w)%nat -> exists o, donchian (series h n) (series l n) w = Ok o /\
    aligned o n (w - 1) (fnan, fnan, fnan) (fun i =>
      let hh := max_of (last_bars w h i) in
      let ll := min_of (last_bars w l i) in (hh, (hh + ll) / #2, ll)).
  Proof.
    intros Hw. unfold donchian. zap. unfold series. rewrite !windows_bars by easy. cbn [bind plus]. eexists. split; [reflexivity|].
    rewrite combine_bars, map_map, Nat.min_id. cbn [plus]. replace (0 + w - 1)%nat with (w - 1)%nat by lia. now apply aligned_bars; lia.
  Qed.
  (** [bbands]: whatever the average, the bands are it plus and minus the deviation. *)
  Theorem bbands_values data w dev mode m s : ma data w (unwrap_or mode EWMA) = Ok m -> std_dev data w = Ok s ->
    exists o, bbands data w dev mode = Ok o /\
    forall i, nth_error o i = match nth_error m i, nth_error s i with
      | Some a, Some d => Some (a + d * unwrap_or dev #2, a, a - d * unwrap_or dev #2)
      | _, _ => None end.
  Proof.
    intros Em Es. unfold bbands, vstd_dev. rewrite Em, Es. cbn [bind]. eexists. split; [reflexivity|]. intros i.
    rewrite nth_error_map', nth_error_combine, nth_error_map'. destruct (nth_error m i), (nth_error s i); reflexivity.
  Qed.
  (** [heikin_ashi] *)
  Fixpoint ha (op h l c : nat -> F) (k : nat) : F * F :=   (* (open, close) of candle [k] *)
    match k with
    | O => ((op 0%nat + c 0%nat) / #2, (op 0%nat + h 0%nat + l 0%nat + c 0%nat) / #4)
    | S j => ((fst (ha op h l c j) + snd (ha op h l c j)) / #2, (op k + h k + l k + c k) / #4)
    end.
  Theorem heikin_ashi_values op h l c n : (0 < n)%nat -> exists o,
    heikin_ashi (series op n) (series h n) (series l n) (series c n) = Ok o /\
    aligned o n 0 (fnan, fnan, fnan, fnan) (fun k =>
      let '(a, b) := ha op h l c k in
      (a, match k with O => h 0%nat | _ => fmax (fmax (h k) a) b end,
          match k with O => l 0%nat | _ => fmin (fmin (l k) a) b end, b)).
  Proof.
    intros Hn. unfold heikin_ashi. rewrite !idx_series by easy. cbn [bind]. rewrite !slice_from_series by easy. cbn [bind]. eexists. split; [reflexivity|].
    unfold zip4, zip3. rewrite !combine_bars, !Nat.min_id.
    rewrite (scan_inv_bars ha_step (fun i => ha op h l c (i - 1)) (fun k => let '(a, b) := ha op h l c k in (a, fmax (fmax (h k) a) b, fmin (fmin (l k) a) b, b))).
    - split; [|split].
      + cbn. rewrite map_length, seq_length. lia.
      + lia.
      + intros i Hi. destruct i as [|i]; [reflexivity|]. cbn [nth_error]. rewrite nth_error_map', nth_error_seq by lia. cbn [option_map]. reflexivity.
    - reflexivity.
    - intros i Hi. destruct i as [|j]; [lia|]. replace (S j - 1)%nat with j by lia. replace (S (S j) - 1)%nat with (S j) by lia. cbn [ha].
      unfold ha_step. destruct (ha op h l c j) as [a b]. reflexivity.
  Qed.
  Theorem wcp_values h l c n : wcp (series h n) (series l n) (series c n) = series (fun k => (h k + l k + #2 * c k) / #4) n.
  Proof. unfold wcp. rewrite zip3_series, map_map. reflexivity. Qed.
  Lemma hlc3_series h l c n : hlc3 (series h n) (series l n) (series c n) = series (fun k => (h k + l k + c k) / #3) n.
  Proof. unfold hlc3. rewrite zip3_series, map_map. reflexivity. Qed.
  Lemma hl_range_series h l n : hl_range (series h n) (series l n) = series (fun k => h k - l k) n.
  Proof. unfold hl_range. rewrite combine_series, map_map. reflexivity. Qed.

  (** [fbands]: each band keeps the latest centre of five that qualifies. *)
  Fixpoint band (best : F -> F -> bool) (f : nat -> F) (i : nat) : F :=
    match i with
    | O => #0
    | S j => if (4 <=? i)%nat && (arg_first best (last_bars 5 f i) =? 2)%nat then f (i - 2)%nat else band best f j
    end.
  Lemma band_early best f i : (i < 4)%nat -> band best f i = #0.
  Proof. induction i as [|i IH]; intros H; [easy|]. cbn [band]. rewrite (proj2 (Nat.leb_gt 4 (S i))) by easy. cbn [andb]. apply IH. lia. Qed.
  Theorem fbands_values h l n : aligned (fbands (series h n) (series l n)) n 4 (fnan, fnan)
    (fun i => (band fgtb h i, band fltb l i)).
  Proof.
    unfold fbands. unfold series at 1 2. rewrite !windows_bars by lia. rewrite combine_bars, Nat.min_id. cbn [plus minus].
    rewrite (scan_inv_bars fbands_step (fun i => (band fgtb h (i - 1), band fltb l (i - 1))) (fun i => (band fgtb h i, band fltb l i))).
    - apply aligned_bars. lia.
    - cbn [minus]. now rewrite !band_early by lia.
    - intros i Hi. destruct i as [|j]; [lia|]. replace (S j - 1)%nat with j by lia. replace (S (S j) - 1)%nat with (S j) by lia.
      cbn [band]. rewrite (proj2 (Nat.leb_le 4 (S j))) by lia. cbn [andb]. unfold fbands_step. cbn [fst snd].
      assert (A : forall f : nat -> F, at_ (last_bars 5 f (S j)) 2 = f (S j - 2)%nat).
      { intros f. unfold last_bars. destruct j as [|[|[|j]]]; try lia. unfold at_. cbn. do 2 f_equal; lia. }
      rewrite !A. reflexivity.
  Qed.
End Gen.

Local Open Scope R_scope.
(** ** Exact arithmetic *)

Lemma x_max_of l : l <> [] -> max_of (map Fin l) = Fin (Rmax_list l).
Proof.
  intros H. unfold max_of. destruct (x_fold_max_nan l H) as (m & E & M). rewrite x_nan, E. f_equal.
  apply (is_max_unique l); [easy|now apply Rmax_list_spec].
Qed.
Lemma x_min_of l : l <> [] -> min_of (map Fin l) = Fin (Rmin_list l).
Proof.
  intros H. unfold min_of. destruct (x_fold_min_nan l H) as (m & E & M). rewrite x_nan, E. f_equal.
  apply (is_min_unique l); [easy|now apply Rmin_list_spec].
Qed.
Lemma last_bars_nonempty {A} w (f : nat -> A) i : (0 < w)%nat -> last_bars w f i <> [].
Proof. intros H E. apply (f_equal (@length A)) in E. rewrite length_last_bars in E. cbn in E. lia. Qed.
(** Highest high and lowest low of the last [w] bars. *)
Definition highest (w : nat) (h : nat -> R) (i : nat) : R := Rmax_list (last_bars w h i).
Definition lowest (w : nat) (l : nat -> R) (i : nat) : R := Rmin_list (last_bars w l i).
Lemma x_highest w h i : (0 < w)%nat -> max_of (last_bars w (fun k => Fin (h k)) i) = Fin (highest w h i).
Proof. intros Hw. rewrite x_last_bars, x_max_of; [easy|now apply last_bars_nonempty]. Qed.
Lemma x_lowest w l i : (0 < w)%nat -> min_of (last_bars w (fun k => Fin (l k)) i) = Fin (lowest w l i).
Proof. intros Hw. rewrite x_last_bars, x_min_of; [easy|now apply last_bars_nonempty]. Qed.
(** They are attained, and nothing in the window is beyond them. *)
Theorem highest_spec w h i : (0 < w <= i + 1)%nat ->
  (exists k, (k <= i)%nat /\ (i < k + w)%nat /\ highest w h i = h k) /\
  (forall k, (k <= i)%nat -> (i < k + w)%nat -> h k <= highest w h i).
Proof.
  intros Hw. destruct (Rmax_list_spec (last_bars w h i)) as [I M]; [apply last_bars_nonempty; lia|]. split.
  - now apply In_last_bars in I; [|lia].
  - intros k H1 H2. apply M. apply In_last_bars; [lia|]. now exists k.
Qed.
Theorem lowest_spec w l i : (0 < w <= i + 1)%nat ->
  (exists k, (k <= i)%nat /\ (i < k + w)%nat /\ lowest w l i = l k) /\
  (forall k, (k <= i)%nat -> (i < k + w)%nat -> lowest w l i <= l k).
Proof.
  intros Hw. destruct (Rmin_list_spec (last_bars w l i)) as [I M]; [apply last_bars_nonempty; lia|]. split.
  - now apply In_last_bars in I; [|lia].
  - intros k H1 H2. apply M. apply In_last_bars; [lia|]. now exists k.
Qed.

(** [tr], [atr] *)
Definition true_range_of (h l c : nat -> R) (k : nat) : R :=
  Rmax (h k) (c (k - 1)%nat) - Rmin (l k) (c (k - 1)%nat).
Lemma x_tr_at h l c k : l k <= h k ->
  tr_at (fun k => Fin (h k)) (fun k => Fin (l k)) (fun k => Fin (c k)) k = Fin (true_range_of h l c k).
Proof.
  intros H. unfold tr_at. rewrite !x_sub, !x_abs, !x_max. f_equal. unfold true_range_of.
  unfold Rmax, Rmin, Rabs. repeat (destruct (Rle_dec _ _) || destruct (Rcase_abs _)); lra.
Qed.
Theorem tr_real h l c n : (0 < n)%nat -> (forall k, (k < n)%nat -> l k <= h k) ->
  exists o, tr (xseries h n) (xseries l n) (xseries c n) = Ok o /\ aligned o n 1 NaN (fun k => Fin (true_range_of h l c k)).
Proof.
  intros Hn H. destruct (tr_values (fun k => Fin (h k)) (fun k => Fin (l k)) (fun k => Fin (c k)) n Hn) as (o & E & A).
  exists o. split; [exact E|]. revert A. apply aligned_ext. intros k Hk. apply x_tr_at. apply H. lia.
Qed.
Theorem true_range_ge h l c k : l k <= h k -> 0 <= h k - l k <= true_range_of h l c k.
Proof. intros H. unfold true_range_of. pose proof (Rmax_l (h k) (c (k - 1)%nat)). pose proof (Rmin_l (l k) (c (k - 1)%nat)). lra. Qed.
Lemma true_range_bars_x h l c n : (0 < n)%nat -> (forall k, (k < n)%nat -> l k <= h k) ->
  true_range (xseries h n) (xseries l n) (xseries c n) = Ok (map (fun k => Fin (true_range_of h l c k)) (seq 1 (n - 1))).
Proof.
  intros Hn H. unfold xseries. rewrite true_range_bars by easy. f_equal. apply map_ext_in. intros k Hk. apply in_seq in Hk. apply x_tr_at. apply H. lia.
Qed.
Theorem atr_real h l c n w : (0 < w < n)%nat -> (forall k, (k < n)%nat -> l k <= h k) ->
  exists o, atr (xseries h n) (xseries l n) (xseries c n) w = Ok o /\
  aligned o n w NaN (fun i => Fin (wilder_from w 1 (true_range_of h l c) i)).
Proof.
  intros Hw H. unfold atr. rewrite true_range_bars_x by (easy || lia). cbn [bind].
  destruct (wilder_from_at (true_range_of h l c) w 1 (n - 1)) as (o & E & A); [lia|]. rewrite E. cbn [bind]. eexists. split; [reflexivity|].
  replace w with (S (w - 1)) at 1 by lia. apply aligned_shift1; [lia|exact A].
Qed.
Lemma Rmax_ge a b : 0 <= a -> 0 <= Rmax a b.
Proof. intros. pose proof (Rmax_l a b). lra. Qed.
Theorem atr_nonneg h l c w i : (0 < w <= i)%nat -> (forall k, (k <= i)%nat -> l k <= h k) -> 0 <= wilder_from w 1 (true_range_of h l c) i.
Proof.
  intros Hw H. set (hi := Rmax_list (map (true_range_of h l c) (seq 0 (S i)))).
  apply (wilder_from_bounds w 1 _ i 0 hi); [lia|lia|]. intros j Hj. split.
  - pose proof (true_range_ge h l c j (H j ltac:(lia))). lra.
  - destruct (Rmax_list_spec (map (true_range_of h l c) (seq 0 (S i)))) as [_ M]; [easy|]. apply M. apply in_map. apply in_seq. lia.
Qed.

(** [keltner]: the middle starts one bar before the bands. *)
Theorem keltner_real h l c n w : (0 < w < n)%nat -> (forall k, (k < n)%nat -> l k <= h k) ->
  exists o, keltner (xseries h n) (xseries l n) (xseries c n) w = Ok o /\
  let mid i := ewma_from w 0 c i in
  let a i := wilder_from w 1 (true_range_of h l c) i in
  aligned (map (fun '(m, _, _) => m) o) n (w - 1) NaN (fun i => Fin (mid i)) /\
  aligned (map (fun '(_, u, _) => u) o) n w NaN (fun i => Fin (mid i + 2 * a i)) /\
  aligned (map (fun '(_, _, b) => b) o) n w NaN (fun i => Fin (mid i - 2 * a i)).
Proof.
  intros Hw H. unfold keltner. destruct (ewma_from_at c w 0 n) as (e & E & A); [lia|]. unfold xseries at 1. unfold series at 1. rewrite E. cbn [bind].
  destruct (atr_real h l c n w Hw H) as (t & E2 & B). rewrite E2. cbn [bind]. eexists. split; [reflexivity|]. cbv zeta. rewrite !map_map. cbn [plus] in A.
  split; [|split].
  - destruct A as (La & Wa & Va). destruct B as (Lb & _ & _). split; [|split].
    + rewrite map_length, combine_length. lia.
    + intros i Hi. destruct (@nth_error_is_Some _ t i ltac:(lia)) as [y Hy]. rewrite nth_error_map', nth_error_combine, Wa, Hy by easy. reflexivity.
    + intros i Hi. destruct (@nth_error_is_Some _ t i ltac:(lia)) as [y Hy]. rewrite nth_error_map', nth_error_combine, Va, Hy by easy. reflexivity.
  - eapply aligned_ext; [|replace w with (Nat.max (w - 1) w) at 1 by lia; apply (aligned_pair _ _ _ _ _ _ _ _ _ _ _ A B); try lia].
    + intros i Hi. cbn [fst snd]. now rewrite x_lit, x_mul, x_add.
    + intros x. now rewrite x_add_nan_l.
    + intros x. now rewrite x_mul_nan_r, x_add_nan_r.
  - eapply aligned_ext; [|replace w with (Nat.max (w - 1) w) at 1 by lia; apply (aligned_pair _ _ _ _ _ _ _ _ _ _ _ A B); try lia].
    + intros i Hi. cbn [fst snd]. now rewrite x_lit, x_mul, x_sub.
    + intros x. now rewrite x_sub_nan_l.
    + intros x. now rewrite x_mul_nan_r, x_sub_nan_r.
Qed.
(** [starc]: (upper, lower) *)
Theorem starc_real h l c n w mw mult : (0 < w < n)%nat -> (0 < mw <= n)%nat -> (forall k, (k < n)%nat -> l k <= h k) ->
  exists o, starc (xseries h n) (xseries l n) (xseries c n) w mw (option_map Fin mult) = Ok o /\
  aligned o n (Nat.max w (mw - 1)) (NaN, NaN) (fun i =>
    let d := unwrap_or mult (12 / 10) * wilder_from w 1 (true_range_of h l c) i in
    let m := mean (last_bars mw c i) in (Fin (m + d), Fin (m - d))).
Proof.
  intros Hw Hm H. unfold starc. destruct (atr_real h l c n w Hw H) as (t & E & A). rewrite E. cbn [bind].
  destruct (sma_from c mw 0 n) as (e & E2 & B); [lia|]. unfold xseries, series. rewrite E2. cbn [bind]. eexists. split; [reflexivity|].
  assert (M : unwrap_or (option_map Fin mult) (flit 12 10) = Fin (unwrap_or mult (12 / 10))) by (destruct mult; [easy|apply x_frac]).
  rewrite M. eapply aligned_ext; [|apply (aligned_pair _ _ _ _ _ _ _ (NaN, NaN) _ _ _ A B); try lia].
  - intros i Hi. cbv zeta. cbn [plus]. now rewrite x_mul, x_add, x_sub.
  - intros x. now rewrite x_mul_nan_r, x_add_nan_r, x_sub_nan_r.
  - intros x. now rewrite x_add_nan_l, x_sub_nan_l.
Qed.

(** [typical], [wcp] *)
Theorem typical_real h l c n w : (0 < w)%nat ->
  exists o, typical (xseries h n) (xseries l n) (xseries c n) w = Ok o /\
  aligned o n (w - 1) NaN (fun i => Fin (mean (last_bars w (typical_price h l c) i))).
Proof.
  intros Hw. unfold typical, xseries. rewrite hlc3_series.
  replace (series _ n) with (map (fun k => Fin (typical_price h l c k)) (seq 0 n)).
  - apply (sma_from (typical_price h l c) w 0 n Hw).
  - unfold series. apply map_ext. intros k. rewrite !x_add, x_lit, x_div by lra. reflexivity.
Qed.
Theorem typical_price_range h l c k : l k <= c k <= h k -> l k <= typical_price h l c k <= h k.
Proof. intros. unfold typical_price. lra. Qed.
Theorem wcp_real h l c n : wcp (xseries h n) (xseries l n) (xseries c n) = xseries (fun k => (h k + l k + 2 * c k) / 4) n.
Proof.
  unfold xseries. rewrite wcp_values. unfold series. apply map_ext. intros k. rewrite !x_lit, x_mul, !x_add, x_div by lra. reflexivity.
Qed.
Theorem wcp_range h l c : l <= c <= h -> l <= (h + l + 2 * c) / 4 <= h.
Proof. intros. lra. Qed.

(** [bbands] with the default average. *)
Theorem bbands_real d n w dev : (0 < w <= n)%nat ->
  exists o, bbands (xseries d n) w (option_map Fin dev) None = Ok o /\
  aligned o n (w - 1) (NaN, NaN, NaN) (fun i =>
    let m := ewma_from w 0 d i in
    let s := unwrap_or dev 2 * sqrt (var (last_bars w d i)) in (Fin (m + s), Fin m, Fin (m - s))).
Proof.
  intros Hw. unfold bbands, vstd_dev. cbn [unwrap_or ma].
  destruct (ewma_from_at d w 0 n) as (e & E & A); [lia|]. unfold xseries at 1, series at 1. rewrite E. cbn [bind].
  destruct (std_dev_real (map d (seq 0 n)) w) as (s & E2 & B); [lia|]. rewrite map_length, seq_length in B. rewrite map_map in E2.
  unfold xseries, series. rewrite E2. cbn [bind]. eexists. split; [reflexivity|].
  assert (M : unwrap_or (option_map Fin dev) (flit 2 1) = Fin (unwrap_or dev 2)) by (destruct dev; [easy|apply x_lit]).
  rewrite M. apply (aligned_map _ _ _ _ NaN _ (fun x => fmul x (Fin (unwrap_or dev 2)))) in B; [|apply x_mul_nan_l].
  eapply aligned_ext; [|apply (aligned_pair_same _ _ _ _ _ _ (NaN, NaN, NaN) _ _ _ A B); [lia|]].
  - intros i Hi. cbv zeta. cbn [plus]. change (map d (seq 0 n)) with (series d n). rewrite last_bars_win by lia.
    rewrite x_mul, x_add, x_sub. rewrite (Rmult_comm (sqrt _)). reflexivity.
  - now rewrite x_add_nan_l, x_sub_nan_l.
Qed.
Theorem bands_ordered m d : 0 <= d -> m - d <= m <= m + d.
Proof. lra. Qed.
(** [donchian]: (upper, middle, lower) *)
Theorem donchian_real h l n w : (0 < w)%nat -> exists o, donchian (xseries h n) (xseries l n) w = Ok o /\
  aligned o n (w - 1) (NaN, NaN, NaN) (fun i =>
    (Fin (highest w h i), Fin ((highest w h i + lowest w l i) / 2), Fin (lowest w l i))).
Proof.
  intros Hw. destruct (donchian_values (fun k => Fin (h k)) (fun k => Fin (l k)) n w Hw) as (o & E & A). exists o. split; [exact E|].
  revert A. apply aligned_ext. intros i Hi. cbv zeta. rewrite x_highest, x_lowest, x_lit, x_add, x_div by (easy || lra). reflexivity.
Qed.
Theorem donchian_ordered h l w i : (0 < w <= i + 1)%nat -> (forall k, (k <= i)%nat -> l k <= h k) ->
  lowest w l i <= (highest w h i + lowest w l i) / 2 <= highest w h i.
Proof.
  intros Hw H. destruct (highest_spec w h i Hw) as [_ A]. destruct (lowest_spec w l i Hw) as [_ B].
  specialize (A i ltac:(lia) ltac:(lia)). specialize (B i ltac:(lia) ltac:(lia)). specialize (H i ltac:(lia)). lra.
Qed.

(** [heikin_ashi]: consistent candles from consistent bars. *)
Theorem heikin_ashi_real op h l c n : (0 < n)%nat ->
  exists o (a b t s : nat -> R), heikin_ashi (xseries op n) (xseries h n) (xseries l n) (xseries c n) = Ok o /\
  aligned o n 0 (NaN, NaN, NaN, NaN) (fun k => (Fin (a k), Fin (t k), Fin (s k), Fin (b k))) /\
  (forall k, b k = (op k + h k + l k + c k) / 4) /\
  a 0%nat = (op 0%nat + c 0%nat) / 2 /\ (forall k, a (S k) = (a k + b k) / 2) /\
  t 0%nat = h 0%nat /\ s 0%nat = l 0%nat /\
  (forall k, is_max [h (S k); a (S k); b (S k)] (t (S k)) /\ is_min [l (S k); a (S k); b (S k)] (s (S k))) /\
  (forall k, (k = 0%nat -> l k <= op k <= h k /\ l k <= c k <= h k) -> s k <= a k <= t k /\ s k <= b k <= t k).
Proof.
  intros Hn. destruct (heikin_ashi_values (fun k => Fin (op k)) (fun k => Fin (h k)) (fun k => Fin (l k)) (fun k => Fin (c k)) n Hn) as (o & E & A).
  set (b := fun k => (op k + h k + l k + c k) / 4).
  set (a := fix a k := match k with O => (op 0%nat + c 0%nat) / 2 | S j => (a j + b j) / 2 end).
  set (t := fun k => match k with O => h 0%nat | S _ => Rmax (Rmax (h k) (a k)) (b k) end).
  set (s := fun k => match k with O => l 0%nat | S _ => Rmin (Rmin (l k) (a k)) (b k) end).
  assert (G : forall k, ha (fun k => Fin (op k)) (fun k => Fin (h k)) (fun k => Fin (l k)) (fun k => Fin (c k)) k = (Fin (a k), Fin (b k))).
  { induction k as [|k IH]; cbn [ha].
    - rewrite !x_lit, !x_add, !x_div by lra. reflexivity.
    - rewrite IH. cbn [fst snd]. rewrite !x_lit, !x_add, !x_div by lra. reflexivity. }
  exists o, a, b, t, s. split; [exact E|]. split.
  - revert A. apply aligned_ext. intros k _. rewrite G. destruct k; [reflexivity|]. now rewrite !x_max, !x_min.
  - repeat split; try reflexivity.
    + cbn [t]. unfold Rmax. repeat (destruct (Rle_dec _ _)); cbn; auto.
    + intros x Hx. unfold t. pose proof (Rmax_l (h (S k)) (a (S k))). pose proof (Rmax_r (h (S k)) (a (S k))).
      pose proof (Rmax_l (Rmax (h (S k)) (a (S k))) (b (S k))). pose proof (Rmax_r (Rmax (h (S k)) (a (S k))) (b (S k))).
      cbn [In] in Hx. destruct Hx as [<-|[<-|[<-|[]]]]; lra.
    + cbn [s]. unfold Rmin. repeat (destruct (Rle_dec _ _)); cbn; auto.
    + intros x Hx. unfold s. pose proof (Rmin_l (l (S k)) (a (S k))). pose proof (Rmin_r (l (S k)) (a (S k))).
      pose proof (Rmin_l (Rmin (l (S k)) (a (S k))) (b (S k))). pose proof (Rmin_r (Rmin (l (S k)) (a (S k))) (b (S k))).
      cbn [In] in Hx. destruct Hx as [<-|[<-|[<-|[]]]]; lra.
    + destruct k as [|k]; [specialize (H eq_refl); cbn [s a]; lra|].
      unfold s. pose proof (Rmin_r (l (S k)) (a (S k))). pose proof (Rmin_l (Rmin (l (S k)) (a (S k))) (b (S k))). lra.
    + destruct k as [|k]; [specialize (H eq_refl); cbn [t a]; lra|].
      unfold t. pose proof (Rmax_r (h (S k)) (a (S k))). pose proof (Rmax_l (Rmax (h (S k)) (a (S k))) (b (S k))). lra.
    + destruct k as [|k]; [specialize (H eq_refl); unfold b; cbn [s]; lra|].
      unfold s. apply Rmin_r.
    + destruct k as [|k]; [specialize (H eq_refl); unfold b; cbn [t]; lra|].
      unfold t. apply Rmax_r.
Qed.

(** [fbands]: bar [i - 2] is a fractal when its high is above the two before it
    and not below the two after it (dually for lows). *)
Definition fractal_high (h : nat -> R) (i : nat) : Prop :=
  h (i - 4)%nat < h (i - 2)%nat /\ h (i - 3)%nat < h (i - 2)%nat /\ h (i - 1)%nat <= h (i - 2)%nat /\ h i <= h (i - 2)%nat.
Definition fractal_low (l : nat -> R) (i : nat) : Prop :=
  l (i - 2)%nat < l (i - 4)%nat /\ l (i - 2)%nat < l (i - 3)%nat /\ l (i - 2)%nat <= l (i - 1)%nat /\ l (i - 2)%nat <= l i.
Lemma x_fractal_high h i : (4 <= i)%nat -> (arg_first fgtb (last_bars 5 (fun k => Fin (h k)) i) = 2%nat <-> fractal_high h i).
Proof.
  intros Hi. unfold last_bars, fractal_high. replace i with (i - 4 + 4)%nat by lia. generalize (i - 4)%nat as j. clear i Hi. intros j.
  replace (j + 4 + 1 - 5)%nat with j by lia. replace (j + 4 - 4)%nat with j by lia. replace (j + 4 - 3)%nat with (S j) by lia.
  replace (j + 4 - 2)%nat with (S (S j)) by lia. replace (j + 4 - 1)%nat with (S (S (S j))) by lia. replace (j + 4)%nat with (S (S (S (S j)))) by lia. cbn [seq map].
  generalize (h j) (h (S j)) (h (S (S j))) (h (S (S (S j)))) (h (S (S (S (S j))))). intros a b c d e.
  unfold arg_first, enumerate. cbn [length seq combine fold_left at_ nth]. unfold fgtb. rewrite !x_ltb.
  repeat (rewrite ?x_ltb; match goal with |- context [Rltb ?x ?y] => destruct (Rltb x y) eqn:?; [match goal with H : Rltb x y = true |- _ => apply Rltb_true in H end|match goal with H : Rltb x y = false |- _ => apply Rltb_false in H end] end); cbn [fst]; split; intros HH; try lra; try easy.
Qed.
Lemma x_fractal_low h i : (4 <= i)%nat -> (arg_first fltb (last_bars 5 (fun k => Fin (h k)) i) = 2%nat <-> fractal_low h i).
Proof.
  intros Hi. unfold last_bars, fractal_low. replace i with (i - 4 + 4)%nat by lia. generalize (i - 4)%nat as j. clear i Hi. intros j.
  replace (j + 4 + 1 - 5)%nat with j by lia. replace (j + 4 - 4)%nat with j by lia. replace (j + 4 - 3)%nat with (S j) by lia.
  replace (j + 4 - 2)%nat with (S (S j)) by lia. replace (j + 4 - 1)%nat with (S (S (S j))) by lia. replace (j + 4)%nat with (S (S (S (S j)))) by lia. cbn [seq map].
  generalize (h j) (h (S j)) (h (S (S j))) (h (S (S (S j)))) (h (S (S (S (S j))))). intros a b c d e.
  unfold arg_first, enumerate. cbn [length seq combine fold_left at_ nth]. rewrite !x_ltb.
  repeat (rewrite ?x_ltb; match goal with |- context [Rltb ?x ?y] => destruct (Rltb x y) eqn:?; [match goal with H : Rltb x y = true |- _ => apply Rltb_true in H end|match goal with H : Rltb x y = false |- _ => apply Rltb_false in H end] end); cbn [fst]; split; intros HH; try lra; try easy.
Qed.
(** The upper band is the high of the latest fractal confirmed by bar [i]; before
    the first one it is 0. *)
Theorem fbands_real h l n : exists up lo : nat -> R,
  aligned (fbands (xseries h n) (xseries l n)) n 4 (NaN, NaN) (fun i => (Fin (up i), Fin (lo i))) /\
  (forall i, (4 <= i)%nat -> (fractal_high h i -> up i = h (i - 2)%nat) /\ (~ fractal_high h i -> up i = up (i - 1)%nat)) /\ up 3%nat = 0 /\
  (forall i, (4 <= i)%nat -> (fractal_low l i -> lo i = l (i - 2)%nat) /\ (~ fractal_low l i -> lo i = lo (i - 1)%nat)) /\ lo 3%nat = 0.
Proof.
  assert (Fn : forall best (f : nat -> R) i, exists r, band best (fun k => Fin (f k)) i = Fin r).
  { intros best f i. induction i as [|i [r IH]]; [exists 0; apply x_lit|]. cbn [band]. destruct (andb _ _); [now eexists|]. exists r. exact IH. }
  set (get := fun x : xr => match x with Fin r => r | _ => 0 end).
  exists (fun i => get (band fgtb (fun k => Fin (h k)) i)), (fun i => get (band fltb (fun k => Fin (l k)) i)).
  assert (G : forall best (f : nat -> R) i, Fin (get (band best (fun k => Fin (f k)) i)) = band best (fun k => Fin (f k)) i).
  { intros best f i. now destruct (Fn best f i) as [r ->]. }
  assert (St : forall best (f : nat -> R) (P : nat -> Prop), (forall i, (4 <= i)%nat -> (arg_first best (last_bars 5 (fun k => Fin (f k)) i) = 2%nat <-> P i)) ->
    forall i, (4 <= i)%nat -> (P i -> get (band best (fun k => Fin (f k)) i) = f (i - 2)%nat) /\ (~ P i -> get (band best (fun k => Fin (f k)) i) = get (band best (fun k => Fin (f k)) (i - 1)))).
  { intros best f P HP i Hi. destruct i as [|j]; [lia|]. specialize (HP (S j) Hi). cbn [band]. rewrite (proj2 (Nat.leb_le 4 (S j))) by lia. cbn [andb].
    replace (S j - 1)%nat with j by lia. destruct (Nat.eqb_spec (arg_first best (last_bars 5 (fun k => Fin (f k)) (S j))) 2) as [Q|Q]; split; intros HH; try easy; exfalso; apply HP in Q || apply Q, HP; easy. }
  split; [|split; [|split; [|split]]].
  - generalize (fbands_values (fun k => Fin (h k)) (fun k => Fin (l k)) n). apply aligned_ext. intros i _. now rewrite !G.
  - apply St. intros. now apply x_fractal_high.
  - rewrite band_early by lia. now rewrite x_lit.
  - apply St. intros. now apply x_fractal_low.
  - rewrite band_early by lia. now rewrite x_lit.
Qed.
(** So the two bands need not be ordered: until both have been seen one is 0. *)
Theorem fbands_order_refuted : exists h l o u b, (forall k, 0 < l k <= h k) /\ fbands (xseries h 5) (xseries l 5) = o /\
  nth_error o 4 = Some (Fin u, Fin b) /\ u < b.
Proof.
  exists (fun _ => 3), (fun k => if (k =? 2)%nat then 1 else 2). destruct (fbands_real (fun _ => 3) (fun k => if (k =? 2)%nat then 1 else 2) 5) as (up & lo & (_ & _ & A) & U & U0 & L & L0).
  eexists _, (up 4%nat), (lo 4%nat). split; [intros k; destruct (k =? 2)%nat; lra|]. split; [reflexivity|]. split; [apply A; lia|].
  destruct (U 4%nat (le_n _)) as [_ U4]. destruct (L 4%nat (le_n _)) as [L4 _]. rewrite U4, L4; cbn [minus Nat.eqb].
  - rewrite U0. lra.
  - unfold fractal_low. cbn [minus Nat.eqb]. lra.
  - unfold fractal_high. lra.
Qed.

(** ** Windowed estimators *)
Lemma x_ln_ratio a b : 0 < a -> 0 < b -> fln (fdiv (Fin a) (Fin b)) = Fin (ln (a / b)).
Proof. intros. rewrite x_div by lra. apply x_ln. now apply Rdiv_lt_0_compat. Qed.
Definition log_return (d : nat -> R) (k : nat) : R := ln (d k / d (k - 1)%nat).
Lemma log_returns_bars d n : (forall k, (k < n)%nat -> 0 < d k) ->
  log_returns (xseries d n) = map (fun k => Fin (log_return d k)) (seq 1 (n - 1)).
Proof.
  intros H. unfold log_returns, xseries. rewrite windows2_series, map_map. apply map_ext_in. intros k Hk. apply in_seq in Hk.
  apply x_ln_ratio; apply H; lia.
Qed.
Theorem hv_real d n w dev : (0 < w)%nat -> (forall k, (k < n)%nat -> 0 < d k) -> 0 <= unwrap_or dev 1 ->
  exists o, hv (xseries d n) w (option_map Fin dev) = Ok o /\
  aligned o n w NaN (fun i => Fin (sqrt (252 * unwrap_or dev 1 * var (last_bars w (log_return d) i)))).
Proof.
  intros Hw H Hd. unfold hv. rewrite log_returns_bars by easy. rewrite rwindows_bars by easy. cbn [bind]. eexists. split; [reflexivity|].
  rewrite map_map. replace (1 + w - 1)%nat with w by lia. apply aligned_bars_ext; [lia|]. intros i Hi.
  assert (M : unwrap_or (option_map Fin dev) (flit 1 1) = Fin (unwrap_or dev 1)) by (destruct dev; [easy|apply x_lit]).
  rewrite M. unfold hv_win. rewrite x_lit, x_mul, x_last_bars, x_fsum, x_nat, x_div by (apply INR_neq0; lia).
  change (Rsum (last_bars w (log_return d) i) / INR w) with (Rsum (last_bars w (log_return d) i) / INR w).
  rewrite map_map. rewrite (x_fsum_map _ (fun x => (x - Rsum (last_bars w (log_return d) i) / INR w) ^ 2)) by (intros; now rewrite x_sub, x_pow2).
  rewrite x_mul, x_div by (apply INR_neq0; lia). set (L := last_bars w (log_return d) i).
  assert (V : Rsum (map (fun x => (x - Rsum L / INR w) ^ 2) L) * (252 * unwrap_or dev 1) / INR w = 252 * unwrap_or dev 1 * var L).
  { assert (LL : length L = w) by apply length_last_bars. unfold var, mean. rewrite map_length, LL. field. apply INR_neq0; lia. }
  rewrite V. apply x_sqrt. apply Rmult_le_pos; [lra|apply var_nonneg].
Qed.
Theorem cc_hv_real d n w : (0 < w)%nat -> (forall k, (k < n)%nat -> 0 < d k) ->
  exists o, cc_hv (xseries d n) w = Ok o /\
  aligned o n w NaN (fun i => Fin (sqrt (252 * mean (last_bars w (fun k => log_return d k ^ 2) i)))).
Proof.
  intros Hw H. unfold cc_hv, xseries. rewrite windows2_series, map_map.
  replace (map _ (seq 1 (n - 1))) with (map (fun k => Fin (log_return d k ^ 2)) (seq 1 (n - 1))).
  - rewrite rwindows_bars by easy. cbn [bind]. eexists. split; [reflexivity|]. rewrite map_map. replace (1 + w - 1)%nat with w by lia.
    apply aligned_bars_ext; [lia|]. intros i Hi. unfold annual_win. rewrite x_last_bars, x_fsum, x_lit, x_nat, x_mul, x_div by (apply INR_neq0; lia).
    set (L := last_bars w _ i). replace (Rsum L * 252 / INR w) with (252 * mean L) by (unfold mean, L; rewrite length_last_bars; field; apply INR_neq0; lia).
    apply x_sqrt. apply Rmult_le_pos; [lra|]. unfold mean. apply Rdiv_nonneg; [|apply pos_INR]. apply Rsum_nonneg. intros x Hx.
    apply In_last_bars in Hx as (k & _ & _ & ->); [|lia]. apply pow2_ge_0.
  - apply map_ext_in. intros k Hk. apply in_seq in Hk. cbn [at_ nth]. rewrite x_ln_ratio by (apply H; lia). now rewrite x_pow2.
Qed.
(** [gkyz_hv] *)
Definition gkyz_term (op h l c : nat -> R) (k : nat) : R :=
  ln (op k / c (k - 1)%nat) ^ 2 + / 2 * ln (h k / l k) ^ 2 - (2 * ln 2 - 1) * ln (c k / op k) ^ 2.
Lemma ln_le a b : 0 < a -> a <= b -> ln a <= ln b.
Proof. intros Ha [H| ->]; [left; now apply ln_increasing|lra]. Qed.
Lemma ln2_le : ln 2 <= 3 / 4.
Proof.
  replace (3 / 4) with (ln (exp (3 / 4))) by apply ln_exp. apply ln_le; [lra|].
  assert (E : exp (3 / 4) = exp (3 / 20) ^ 5). { replace (3 / 4) with (INR 5 * (3 / 20)) by (cbn; lra). rewrite exp_Rpower || idtac. 
    replace (INR 5 * (3 / 20)) with (3/20 + (3/20 + (3/20 + (3/20 + 3/20)))) by (cbn; lra). rewrite !exp_plus. ring. }
  rewrite E. assert (B : 23 / 20 <= exp (3 / 20)). { pose proof (exp_ineq1 (3/20) ltac:(lra)). lra. }
  apply Rle_trans with ((23 / 20) ^ 5); [lra|]. apply pow_incr. lra.
Qed.
Lemma ln_sq_le a b : 0 < a -> 0 < b -> / b <= a <= b -> ln a ^ 2 <= ln b ^ 2.
Proof.
  intros Ha Hb [H1 H2]. assert (ln a <= ln b) by now apply ln_le. assert (- ln b <= ln a). { rewrite <- ln_Rinv by easy. apply ln_le; [now apply Rinv_0_lt_compat|easy]. }
  nra.
Qed.
Theorem gkyz_term_nonneg op h l c k : 0 < l k -> 0 < c (k - 1)%nat -> l k <= op k <= h k -> l k <= c k <= h k -> 0 <= gkyz_term op h l c k.
Proof.
  intros Hl Hc Ho Hcl. unfold gkyz_term. pose proof ln2_le. pose proof (pow2_ge_0 (ln (op k / c (k - 1)%nat))).
  assert (B : ln (c k / op k) ^ 2 <= ln (h k / l k) ^ 2).
  { apply ln_sq_le; [apply Rdiv_lt_0_compat; lra|apply Rdiv_lt_0_compat; lra|]. rewrite Rinv_div. split.
    - apply Rmult_le_reg_r with (h k); [lra|]. apply Rmult_le_reg_r with (op k); [lra|].
      replace (l k / h k * h k * op k) with (l k * op k) by (field; lra). replace (c k / op k * h k * op k) with (c k * h k) by (field; lra). nra.
    - apply Rmult_le_reg_r with (l k); [lra|]. apply Rmult_le_reg_r with (op k); [lra|].
      replace (h k / l k * l k * op k) with (h k * op k) by (field; lra). replace (c k / op k * l k * op k) with (c k * l k) by (field; lra). nra. }
  pose proof (pow2_ge_0 (ln (c k / op k))). nra.
Qed.
Theorem gkyz_hv_real op h l c n w : (0 < w)%nat -> (0 < n)%nat ->
  (forall k, (k < n)%nat -> 0 < l k /\ l k <= op k <= h k /\ l k <= c k <= h k) ->
  exists o, gkyz_hv (xseries op n) (xseries h n) (xseries l n) (xseries c n) w = Ok o /\
  aligned o n w NaN (fun i => Fin (sqrt (252 * mean (last_bars w (gkyz_term op h l c) i)))).
Proof.
  intros Hw Hn H. unfold gkyz_hv, xseries. rewrite !slice_from_series by lia. cbn [bind]. unfold zip5, zip4, zip3.
  unfold series. rewrite (shift_bars 1 (fun k => Fin (c k)) 0), !combine_bars, map_map. replace (Nat.min _ n) with (n - 1)%nat by lia.
  replace (map _ (seq 1 (n - 1))) with (map (fun k => Fin (gkyz_term op h l c k)) (seq 1 (n - 1))).
  - rewrite rwindows_bars by easy. cbn [bind]. eexists. split; [reflexivity|]. rewrite map_map. replace (1 + w - 1)%nat with w by lia.
    apply aligned_bars_ext; [lia|]. intros i Hi. unfold annual_win. rewrite x_last_bars, x_fsum, x_lit, x_nat, x_mul, x_div by (apply INR_neq0; lia).
    set (L := last_bars w _ i). replace (Rsum L * 252 / INR w) with (252 * mean L) by (unfold mean, L; rewrite length_last_bars; field; apply INR_neq0; lia).
    apply x_sqrt. apply Rmult_le_pos; [lra|]. unfold mean. apply Rdiv_nonneg; [|apply pos_INR]. apply Rsum_nonneg. intros x Hx.
    apply In_last_bars in Hx as (k & H1 & H2 & ->); [|lia]. destruct (H k ltac:(lia)) as (? & ? & ?). destruct (H (k - 1)%nat ltac:(lia)) as (? & ? & ?).
    apply gkyz_term_nonneg; easy || lra.
  - apply map_ext_in. intros k Hk. apply in_seq in Hk. unfold gkyz_bar. destruct (H k ltac:(lia)) as (? & ? & ?). destruct (H (k - 1)%nat ltac:(lia)) as (? & ? & ?).
    rewrite !x_ln_ratio by lra. rewrite !x_lit, x_frac, x_ln, !x_pow2, !x_mul, x_add, !x_sub, x_mul, x_sub by lra. f_equal. unfold gkyz_term. lra.
Qed.
(** [gri] *)
Theorem gri_real h l n w : (2 <= w)%nat -> (forall i, (w - 1 <= i < n)%nat -> lowest w l i < highest w h i) ->
  exists o, gri (xseries h n) (xseries l n) w = Ok o /\
  aligned o n (w - 1) NaN (fun i => Fin (ln (highest w h i - lowest w l i) / ln (INR w))).
Proof.
  intros Hw H. unfold gri. zap. unfold xseries, series. rewrite !windows_bars by lia. cbn [bind plus]. eexists. split; [reflexivity|].
  rewrite combine_bars, map_map, Nat.min_id. replace (0 + w - 1)%nat with (w - 1)%nat by lia. apply aligned_bars_ext; [lia|]. intros i Hi.
  assert (1 < INR w) by (change 1 with (INR 1); apply lt_INR; lia). assert (0 < ln (INR w)) by (rewrite <- ln_1; apply ln_increasing; lra).
  specialize (H i Hi). rewrite x_highest, x_lowest, x_nat, x_sub, !x_ln, x_div by (lia || lra). reflexivity.
Qed.
(** [chop] *)
Lemma sum_bars_head f a b : (a <= b)%nat -> sum_bars f a b = f a + sum_bars f (S a) b.
Proof. intros H. unfold sum_bars. replace (b + 1 - a)%nat with (S (b + 1 - S a)) by lia. cbn [seq map]. now rewrite Rsum_cons. Qed.
Lemma sum_bars_sub f a b a' b' : (a <= a')%nat -> (a' <= b')%nat -> (b' <= b)%nat -> (forall k, (a <= k <= b)%nat -> 0 <= f k) ->
  sum_bars f a' b' <= sum_bars f a b.
Proof.
  intros H1 H2 H3 P. replace (sum_bars f a b) with (sum_bars f a (a' - 1) * (if (a <? a')%nat then 1 else 0) + sum_bars f a' b' + sum_bars f (S b') b).
  - assert (NN : forall x y, (a <= x)%nat -> (y <= b)%nat -> 0 <= sum_bars f x y).
    { intros x y Hx Hy. unfold sum_bars. apply Rsum_nonneg. intros z Hz. apply in_map_iff in Hz as (k & <- & Hk). apply in_seq in Hk. apply P. lia. }
    pose proof (NN (S b') b ltac:(lia) ltac:(lia)). pose proof (NN a (a' - 1)%nat ltac:(lia) ltac:(lia)). destruct (a <? a')%nat; lra.
  - destruct (Nat.ltb_spec a a') as [L|L].
    + unfold sum_bars. rewrite Rmult_1_r, <- !Rsum_app, <- !map_app. f_equal. f_equal.
      replace (b + 1 - a)%nat with ((a' - 1 + 1 - a) + ((b' + 1 - a') + (b + 1 - S b')))%nat by lia. rewrite !seq_app, <- app_assoc. do 2 f_equal; [|f_equal]; f_equal; lia.
    + replace a' with a in * by lia. rewrite Rmult_0_r, Rplus_0_l. unfold sum_bars. rewrite <- Rsum_app, <- map_app. do 2 f_equal.
      replace (b + 1 - a)%nat with ((b' + 1 - a) + (b + 1 - S b'))%nat by lia. rewrite seq_app. do 2 f_equal. lia.
Qed.
Lemma tr_bounds h l c k : l k <= c k <= h k ->
  Rabs (c k - c (k - 1)%nat) <= true_range_of h l c k /\ h k - c (k - 1)%nat <= true_range_of h l c k /\ c (k - 1)%nat - l k <= true_range_of h l c k /\ h k - l k <= true_range_of h l c k.
Proof. intros H. unfold true_range_of, Rmax, Rmin, Rabs. repeat (destruct (Rle_dec _ _) || destruct (Rcase_abs _)); lra. Qed.
(** The summed true range covers the range of the window. *)
Theorem range_le_true_ranges h l c w i : (0 < w <= i)%nat -> (forall k, (k <= i)%nat -> l k <= c k <= h k) ->
  highest w h i - lowest w l i <= Rsum (last_bars w (true_range_of h l c) i).
Proof.
  intros Hw H. set (tr := true_range_of h l c). rewrite Rsum_last_bars by lia.
  destruct (highest_spec w h i ltac:(lia)) as [(j & J1 & J2 & ->) _]. destruct (lowest_spec w l i ltac:(lia)) as [(k & K1 & K2 & ->) _].
  assert (T := fun m (Hm : (m <= i)%nat) => tr_bounds h l c m (H m Hm)). fold tr in T.
  assert (Pos : forall m, (m <= i)%nat -> 0 <= tr m) by (intros m Hm; destruct (T m Hm) as (? & _ & _ & ?); specialize (H m Hm); lra).
  assert (Path : forall a d, (a + d <= i)%nat -> Rabs (c (a + d)%nat - c a) <= sum_bars tr (S a) (a + d)).
  { intros a d. induction d as [|d IH]; intros Hd.
    - rewrite Nat.add_0_r, sum_bars_empty, Rminus_diag_eq, Rabs_R0 by (easy || lia). lra.
    - specialize (IH ltac:(lia)). replace (a + S d)%nat with (S (a + d)) by lia. assert (Tm := T (S (a + d)) ltac:(lia)). replace (S (a + d) - 1)%nat with (a + d)%nat in Tm by lia.
      destruct Tm as (T1 & _). assert (E : sum_bars tr (S a) (S (a + d)) = sum_bars tr (S a) (a + d) + tr (S (a + d))).
      { destruct d; [rewrite Nat.add_0_r, sum_bars_single, sum_bars_empty by lia; lra|]. apply sum_bars_last. lia. }
      rewrite E. replace (c (S (a + d)) - c a) with ((c (S (a + d)) - c (a + d)%nat) + (c (a + d)%nat - c a)) by lra. eapply Rle_trans; [apply Rabs_triang|lra]. }
  assert (Up : forall a b, (a < b <= i)%nat -> h b - l a <= sum_bars tr a b /\ h a - l b <= sum_bars tr a b).
  { intros a b Hab. destruct b as [|b]; [lia|]. rewrite sum_bars_head by lia. specialize (Path a (b - a)%nat ltac:(lia)). replace (a + (b - a))%nat with b in Path by lia.
    assert (E : sum_bars tr (S a) (S b) = sum_bars tr (S a) b + tr (S b)).
    { destruct (Nat.eq_dec a b) as [->|]; [rewrite sum_bars_single, sum_bars_empty by lia; lra|apply sum_bars_last; lia]. }
    rewrite E. destruct (T a ltac:(lia)) as (_ & _ & _ & Ta). assert (Tb := T (S b) ltac:(lia)). replace (S b - 1)%nat with b in Tb by lia. destruct Tb as (_ & T2 & T3 & _).
    assert (Ha := H a ltac:(lia)). pose proof (Rle_abs (c b - c a)). pose proof (Rle_abs (- (c b - c a))). rewrite Rabs_Ropp in *. lra. }
  destruct (Nat.lt_trichotomy j k) as [L|[->|L]].
  - destruct (Up j k ltac:(lia)) as [_ U]. eapply Rle_trans; [exact U|]. apply sum_bars_sub; try lia. intros; apply Pos; lia.
  - destruct (T k ltac:(lia)) as (_ & _ & _ & Tk). apply Rle_trans with (sum_bars tr k k); [rewrite sum_bars_single; lra|]. apply sum_bars_sub; try lia. intros; apply Pos; lia.
  - destruct (Up k j ltac:(lia)) as [U _]. eapply Rle_trans; [exact U|]. apply sum_bars_sub; try lia. intros; apply Pos; lia.
Qed.
Lemma ln_w_pos w : (2 <= w)%nat -> 0 < ln (INR w).
Proof. intros. assert (1 < INR w) by (change 1 with (INR 1); apply lt_INR; lia). rewrite <- ln_1. apply ln_increasing; lra. Qed.
Theorem chop_real h l c n w : (2 <= w)%nat -> (0 < n)%nat -> (forall k, (k < n)%nat -> l k <= c k <= h k) ->
  (forall i, (w <= i < n)%nat -> lowest w l i < highest w h i) ->
  exists o, chop (xseries h n) (xseries l n) (xseries c n) w = Ok o /\
  aligned o n w NaN (fun i => Fin (100 * ln (Rsum (last_bars w (true_range_of h l c) i) / (highest w h i - lowest w l i)) / ln (INR w))).
Proof.
  intros Hw Hn Hc H. unfold chop. unfold xseries at 1 2. rewrite !slice_from_series by lia. cbn [bind].
  rewrite true_range_bars_x by (easy || intros k Hk; specialize (Hc k Hk); lra). cbn [bind].
  rewrite !rwindows_bars by lia. cbn [bind]. eexists. split; [reflexivity|]. unfold zip3. rewrite !combine_bars, map_map, !Nat.min_id.
  replace (1 + w - 1)%nat with w by lia. apply aligned_bars_ext; [lia|]. intros i Hi. specialize (H i Hi).
  pose proof (ln_w_pos w Hw). assert (1 < INR w) by (change 1 with (INR 1); apply lt_INR; lia).
  rewrite x_highest, x_lowest, x_nat, x_sub, x_last_bars, x_fsum, x_lit, x_div by (lia || lra). rewrite (x_ln (INR w)) by lra.
  rewrite x_ln, x_mul, x_div; [reflexivity|lra|]. apply Rdiv_lt_0_compat; [|lra].
  pose proof (range_le_true_ranges h l c w i ltac:(lia) ltac:(intros; apply Hc; lia)). lra.
Qed.
(** The choppiness index is never negative. *)
Theorem chop_nonneg h l c w i : (2 <= w <= i)%nat -> (forall k, (k <= i)%nat -> l k <= c k <= h k) -> lowest w l i < highest w h i ->
  0 <= 100 * ln (Rsum (last_bars w (true_range_of h l c) i) / (highest w h i - lowest w l i)) / ln (INR w).
Proof.
  intros Hw H P. pose proof (ln_w_pos w ltac:(lia)). pose proof (range_le_true_ranges h l c w i ltac:(lia) H) as B.
  apply Rdiv_nonneg; [|lra]. apply Rmult_le_pos; [lra|]. rewrite <- ln_1. apply ln_le; [lra|].
  apply Rmult_le_reg_r with (highest w h i - lowest w l i); [lra|]. unfold Rdiv. rewrite Rmult_assoc, Rinv_l by lra. lra.
Qed.
(** [vhf] *)
Theorem vhf_real h l c n w : (0 < w)%nat ->
  (forall i, (w <= i < n)%nat -> Rsum (last_bars w (fun k => Rabs (c k - c (k - 1)%nat)) i) <> 0) ->
  exists o, vhf (xseries h n) (xseries l n) (xseries c n) w = Ok o /\
  aligned o n w NaN (fun i => Fin ((highest w h i - lowest w l i) / Rsum (last_bars w (fun k => Rabs (c k - c (k - 1)%nat)) i))).
Proof.
  intros Hw H. unfold vhf, abs_diffs, xseries. rewrite windows2_series, map_map. unfold series. rewrite !rwindows_bars by easy. cbn [bind]. eexists. split; [reflexivity|].
  rewrite !skipn_bars. unfold zip3. replace (0 + w - 1 + 1)%nat with w by lia. replace (1 + w - 1)%nat with w by lia. rewrite !combine_bars, map_map.
  apply aligned_bars_ext; [lia|]. intros i Hi. rewrite x_highest, x_lowest by easy. cbn [at_ nth].
  replace (last_bars w (fun x => fabs (fsub (Fin (c x)) (Fin (c (x - 1)%nat)))) i) with (map Fin (last_bars w (fun k => Rabs (c k - c (k - 1)%nat)) i)) by (now rewrite <- x_last_bars).
  rewrite x_fsum, x_sub, x_div by now apply H. reflexivity.
Qed.

(** Windows over a series that starts with a warm-up. *)
Lemma aligned_is_series {B} (o : list B) n k na f : aligned o n k na f -> (k <= n)%nat -> o = series (fun i => if (i <? k)%nat then na else f i) n.
Proof.
  intros A Hk. rewrite (aligned_eq _ _ _ _ _ A). unfold series. replace n with (k + (n - k))%nat at 2 by lia. rewrite seq_app, map_app. f_equal.
  - apply nth_error_ext. intros i. rewrite nth_error_map'. destruct (Nat.lt_ge_cases i k).
    + rewrite nth_error_pad, nth_error_seq by easy. cbn [option_map plus]. now rewrite (proj2 (Nat.ltb_lt i k)) by easy.
    + rewrite !(proj2 (nth_error_None _ i)); [easy|rewrite seq_length; lia|rewrite length_pad; lia].
  - apply map_ext_in. intros i Hi. apply in_seq in Hi. now rewrite (proj2 (Nat.ltb_ge i k)) by lia.
Qed.
Lemma windowed_of_aligned {B} (data : list B) n k na nb (f : nat -> B) w (g : list B -> xr) : aligned data n k na f -> (0 < w)%nat -> (k + w - 1 <= n)%nat ->
  (forall x, length x = w -> nth_error x 0 = Some na -> g x = nb) ->
  aligned (pad (w - 1) nb ++ map g (windows w data)) n (k + w - 1) nb (fun i => g (last_bars w f i)).
Proof.
  intros A Hw Hn HN. rewrite (aligned_is_series _ _ _ _ _ A) by lia. unfold series. rewrite windows_bars by easy. rewrite map_map.
  eapply aligned_late; [apply aligned_bars; lia|lia| |].
  - intros i Hi. cbn beta. apply HN; [apply length_last_bars|]. unfold last_bars. rewrite nth_error_map', nth_error_seq by lia. cbn [option_map].
    now rewrite (proj2 (Nat.ltb_lt _ k)) by lia.
  - intros i Hi. cbn beta. f_equal. apply last_bars_ext; [|lia]. intros j H1 H2. now rewrite (proj2 (Nat.ltb_ge j k)) by lia.
Qed.
Lemma fsum_nan l : In NaN l -> fsum l = NaN.
Proof. intros H. unfold fsum. now apply fold_add_nan_in. Qed.

Lemma last_bars_shift {A} s (g : nat -> A) w i : (w <= i + 1)%nat -> last_bars w (fun k => g (s + k)%nat) i = last_bars w g (i + s).
Proof.
  intros H. unfold last_bars. rewrite (shift_bars s). replace (i + 1 - w + s)%nat with (i + s + 1 - w)%nat by lia. apply map_ext_in. intros k Hk. apply in_seq in Hk. f_equal. lia.
Qed.
Lemma pad_app {A} a b (x : A) : pad a x ++ pad b x = pad (a + b) x.
Proof. unfold pad. now rewrite repeat_app. Qed.
Lemma ewma_from_pos w k f i : (0 < w)%nat -> (k + w - 1 <= i)%nat -> (forall j, (k <= j <= i)%nat -> 0 < f j) -> 0 < ewma_from w k f i.
Proof.
  intros Hw Hi H. set (L := map f (seq k (S (i - k)))).
  destruct (Rmin_list_spec L) as [I1 M1]; [easy|]. destruct (Rmax_list_spec L) as [_ M2]; [easy|].
  apply Rlt_le_trans with (Rmin_list L). { apply in_map_iff in I1 as (j & EJ & Hj). rewrite <- EJ. apply in_seq in Hj. apply H. lia. }
  apply (ewma_from_bounds w k f i (Rmin_list L) (Rmax_list L)); [lia|lia|]. intros j Hj. split; [apply M1|apply M2]; apply in_map; apply in_seq; lia.
Qed.
(** [mass]: the sum over [long] bars of the ratio of the single to the double EWMA of the range. *)
Theorem mass_real h l n short long : (0 < short)%nat -> (0 < long)%nat -> (2 * (short - 1) + long <= n)%nat ->
  (forall k, (k < n)%nat -> l k < h k) ->
  let e1 := ewma_from short 0 (fun k => h k - l k) in
  let e2 := ewma_from short (short - 1) e1 in
  exists o, mass (xseries h n) (xseries l n) short long = Ok o /\
  aligned o n (2 * (short - 1) + (long - 1)) NaN (fun i => Fin (Rsum (last_bars long (fun k => e1 k / e2 k) i))).
Proof.
  intros Hs Hl Hn H e1 e2. unfold mass, xseries. rewrite hl_range_series. unfold series.
  rewrite (map_ext _ (fun k => Fin (h k - l k))) by (intros; apply x_sub).
  destruct (ewma_from_at (fun k => h k - l k) short 0 n) as (m1 & E1 & A1); [lia|]. rewrite E1. cbn [bind]. unfold usub. rewrite (proj2 (Nat.leb_le 1 short)), (proj2 (Nat.leb_le 1 long)) by lia. cbn [bind].
  cbn [plus] in A1. fold e1 in A1. set (s := (short - 1)%nat) in *.
  assert (L1 : length m1 = n) by (destruct A1 as (L & _); lia). unfold slice_from. rewrite (proj2 (Nat.leb_le s (length m1))) by lia. cbn [bind].
  rewrite (skipn_aligned _ _ _ _ _ A1) by lia.
  destruct (ewma_from_at e1 short s (n - s)) as (m2 & E2 & A2); [lia|]. rewrite E2. cbn [bind]. fold s in A2. fold e2 in A2.
  unfold rwindows. rewrite (proj2 (Nat.eqb_neq long 0)) by lia. cbn [bind]. eexists. split; [reflexivity|].
  assert (B1 : aligned (map (fun i => Fin (e1 i)) (seq s (n - s))) (n - s) 0 NaN (fun i => Fin (e1 (s + i)%nat))).
  { replace s with (s + 0)%nat at 1 by lia. apply (aligned_from NaN (fun i => Fin (e1 i)) 0 s). lia. }
  assert (Pos : forall i, (s <= i < n)%nat -> 0 < e1 i).
  { intros i Hi. apply ewma_from_pos; [lia|lia|]. intros j Hj. specialize (H j ltac:(lia)). lra. }
  assert (Pos2 : forall i, (2 * s <= i < n)%nat -> 0 < e2 i).
  { intros i Hi. apply ewma_from_pos; [lia|lia|]. intros j Hj. apply Pos. lia. }
  assert (D : aligned (map (fun '(num, denom) => fdiv num denom) (combine (map (fun i => Fin (e1 i)) (seq s (n - s))) m2)) (n - s) s NaN (fun i => Fin (e1 (s + i)%nat / e2 (s + i)%nat))).
  { eapply aligned_ext; [|apply (aligned_map2 _ _ _ _ _ _ _ (fun '(num, denom) => fdiv num denom) B1 A2); try lia; intros []; reflexivity].
    intros i Hi. cbn beta iota. apply x_div. apply Rgt_not_eq, Pos2. lia. }
  assert (W := windowed_of_aligned _ _ _ _ NaN _ long fsum D Hl ltac:(lia) (fun x _ H0 => fsum_nan x (nth_error_In _ _ H0))).
  replace (long - 1 + s)%nat with (s + (long - 1))%nat by lia. rewrite <- pad_app, <- app_assoc.
  replace (2 * s + (long - 1))%nat with (s + long - 1 + s)%nat by lia. apply aligned_shift; [lia|]. revert W. apply aligned_ext. intros i Hi.
  rewrite (last_bars_shift s (fun k => Fin (e1 k / e2 k))) by lia. now rewrite x_last_bars, x_fsum.
Qed.

(** [cvi] *)
Lemma nth_last_bars {A} w (f : nat -> A) i j d : (j < w <= i + 1)%nat -> nth j (last_bars w f i) d = f (i + 1 - w + j)%nat.
Proof. intros H. unfold last_bars. apply nth_error_nth. rewrite nth_error_map', nth_error_seq by lia. reflexivity. Qed.
Lemma at_last_bars {F} {FO : FOps F} w (f : nat -> F) i j : (j < w <= i + 1)%nat -> at_ (last_bars w f i) j = f (i + 1 - w + j)%nat.
Proof. intros H. unfold at_. now apply nth_last_bars. Qed.
Lemma last__last_bars {F} {FO : FOps F} w (f : nat -> F) i : (0 < w <= i + 1)%nat -> last_ (last_bars w f i) = f i.
Proof. intros H. unfold last_. rewrite length_last_bars, nth_last_bars by lia. f_equal. lia. Qed.
Theorem cvi_real h l n w roc : (0 < w <= n)%nat -> (forall k, (k < n)%nat -> l k < h k) -> (w - 1 + roc <= n)%nat ->
  let e := ewma_from w 0 (fun k => h k - l k) in
  exists o, cvi (xseries h n) (xseries l n) w roc = Ok o /\
  aligned o n (w - 1 + roc) NaN (fun i => Fin (100 * (e i / e (i - roc)%nat - 1))).
Proof.
  intros Hw H Hr e. unfold cvi, xseries. rewrite hl_range_series. unfold series.
  rewrite (map_ext _ (fun k => Fin (h k - l k))) by (intros; apply x_sub).
  destruct (ewma_from_at (fun k => h k - l k) w 0 n) as (m & E & A); [lia|]. rewrite E. cbn [bind]. eexists. split; [reflexivity|]. cbn [plus] in A. fold e in A.
  assert (W := windowed_of_aligned _ _ _ _ NaN _ (roc + 1) (fun w => fmul (flit 100 1) (fsub (fdiv (last_ w) (at_ w 0)) (flit 1 1))) A ltac:(lia) ltac:(lia)).
  replace (roc + 1 - 1)%nat with roc in W by lia. replace (w - 1 + (roc + 1) - 1)%nat with (w - 1 + roc)%nat in W by lia.
  eapply aligned_ext; [|apply W].
  - intros i Hi. cbn beta. rewrite last__last_bars, at_last_bars by lia. replace (i + 1 - (roc + 1) + 0)%nat with (i - roc)%nat by lia.
    rewrite x_div. + now rewrite !x_lit, x_sub, x_mul. + apply Rgt_not_eq. apply ewma_from_pos; [lia|lia|]. intros j Hj. specialize (H j ltac:(lia)). lra.
  - intros x Lx Hx. unfold at_. rewrite (nth_error_nth x 0 fnan Hx). now rewrite x_div_nan_r, x_sub_nan_l, x_mul_nan_r.
Qed.

(** [relative_vol]: an unchanged close counts on both sides. *)
Definition gain_dev (w : nat) (c : nat -> R) (k : nat) : R := if Rltb (c k) (c (k - 1)%nat) then 0 else sqrt (var (last_bars w c k)).
Definition loss_dev (w : nat) (c : nat -> R) (k : nat) : R := if Rltb (c (k - 1)%nat) (c k) then 0 else sqrt (var (last_bars w c k)).
Theorem relative_vol_real c n w sm : (2 <= w)%nat -> (0 < sm)%nat -> (w - 1 + sm <= n)%nat ->
  exists o, relative_vol (xseries c n) w sm = Ok o /\
  aligned o n (w + sm - 2) NaN (fun i =>
    let g := wilder_from sm (w - 1) (gain_dev w c) i in
    let l := wilder_from sm (w - 1) (loss_dev w c) i in
    if Req (g + l) 0 then NaN else Fin (100 * (g / (g + l)))).
Proof.
  intros Hw Hs Hn. unfold relative_vol.
  assert (P : rel_vol_pairs (xseries c n) w = Ok (map (fun k => (Fin (gain_dev w c k), Fin (loss_dev w c k))) (seq (w - 1) (n - (w - 1))))).
  { unfold rel_vol_pairs, std_dev_raw, xseries. unfold series at 1. rewrite rwindows_bars by lia. cbn [bind]. unfold usub.
    rewrite (proj2 (Nat.leb_le 1 w)), (proj2 (Nat.leb_le 2 w)) by lia. cbn [bind]. rewrite length_series, (proj2 (Nat.leb_le 1 n)) by lia. cbn [bind].
    rewrite slice_from_series by lia. cbn [bind]. unfold slice. rewrite length_series. rewrite (proj2 (Nat.leb_le (w - 2) (n - 1))), (proj2 (Nat.leb_le (n - 1) n)) by lia. cbn [andb bind].
    f_equal. rewrite map_map. unfold series. rewrite skipn_bars, firstn_bars. rewrite (shift_bars 1 _ (0 + (w - 2))). unfold zip3.
    replace (0 + (w - 2) + 1)%nat with (w - 1)%nat by lia. replace (0 + w - 1)%nat with (w - 1)%nat by lia. rewrite !combine_bars, map_map.
    replace (Nat.min _ _) with (n - (w - 1))%nat by lia. apply map_ext_in. intros k Hk. apply in_seq in Hk.
    unfold std_dev_win. rewrite x_last_bars, x_sd by (rewrite ?length_last_bars; lia). rewrite !x_sub, !x_signum, !x_lit, !x_max, !x_mul. unfold gain_dev, loss_dev. fold (sd (last_bars w c k)). 
    f_equal; f_equal; rcase; unfold Rmax; destruct (Rle_dec _ _); try lra; unfold sd; ring. }
  rewrite P. cbn [bind]. rewrite !map_map. cbn [fst snd].
  destruct (wilder_from_at (gain_dev w c) sm (w - 1) (n - (w - 1))) as (a & E1 & A); [lia|]. rewrite E1. cbn [bind].
  destruct (wilder_from_at (loss_dev w c) sm (w - 1) (n - (w - 1))) as (b & E2 & B); [lia|]. rewrite E2. cbn [bind]. zap.
  eexists. split; [reflexivity|]. replace (w + sm - 2)%nat with (sm - 1 + (w - 1))%nat by lia. apply aligned_shift; [lia|].
  eapply aligned_ext; [|apply (aligned_pair_same _ _ _ _ _ _ NaN _ _ _ A B); [lia|]].
  - intros i Hi. cbv beta zeta iota. rewrite (Nat.add_comm (w - 1) i). set (g := wilder_from sm _ _ _). set (l := wilder_from sm _ _ _).
    rewrite x_lit, x_mul, x_add. destruct (Req (g + l) 0) eqn:Z.
    + apply Req_true in Z.
      assert (NN : forall f, (forall j, 0 <= f j) -> 0 <= wilder_from sm (w - 1) f (i + (w - 1))).
      { intros f Hf. set (L := map f (seq (w - 1) (S i))). destruct (Rmax_list_spec L) as [_ M]; [easy|].
        apply (wilder_from_bounds sm (w - 1) f _ 0 (Rmax_list L)); [lia|lia|]. intros j Hj. split; [easy|]. apply M. apply in_map. apply in_seq. lia. }
      assert (0 <= g) by (apply NN; intros j; unfold gain_dev; destruct (Rltb _ _); [lra|apply sqrt_pos]).
      assert (0 <= l) by (apply NN; intros j; unfold loss_dev; destruct (Rltb _ _); [lra|apply sqrt_pos]).
      replace (g + l) with 0 by lra. replace (100 * g) with 0 by lra. apply quot_0_0.
    + apply Req_false in Z. rewrite x_div by easy. f_equal. unfold Rdiv. ring.
  - now rewrite x_mul_nan_r, x_div_nan_l.
Qed.
Theorem relative_vol_range g l : 0 <= g -> 0 <= l -> g + l <> 0 -> 0 <= 100 * (g / (g + l)) <= 100.
Proof. apply mfi_range. Qed.

(** ** lrf of a series with a warm-up *)
(** The end point of the least-squares line through [ys] at positions 1, 2, ... *)
Definition lsq_end (ys : list R) (e : R) : Prop :=
  exists m b, e = m * INR (length ys) + b /\ forall m' b', (m', b') <> (m, b) -> sq_err m b ys < sq_err m' b' ys.
Lemma lsq_end_unique ys e e' : lsq_end ys e -> lsq_end ys e' -> e = e'.
Proof.
  intros (m & b & -> & H) (m' & b' & -> & H'). destruct (Req_dec m m') as [->|N]; [destruct (Req_dec b b') as [->|N]; [easy|]|].
  - specialize (H m' b'). specialize (H' m' b). assert (sq_err m' b ys < sq_err m' b' ys) by (apply H; congruence).
    assert (sq_err m' b' ys < sq_err m' b ys) by (apply H'; congruence). lra.
  - assert (sq_err m b ys < sq_err m' b' ys) by (apply H; congruence).
    assert (sq_err m' b' ys < sq_err m b ys) by (apply H'; congruence). lra.
Qed.
Lemma lrf_fold_nan (l : list (xr * xr)) a b : a = NaN ->
  fst (fold_left (fun '(ys, xys) '(count, val) => (fadd ys val, fadd xys (fmul count val))) l (a, b)) = NaN.
Proof.
  revert a b. induction l as [|[c v] l IH]; intros a b ->; [easy|]. cbn [fold_left]. apply IH. apply x_add_nan_l.
Qed.
Lemma windows_whole {A} w (l : list A) : (length l = w)%nat -> windows w l = [l].
Proof.
  intros <-. unfold windows. replace (length l + 1 - length l)%nat with 1%nat by lia. cbn [seq map skipn]. now rewrite firstn_all.
Qed.
Lemma lrf_form w : (2 <= w)%nat -> (N.of_nat w < 2 ^ 31)%N -> exists g : list xr -> xr,
  (forall data, lrf data w = Ok (pad (w - 1) NaN ++ map g (windows w data))) /\
  (forall x, length x = w -> nth_error x 0 = Some NaN -> g x = NaN) /\
  (forall ys, length ys = w -> exists e, g (map Fin ys) = Fin e /\ lsq_end ys e).
Proof.
  intros Hw Hb.
  assert (Hm : (N.of_nat w * N.of_nat (w + 1) < 2 ^ 64)%N).
  { change (2 ^ 64)%N with (2 ^ 32 * 2 ^ 32)%N. 
    apply N.le_lt_trans with ((2 ^ 31) * (2 ^ 31))%N; [apply N.mul_le_mono; lia|reflexivity]. }
  assert (L : forall data : list xr, exists g, lrf data w = Ok (pad (w - 1) NaN ++ map g (windows w data)) /\
     g = lrf_win (fdiv (fofN (N.of_nat w * N.of_nat (w + 1))) (flit 2 1))
        (fdiv (fmul (fdiv (fofN (N.of_nat w * N.of_nat (w + 1))) (flit 2 1)) (fofnat (2 * w + 1))) (flit 3 1))
        (fsub (fmul (fofnat w) (fdiv (fmul (fdiv (fofN (N.of_nat w * N.of_nat (w + 1))) (flit 2 1)) (fofnat (2 * w + 1))) (flit 3 1)))
          (fmul (fdiv (fofN (N.of_nat w * N.of_nat (w + 1))) (flit 2 1)) (fdiv (fofN (N.of_nat w * N.of_nat (w + 1))) (flit 2 1)))) w (map fofnat (seq 1 w))).
  { intros data. eexists. split; [|reflexivity]. unfold lrf, umul, two64. rewrite (proj2 (N.ltb_lt _ _) Hm). cbn [bind].
    unfold usub. rewrite (proj2 (Nat.leb_le 1 w)) by lia. cbn [bind]. unfold rwindows. rewrite (proj2 (Nat.eqb_neq w 0)) by lia. reflexivity. }
  clear Hm. destruct (L []) as (g & _ & Eg). exists g.
  assert (Lf : forall data, lrf data w = Ok (pad (w - 1) NaN ++ map g (windows w data))).
  { intros data. destruct (L data) as (g' & E & Eg'). rewrite Eg, <- Eg'. exact E. }
  clear L. split; [exact Lf|]. split.
  - intros x Lx Hx. rewrite Eg. unfold lrf_win. destruct x as [|a x]; [easy|]. injection Hx as ->. destruct w as [|w]; [easy|]. cbn [seq map combine fold_left].
    match goal with |- context [fold_left ?f ?l ?s] => assert (Q := lrf_fold_nan l (fadd (flit 0 1) NaN) (snd s) (x_add_nan_r _)); destruct (fold_left f l s) as [ys xys] eqn:EF end.
    cbn [snd] in Q. unfold fst in Q. rewrite EF in Q. cbn in Q. subst ys. now rewrite x_mul_nan_r, x_sub_nan_r, x_div_nan_l, x_mul_nan_l, x_add_nan_l.
  - intros ys Ly. destruct (lrf_real ys w Hw Hb) as (o & m & b & E & (_ & _ & V) & Q). rewrite Lf in E. injection E as <-.
    exists (m (w - 1)%nat * INR w + b (w - 1)%nat). specialize (V (w - 1)%nat ltac:(lia)).
    assert (Wn : windows w (map Fin ys) = [map Fin ys]) by (apply windows_whole; rewrite ?map_length; lia).
    rewrite Wn in V. cbn [map] in V. rewrite nth_error_app2 in V by (rewrite length_pad; lia). rewrite length_pad, Nat.sub_diag in V. injection V as V. split; [exact V|].
    exists (m (w - 1)%nat), (b (w - 1)%nat). split; [now rewrite Ly|]. specialize (Q (w - 1)%nat ltac:(lia)).
    assert (Wi : win w ys (w - 1) = ys) by (unfold win, range; replace (w - 1 + 1 - w)%nat with 0%nat by lia; cbn [skipn]; apply firstn_all2; lia).
    now rewrite Wi in Q.
Qed.
Lemma lrf_of_aligned data n k (f : nat -> R) w : aligned data n k NaN (fun i => Fin (f i)) -> (2 <= w)%nat -> (N.of_nat w < 2 ^ 31)%N -> (k + w - 1 <= n)%nat ->
  exists o (e : nat -> R), lrf data w = Ok o /\ aligned o n (k + w - 1) NaN (fun i => Fin (e i)) /\
  forall i, (k + w - 1 <= i)%nat -> lsq_end (last_bars w f i) (e i).
Proof.
  intros A Hw Hb Hn. destruct (lrf_form w Hw Hb) as (g & E & GN & GF). rewrite E.
  set (get := fun x : xr => match x with Fin r => r | _ => 0 end).
  exists (pad (w - 1) NaN ++ map g (windows w data)), (fun i => get (g (map Fin (last_bars w f i)))). split; [reflexivity|]. split.
  - generalize (windowed_of_aligned _ _ _ _ NaN _ w g A ltac:(lia) Hn GN). apply aligned_ext. intros i Hi.
    rewrite x_last_bars. destruct (GF (last_bars w f i) (length_last_bars _ _ _)) as (e & -> & _). reflexivity.
  - intros i Hi. destruct (GF (last_bars w f i) (length_last_bars _ _ _)) as (e & -> & Q). exact Q.
Qed.
(** [inertia]: the least-squares end value of the relative volatility. *)
Theorem inertia_real c n w sm : (2 <= w)%nat -> (2 <= sm)%nat -> (N.of_nat sm < 2 ^ 31)%N -> (2 * w - 2 + sm - 1 <= n)%nat ->
  let g i := wilder_from w (w - 1) (gain_dev w c) i in
  let l i := wilder_from w (w - 1) (loss_dev w c) i in
  (forall i, (2 * w - 2 <= i < n)%nat -> g i + l i <> 0) ->
  exists o (e : nat -> R), inertia (xseries c n) w sm = Ok o /\
  aligned o n (2 * w - 2 + sm - 1) NaN (fun i => Fin (e i)) /\
  forall i, (2 * w - 2 + sm - 1 <= i)%nat -> lsq_end (last_bars sm (fun k => 100 * (g k / (g k + l k))) i) (e i).
Proof.
  intros Hw Hs Hb Hn g l H. unfold inertia. destruct (relative_vol_real c n w w Hw ltac:(lia) ltac:(lia)) as (r & E & A). rewrite E. cbn [bind].
  replace (w + w - 2)%nat with (2 * w - 2)%nat in A by lia. apply lrf_of_aligned; [|easy|easy|lia]. revert A. apply aligned_ext. intros i Hi. cbv zeta.
  specialize (H i Hi). fold (g i) (l i). apply Req_false in H. now rewrite H.
Qed.
