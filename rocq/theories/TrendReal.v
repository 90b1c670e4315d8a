(** * TrendReal: what the indicators of trend.rs compute.

    First in any arithmetic, then in exact arithmetic. *)

From Coq Require Import Reals Lra Lia.
From Verif Require Import Spec BaseFacts Tac SmoothShape VolShape TrendShape MomShape XReal RSpec XRFacts SmoothVals SmoothReal SmoothReal2 Convex DistReal Select OrderStat Bars VolumeReal VolatReal Momentum MomReal.
Local Unset Implicit Arguments.

Section Generic.
  Context {F : Type} {FO : FOps F}.
  Local Open Scope F_scope.

  Lemma bar_pairs_series (h l c : nat -> F) n : (0 < n)%nat ->
    bar_pairs (series h n) (series l n) (series c n) = Ok (map (fun k => (h (k - 1)%nat, h k, l (k - 1)%nat, l k, c (k - 1)%nat)) (seq 1 (n - 1))).
  Proof.
    intros Hn. unfold bar_pairs. rewrite !length_series. unfold usub. rewrite (proj2 (Nat.leb_le 1 n)) by lia. cbn [bind].
    rewrite !slice_to_series, !slice_from_series by lia. cbn [bind]. unfold zip5, zip4, zip3.
    rewrite (shift_bars 1 h 0), (shift_bars 1 l 0), (shift_bars 1 c 0). cbn [plus]. rewrite !combine_bars, !Nat.min_id. reflexivity.
  Qed.

  (** ** shinohara: sums over the last [w] bars; the strong ratio takes the close
      sum of the bar before. *)
  Theorem shinohara_values (h l c : nat -> F) n w : (0 < w <= n)%nat ->
    exists o, shinohara (series h n) (series l n) (series c n) w = Ok o /\
    let H i := fsum (last_bars w h i) in let L i := fsum (last_bars w l i) in let C i := fsum (last_bars w c i) in
    aligned (map fst o) n w fnan (fun i => #100 * (H i - C (i - 1)%nat) / (C (i - 1)%nat - L i)) /\
    aligned (map snd o) n (w - 1) fnan (fun i => #100 * (H i - C i) / (C i - L i)).
  Proof.
    intros Hw. unfold shinohara. unfold series. rewrite !rwindows_bars by lia. cbn [bind]. rewrite !map_map. cbn [plus].
    rewrite !slice_from_bars by lia. cbn [bind]. rewrite map_length, seq_length. unfold usub at 1. rewrite (proj2 (Nat.leb_le 1 (n + 1 - w))) by lia. cbn [bind].
    rewrite slice_to_bars by lia. cbn [bind]. unfold usub. rewrite (proj2 (Nat.leb_le 1 w)) by lia. cbn [bind]. eexists. split; [reflexivity|]. cbv zeta.
    unfold zip3. rewrite (shift_bars 1 (fun x => fsum (last_bars w c x)) (w - 1) (n + 1 - w - 1)). replace (w - 1 + 1)%nat with w by lia.
    rewrite !combine_bars, !Nat.min_id, !map_map.
    replace (n + 1 - w - 1)%nat with (n - w)%nat by lia. replace (n + 1 - w)%nat with (n - (w - 1))%nat by lia.
    set (s := pad w fnan ++ _). set (t := pad (w - 1) fnan ++ _).
    assert (A : aligned s n w fnan (fun i => #100 * (fsum (last_bars w h i) - fsum (last_bars w c (i - 1))) / (fsum (last_bars w c (i - 1)) - fsum (last_bars w l i)))) by (apply aligned_bars; lia).
    assert (B : aligned t n (w - 1) fnan (fun i => #100 * (fsum (last_bars w h i) - fsum (last_bars w c i)) / (fsum (last_bars w c i) - fsum (last_bars w l i)))) by (apply aligned_bars; lia).
    assert (L : length s = length t) by (destruct A as [-> _], B as [-> _]; lia).
    rewrite map_fst_combine, map_snd_combine by lia. now split.
  Qed.

  (** ** vortex *)
  Lemma fold_triple (l : list (F * F * F)) a b c :
    fold_left (fun '(ap, an, at') '(p, n, t) => (ap + p, an + n, at' + t)) l (a, b, c) =
    (fold_left fadd (map (fun x => fst (fst x)) l) a, fold_left fadd (map (fun x => snd (fst x)) l) b, fold_left fadd (map snd l) c).
  Proof. revert a b c. induction l as [|[[p n] t] l IH]; intros; [easy|]. cbn [fold_left map fst snd]. apply IH. Qed.

  (** ** dpo: the price [w/2+1] bars ago against today's average *)
  Theorem dpo_values (d : nat -> F) n w mode m k (avg : nat -> F) : (3 <= w <= n)%nat -> ma (series d n) w (unwrap_or mode SMA) = Ok m ->
    aligned m n k fnan avg -> (k <= w - 1)%nat ->
    exists o, dpo (series d n) w mode = Ok o /\ aligned o n (w - 1) fnan (fun i => d (i - (w / 2 + 1))%nat - avg i).
  Proof.
    intros Hw E A Hk. unfold dpo. rewrite E. cbn [bind]. pose proof (Nat.div_mod w 2 ltac:(lia)). pose proof (Nat.mod_upper_bound w 2 ltac:(lia)).
    unfold usub. rewrite (proj2 (Nat.leb_le 1 w)), (proj2 (Nat.leb_le (w / 2 + 1) w)) by lia. cbn [bind].
    rewrite (proj2 (Nat.leb_le 1 (w - (w / 2 + 1)))) by lia. cbn [bind]. rewrite slice_from_series by lia. cbn [bind]. eexists. split; [reflexivity|].
    rewrite (aligned_is_series _ _ _ _ _ A) by lia. unfold series. rewrite skipn_bars. cbn [plus].
    rewrite (shift_bars (w / 2 + 1) d). replace (w - (w / 2 + 1) - 1 + (w / 2 + 1))%nat with (w - 1)%nat by lia. rewrite combine_bars, map_map.
    apply aligned_bars_ext; [lia|]. intros i Hi. destruct (Nat.ltb_spec i k); [lia|]. reflexivity.
  Qed.

  (** ** decay *)
  Theorem decay_values (data : list F) w : exists o, decay data w = Ok o /\ length o = length data /\
    forall i x, nth_error data i = Some x ->
    nth_error o i = Some (fmax (fmax ((match i with O => #0 | S j => nth j o fnan end) - #1 / fofnat w) x) #0).
  Proof.
    eexists. split; [reflexivity|]. split; [apply length_scan|].
    assert (G : forall data z i x, nth_error data i = Some x -> nth_error (scan (decay_step w) z data) i =
       Some (fmax (fmax ((match i with O => z | S j => nth j (scan (decay_step w) z data) fnan end) - #1 / fofnat w) x) #0)).
    { clear data. induction data as [|y data IH]; intros z i x Hx; [now destruct i|]. destruct i as [|i].
      - injection Hx as ->. reflexivity.
      - cbn [nth_error] in Hx. cbn [scan decay_step nth_error]. rewrite (IH _ i x Hx). destruct i; reflexivity. }
    intros i x Hx. apply G. exact Hx.
  Qed.
End Generic.

Local Open Scope R_scope.

(** ** adx *)
(** Upward and downward directional movement of bar [k]. *)
Definition plus_dm (h l : nat -> R) (k : nat) : R :=
  if Rltb (l (k - 1)%nat - l k) (h k - h (k - 1)%nat) then Rmax 0 (h k - h (k - 1)%nat) else 0.
Definition minus_dm (h l : nat -> R) (k : nat) : R :=
  if Rltb (h k - h (k - 1)%nat) (l (k - 1)%nat - l k) then Rmax 0 (l (k - 1)%nat - l k) else 0.
(** Directional index: smoothed movement in percent of the smoothed true range. *)
Definition di (w : nat) (dm tr : nat -> R) (i : nat) : R := 100 * (wilder_from w 1 dm i / wilder_from w 1 tr i).

Theorem adx_real h l c n w s : (0 < w)%nat -> (0 < s)%nat -> (w + s <= n)%nat -> (forall k, (k < n)%nat -> l k <= c k <= h k) ->
  let tr := true_range_of h l c in
  let p := di w (plus_dm h l) tr in let m := di w (minus_dm h l) tr in
  (forall i, (w <= i < n)%nat -> wilder_from w 1 tr i <> 0 /\ p i + m i <> 0) ->
  exists o, adx (xseries h n) (xseries l n) (xseries c n) w s = Ok o /\
  aligned (map (fun '(x, _, _) => x) o) n w NaN (fun i => Fin (p i)) /\
  aligned (map (fun '(_, x, _) => x) o) n w NaN (fun i => Fin (m i)) /\
  aligned (map (fun '(_, _, x) => x) o) n (w + s - 1) NaN (fun i => Fin (wilder_from s w (fun k => 100 * (Rabs (p k - m k) / (p k + m k))) i)).
Proof.
  intros Hw Hs Hn H tr p m NZ. unfold adx, xseries. rewrite bar_pairs_series by lia. cbn [bind]. rewrite !map_map.
  rewrite (map_ext_in (fun x => bar_tr _) (fun i => Fin (tr i))).
  2:{ intros k Hk. apply in_seq in Hk. apply (x_tr_at h l c). specialize (H k ltac:(lia)). lra. }
  rewrite (map_ext (fun x => dm_pos _) (fun i => Fin (plus_dm h l i))) by (intros k; unfold dm_pos, fgtb; rewrite !x_sub, x_ltb, x_lit, x_max; unfold plus_dm; destruct (Rltb _ _); reflexivity).
  rewrite (map_ext (fun x => dm_neg _) (fun i => Fin (minus_dm h l i))) by (intros k; unfold dm_neg, fgtb; rewrite !x_sub, x_ltb, x_lit, x_max; unfold minus_dm; destruct (Rltb _ _); reflexivity).
  destruct (wilder_from_at tr w 1 (n - 1)) as (a & E1 & A1); [lia|]. rewrite E1. cbn [bind].
  destruct (wilder_from_at (plus_dm h l) w 1 (n - 1)) as (wp & E2 & A2); [lia|]. rewrite E2. cbn [bind].
  destruct (wilder_from_at (minus_dm h l) w 1 (n - 1)) as (wn & E3 & A3); [lia|]. rewrite E3. cbn [bind].
  unfold usub. rewrite (proj2 (Nat.leb_le 1 w)) by lia. cbn [bind].
  assert (DI : forall wx dm, aligned wx (n - 1) (w - 1) NaN (fun i => Fin (wilder_from w 1 dm (1 + i))) -> 
     aligned (map di_ratio (combine wx a)) (n - 1) (w - 1) NaN (fun i => Fin (di w dm tr (1 + i)))).
  { intros wx dm A. pose proof (aligned_pair_same _ _ _ _ _ _ NaN _ _ di_ratio A A1 ltac:(lia)) as Q. refine (aligned_ext _ (Q _)).
    - intros i Hi. unfold di_ratio. destruct (NZ (1 + i)%nat ltac:(lia)) as [N1 _]. rewrite x_div, x_lit, x_mul by exact N1. f_equal. unfold di. ring.
    - unfold di_ratio. now rewrite x_div_nan_l, x_mul_nan_l. }
  pose proof (DI _ _ A2) as DP. pose proof (DI _ _ A3) as DN. change (aligned (map di_ratio (combine wp a)) (n - 1) (w - 1) NaN (fun i => Fin (p (1 + i)%nat))) in DP.
  change (aligned (map di_ratio (combine wn a)) (n - 1) (w - 1) NaN (fun i => Fin (m (1 + i)%nat))) in DN.
  rewrite (slice_from_aligned _ _ _ _ _ DP), (slice_from_aligned _ _ _ _ _ DN). cbn [bind]. rewrite combine_bars, map_map, Nat.min_id.
  set (dx := fun k => 100 * (Rabs (p k - m k) / (p k + m k))).
  assert (DX : map (fun x => dx_ratio (Fin (p (1 + x)%nat), Fin (m (1 + x)%nat))) (seq (w - 1) (n - 1 - (w - 1))) = map (fun k => Fin (dx k)) (seq w (n - w))).
  { rewrite (shift_bars 1). replace (w - 1 + 1)%nat with w by lia. replace (n - 1 - (w - 1))%nat with (n - w)%nat by lia. apply map_ext_in. intros i Hi. apply in_seq in Hi.
    replace (1 + (i - 1))%nat with i by lia. unfold dx_ratio. destruct (NZ i ltac:(lia)) as [_ N2]. rewrite x_sub, x_abs, x_add, x_div, x_lit, x_mul by exact N2. f_equal. unfold dx. ring. }
  rewrite DX. destruct (wilder_from_at dx s w (n - w)) as (d & E4 & A4); [lia|]. rewrite E4. cbn [bind]. eexists. split; [reflexivity|].
  assert (A5 : aligned (pad (w - 1) fnan ++ d) (n - 1) (w + s - 2) NaN (fun i => Fin (wilder_from s w dx (1 + i)))).
  { replace (w + s - 2)%nat with (s - 1 + (w - 1))%nat by lia. apply (aligned_shift d); [lia|]. replace (n - 1 - (w - 1))%nat with (n - w)%nat by lia. revert A4. apply aligned_ext. intros i Hi. do 2 f_equal. lia. }
  set (P := map di_ratio (combine wp a)) in *. set (M := map di_ratio (combine wn a)) in *. set (D := pad (w - 1) fnan ++ d) in *. cbn [map].
  assert (LP : length P = (n - 1)%nat) by (destruct DP as [-> _]; lia). assert (LM : length M = (n - 1)%nat) by (destruct DN as [-> _]; lia). assert (LD : length D = (n - 1)%nat) by (destruct A5 as [-> _]; lia).
  assert (Z1 : map (fun '(x, _, _) => x) (zip3 P M D) = P).
  { unfold zip3. rewrite (map_ext (fun '(x, _, _) => x) (fun q => fst (fst q))) by (now intros [[]]). rewrite <- (map_map fst fst), !map_fst_combine; rewrite ?map_fst_combine, ?combine_length; lia || easy. }
  assert (Z2 : map (fun '(_, x, _) => x) (zip3 P M D) = M).
  { unfold zip3. rewrite (map_ext (fun '(_, x, _) => x) (fun q => snd (fst q))) by (now intros [[]]). rewrite <- (map_map fst snd), map_fst_combine, map_snd_combine; rewrite ?combine_length; lia || easy. }
  assert (Z3 : map (fun '(_, _, x) => x) (zip3 P M D) = D).
  { unfold zip3. rewrite (map_ext (fun '(_, _, x) => x) (fun q => snd q)) by (now intros [[]]). rewrite map_snd_combine; rewrite ?combine_length; lia || easy. }
  rewrite Z1, Z2, Z3. split; [|split].
  - replace w with (S (w - 1)) at 1 by lia. apply aligned_shift1; [lia|]. exact DP.
  - replace w with (S (w - 1)) at 1 by lia. apply aligned_shift1; [lia|]. exact DN.
  - replace (w + s - 1)%nat with (S (w + s - 2)) by lia. apply aligned_shift1; [lia|]. exact A5.
Qed.

Lemma plus_dm_bounds h l c k : (1 <= k)%nat -> l k <= c k <= h k -> l (k - 1)%nat <= c (k - 1)%nat <= h (k - 1)%nat -> 0 <= plus_dm h l k <= true_range_of h l c k.
Proof. intros Hk H1 H0. unfold plus_dm, true_range_of, Rmax, Rmin. destruct (Rltb _ _); repeat destruct (Rle_dec _ _); lra. Qed.
Lemma minus_dm_bounds h l c k : (1 <= k)%nat -> l k <= c k <= h k -> l (k - 1)%nat <= c (k - 1)%nat <= h (k - 1)%nat -> 0 <= minus_dm h l k <= true_range_of h l c k.
Proof. intros Hk H1 H0. unfold minus_dm, true_range_of, Rmax, Rmin. destruct (Rltb _ _); repeat destruct (Rle_dec _ _); lra. Qed.
(** At most one of the two is non-zero. *)
Theorem dm_exclusive h l k : plus_dm h l k = 0 \/ minus_dm h l k = 0.
Proof. unfold plus_dm, minus_dm. destruct (Rltb _ _) eqn:E1; [|now left]. destruct (Rltb (h k - _) _) eqn:E2; [|now right]. apply Rltb_true in E1, E2. lra. Qed.
Lemma wilder_from_le w k f g i : (0 < w)%nat -> (forall j, (k <= j <= i)%nat -> f j <= g j) -> (k + w - 1 <= i)%nat -> wilder_from w k f i <= wilder_from w k g i.
Proof.
  intros Hw H Hi. unfold wilder_from. apply ema_le; [now apply wilder_weight| |apply Forall2_map_le; intros j Hj; apply in_seq in Hj; apply H; lia].
  apply mean_le. intros j Hj. apply in_seq in Hj. apply H. lia.
Qed.
(** +DI and -DI lie in [0, 100], and so does the ADX. *)
Theorem di_range h l c w i : (0 < w <= i)%nat -> (forall k, (k <= i)%nat -> l k <= c k <= h k) -> wilder_from w 1 (true_range_of h l c) i <> 0 ->
  0 <= di w (plus_dm h l) (true_range_of h l c) i <= 100 /\ 0 <= di w (minus_dm h l) (true_range_of h l c) i <= 100.
Proof.
  intros Hw H NZ. set (tr := true_range_of h l c) in *.
  assert (G : forall dm, (forall k, (1 <= k <= i)%nat -> 0 <= dm k <= tr k) -> 0 <= di w dm tr i <= 100).
  { intros dm B. unfold di. assert (0 <= wilder_from w 1 dm i / wilder_from w 1 tr i <= 1); [|lra]. apply part_range; [|easy]. split.
    - replace 0 with (wilder_from w 1 (fun _ => 0) i).
      + apply wilder_from_le; [lia| |lia]. intros j Hj. apply B. lia.
      + assert (0 <= wilder_from w 1 (fun _ => 0) i <= 0); [|lra]. apply wilder_from_bounds; [lia|lia|]. intros; lra.
    - apply wilder_from_le; [lia| |lia]. intros j Hj. apply B. lia. }
  split; apply G; intros k Hk; [apply plus_dm_bounds|apply minus_dm_bounds]; try lia; apply H; lia.
Qed.
Theorem adx_range h l c w s i : (0 < w)%nat -> (0 < s)%nat -> (w + s - 1 <= i)%nat -> (forall k, (k <= i)%nat -> l k <= c k <= h k) ->
  let tr := true_range_of h l c in
  let p := di w (plus_dm h l) tr in let m := di w (minus_dm h l) tr in
  (forall k, (w <= k <= i)%nat -> wilder_from w 1 tr k <> 0 /\ p k + m k <> 0) ->
  0 <= wilder_from s w (fun k => 100 * (Rabs (p k - m k) / (p k + m k))) i <= 100.
Proof.
  intros Hw Hs Hi H tr p m NZ. apply wilder_from_bounds; [easy|lia|]. intros k Hk. destruct (NZ k Hk) as [N1 N2].
  destruct (di_range h l c w k ltac:(lia) ltac:(intros; apply H; lia) N1) as [P M]. fold tr in P, M. fold p in P. fold m in M. change (di w (plus_dm h l) tr k) with (p k) in P. change (di w (minus_dm h l) tr k) with (m k) in M.
  assert (0 <= Rabs (p k - m k) / (p k + m k) <= 1); [|lra]. apply part_range; [|easy]. split; [apply Rabs_pos|]. unfold Rabs. destruct (Rcase_abs _); lra.
Qed.

(** ** vortex *)
Theorem vortex_real h l c n w : (0 < w)%nat -> (0 < n)%nat -> (forall k, (k < n)%nat -> l k <= h k) ->
  let tr i := Rsum (last_bars w (true_range_of h l c) i) in
  (forall i, (w <= i < n)%nat -> tr i <> 0) ->
  exists o, vortex (xseries h n) (xseries l n) (xseries c n) w = Ok o /\
  aligned o n w (NaN, NaN) (fun i =>
    (Fin (Rsum (last_bars w (fun k => Rabs (h k - l (k - 1)%nat)) i) / tr i), Fin (Rsum (last_bars w (fun k => Rabs (l k - h (k - 1)%nat)) i) / tr i))).
Proof.
  intros Hw Hn H tr NZ. unfold vortex, xseries. rewrite bar_pairs_series by easy. cbn [bind]. rewrite map_map.
  rewrite (map_ext_in (fun x => vortex_bar _) (fun k => (Fin (Rabs (h k - l (k - 1)%nat)), Fin (Rabs (l k - h (k - 1)%nat)), Fin (true_range_of h l c k)))).
  2:{ intros k Hk. apply in_seq in Hk. unfold vortex_bar. rewrite !x_sub, !x_abs. f_equal. apply (x_tr_at h l c). apply H. lia. }
  rewrite rwindows_bars by easy. cbn [bind]. eexists. split; [reflexivity|]. replace (1 + w - 1)%nat with w by lia. rewrite map_map.
  apply aligned_bars_ext; [lia|]. intros i Hi. unfold vortex_win. specialize (NZ i Hi). unfold tr in *. clear tr.
  unfold last_bars in *. destruct w as [|w]; [lia|]. cbn [seq map] in *. rewrite fold_triple, !map_map. cbn [fst snd].
  assert (FS : forall (g : nat -> R) a ks, fold_left fadd (map (fun k => Fin (g k)) ks) (Fin a) = Fin (a + Rsum (map g ks))).
  { intros g a ks. revert a. induction ks as [|k ks IH]; intros a; cbn [map fold_left]; [f_equal; rewrite Rsum_nil; ring|]. rewrite x_add, IH, Rsum_cons. f_equal. ring. }
  rewrite !FS, !Rsum_cons in *. rewrite !x_div by exact NZ. reflexivity.
Qed.
Theorem vortex_nonneg h l c w i : (0 < w <= i)%nat -> (forall k, (k <= i)%nat -> l k <= h k) ->
  let tr := Rsum (last_bars w (true_range_of h l c) i) in tr <> 0 ->
  0 <= Rsum (last_bars w (fun k => Rabs (h k - l (k - 1)%nat)) i) / tr /\ 0 <= Rsum (last_bars w (fun k => Rabs (l k - h (k - 1)%nat)) i) / tr.
Proof.
  intros Hw H tr NZ. assert (0 <= tr). { apply Rsum_nonneg. intros x Hx. apply In_last_bars in Hx as (k & K1 & K2 & ->); [|lia]. pose proof (true_range_ge h l c k (H k K1)). lra. }
  split; (apply Rdiv_nonneg; [apply Rsum_nonneg; intros x Hx; apply In_last_bars in Hx as (k & K1 & K2 & ->); [apply Rabs_pos|lia]|lra]).
Qed.

(** ** ulcer *)
Theorem ulcer_real d n w : (0 < w)%nat -> (2 * (w - 1) <= n)%nat -> (forall k, (k < n)%nat -> 0 < d k) ->
  exists o, ulcer (xseries d n) w = Ok o /\
  aligned o n (2 * (w - 1)) NaN (fun i => Fin (sqrt (mean (last_bars w (fun k => (100 * (d k - highest w d k) / highest w d k) ^ 2) i)))).
Proof.
  intros Hw Hn H. unfold ulcer, xseries, series. rewrite rwindows_bars by easy. cbn [bind]. unfold usub. rewrite (proj2 (Nat.leb_le 1 w)) by lia. cbn [bind plus].
  rewrite map_map, skipn_bars. cbn [plus]. replace (n + 1 - w)%nat with (n - (w - 1))%nat by lia. rewrite combine_bars, Nat.min_id, map_map.
  pose (g := fun k => (100 * (d k - highest w d k) / highest w d k) ^ 2). rewrite (map_ext_in (fun x => ulcer_dd _) (fun k => Fin (g k))).
  2:{ intros k Hk. apply in_seq in Hk. unfold ulcer_dd. rewrite x_highest by easy. destruct (highest_spec w d k ltac:(lia)) as [(j & J1 & J2 & J) _].
      assert (0 < highest w d k) by (rewrite J; apply H; lia). rewrite x_lit, x_sub, x_mul, x_div, x_pow2 by lra. reflexivity. }
  destruct (sma_from g w (w - 1) (n - (w - 1)) Hw) as (o & E & A). rewrite E. cbn [bind]. eexists. split; [reflexivity|].
  replace (2 * (w - 1))%nat with (w - 1 + (w - 1))%nat by lia.
  apply (aligned_from_start _ n (w - 1) (w - 1) NaN (fun i => Fin (sqrt (mean (last_bars w g i)))) ltac:(lia)).
  assert (M : forall i, (w <= i + 1)%nat -> 0 <= mean (last_bars w g i)).
  { intros i Hi. apply mean_nonneg. intros x Hx. apply In_last_bars in Hx as (k & _ & _ & ->); [|lia]. apply pow2_ge_0. }
  refine (aligned_ext _ (aligned_map _ _ _ _ NaN _ fsqrt A eq_refl)). intros i Hi. cbv beta. apply x_sqrt. apply M. lia.
Qed.

(** ** dpo *)
Theorem dpo_real d n w : (3 <= w <= n)%nat -> exists o, dpo (xseries d n) w None = Ok o /\
  aligned o n (w - 1) NaN (fun i => Fin (d (i - (w / 2 + 1))%nat - mean (last_bars w d i))).
Proof.
  intros Hw. destruct (sma_from d w 0 n ltac:(lia)) as (m & E & A).
  destruct (dpo_values (fun k => Fin (d k)) n w None m (w - 1) _ Hw E A ltac:(lia)) as (o & E2 & A2). exists o. split; [exact E2|].
  revert A2. apply aligned_ext. intros i Hi. cbn [plus]. now rewrite x_sub.
Qed.

(** ** decay *)
Theorem decay_real d n w : (0 < w)%nat -> exists y : nat -> R, decay (xseries d n) w = Ok (xseries (fun i => y (S i)) n) /\ y 0%nat = 0 /\
  forall i, y (S i) = Rmax (Rmax (y i - 1 / INR w) (d i)) 0.
Proof.
  intros Hw. destruct (iterate_bars (fun i y => Rmax (Rmax (y - 1 / INR w) (d i)) 0) 0 0) as (y & Y0 & YS). exists y. split; [|split; [exact Y0|intros; apply YS; lia]].
  unfold decay. f_equal. unfold xseries, series. apply (scan_inv_bars _ (fun i => Fin (y i))); [now rewrite Y0, x_lit|].
  intros i Hi. unfold decay_step. rewrite x_nat, x_lit, x_div by now apply INR_neq0. rewrite x_sub, x_lit, !x_max. now rewrite YS by lia.
Qed.
(** Never below the data, never below zero, never down by more than [1/w]; and
    otherwise it only moves up to meet the data. *)
Theorem decay_props d w (y : nat -> R) i : (0 < w)%nat -> y (S i) = Rmax (Rmax (y i - 1 / INR w) (d i)) 0 ->
  d i <= y (S i) /\ 0 <= y (S i) /\ y i - 1 / INR w <= y (S i) /\ (y (S i) = d i \/ y (S i) = y i - 1 / INR w \/ y (S i) = 0).
Proof. intros Hw E. rewrite !E. unfold Rmax. repeat destruct (Rle_dec _ _); repeat split; try lra; auto. Qed.

Lemma x_nan_ltb_l x : fltb NaN x = false.
Proof. reflexivity. Qed.
Lemma x_nan_ltb_r x : fltb x NaN = false.
Proof. now destruct x as [|[]|]. Qed.

(** ** aroon *)
Lemma arg_last_gen (better : xr -> xr -> bool) (gt : R -> R -> Prop) (f : nat -> R) :
  (forall a b, better (Fin a) (Fin b) = true <-> ~ gt b a) ->
  (forall a b, gt a b -> ~ gt b a) -> (forall a b c, ~ gt a b -> ~ gt b c -> ~ gt a c) ->
  forall m, (0 < m)%nat -> let r := arg_last better (map (fun k => Fin (f k)) (seq 0 m)) in
  (r < m)%nat /\ (forall k, (k < m)%nat -> ~ gt (f k) (f r)) /\ (forall k, (r < k < m)%nat -> gt (f r) (f k)).
Proof.
  intros B AS TR m Hm. unfold arg_last. rewrite enumerate_bars. replace (at_ (map (fun k => Fin (f k)) (seq 0 m)) 0) with (Fin (f 0%nat)) by (destruct m; [lia|reflexivity]).
  assert (IRR : forall a, ~ gt a a) by (intros a Z; exact (AS _ _ Z Z)).
  assert (G : forall j, exists r, fold_left (fun '(bi, bx) '(i, x) => if better x bx then (i, x) else (bi, bx)) (map (fun k => (k, Fin (f k))) (seq 0 j)) (0%nat, Fin (f 0%nat)) = (r, Fin (f r)) /\
     ((0 < j)%nat -> (r < j)%nat /\ (forall k, (k < j)%nat -> ~ gt (f k) (f r)) /\ (forall k, (r < k < j)%nat -> gt (f r) (f k)))).
  { induction j as [|j (r & E & IH)]; [exists 0%nat; now split|]. rewrite seq_S, map_app, fold_left_app, E. cbn [map fold_left plus].
    destruct (better (Fin (f j)) (Fin (f r))) eqn:C.
    - exists j. split; [easy|]. intros _. rewrite B in C. split; [lia|]. split; [|lia]. intros k Hk. destruct (Nat.eq_dec k j) as [->|]; [apply IRR|]. destruct j as [|j]; [lia|]. destruct (IH ltac:(lia)) as (_ & I2 & _). apply TR with (f r); [apply I2; lia|exact C].
    - assert (C' : gt (f r) (f j)). { destruct (Classical_Prop.classic (gt (f r) (f j))) as [|N]; [easy|]. apply B in N. congruence. }
      exists r. split; [easy|]. intros _. destruct j as [|j].
      + cbn [seq map fold_left] in E. injection E as E. subst r. now apply IRR in C'.
      + destruct (IH ltac:(lia)) as (I1 & I2 & I3). split; [lia|]. split.
        * intros k Hk. destruct (Nat.eq_dec k (S j)) as [->|]; [now apply AS|apply I2; lia].
        * intros k Hk. destruct (Nat.eq_dec k (S j)) as [->|]; [easy|apply I3; lia]. }
  destruct (G m) as (r & E & H). rewrite E. cbn [fst]. now apply H.
Qed.
Lemma arg_last_max (f : nat -> R) m : (0 < m)%nat -> let r := arg_last fgeb (map (fun k => Fin (f k)) (seq 0 m)) in
  (r < m)%nat /\ (forall k, (k < m)%nat -> f k <= f r) /\ (forall k, (r < k < m)%nat -> f k < f r).
Proof.
  intros Hm r. destruct (arg_last_gen fgeb (fun a b => a > b) f) with (m := m) as (A & B & C); try easy; try (intros; lra).
  - intros a b. unfold fgeb. rewrite x_leb, Rleb_true. split; lra.
  - repeat split; [exact A|intros k Hk; specialize (B k Hk); fold r in B; lra|intros k Hk; specialize (C k Hk); fold r in C; lra].
Qed.
Lemma arg_last_min (f : nat -> R) m : (0 < m)%nat -> let r := arg_last fleb (map (fun k => Fin (f k)) (seq 0 m)) in
  (r < m)%nat /\ (forall k, (k < m)%nat -> f r <= f k) /\ (forall k, (r < k < m)%nat -> f r < f k).
Proof.
  intros Hm r. destruct (arg_last_gen fleb (fun a b => a < b) f) with (m := m) as (A & B & C); try easy; try (intros; lra).
  - intros a b. rewrite x_leb, Rleb_true. split; lra.
  - repeat split; [exact A|intros k Hk; specialize (B k Hk); fold r in B; lra|intros k Hk; specialize (C k Hk); fold r in C; lra].
Qed.
(** [b] bars before bar [i] is the latest maximum (minimum) of the bars [i-w], ..., [i]. *)
Definition latest_high (w : nat) (h : nat -> R) (i b : nat) : Prop :=
  (b <= w)%nat /\ (forall d, (d <= w)%nat -> h (i - d)%nat <= h (i - b)%nat) /\ (forall d, (d < b)%nat -> h (i - d)%nat < h (i - b)%nat).
Definition latest_low (w : nat) (l : nat -> R) (i b : nat) : Prop :=
  (b <= w)%nat /\ (forall d, (d <= w)%nat -> l (i - b)%nat <= l (i - d)%nat) /\ (forall d, (d < b)%nat -> l (i - b)%nat < l (i - d)%nat).
Theorem aroon_real h l n w : (0 < w)%nat -> exists o (u d : nat -> nat), aroon (xseries h n) (xseries l n) w = Ok o /\
  aligned o n w (NaN, NaN) (fun i => (Fin (100 * (INR (w - u i) / INR w)), Fin (100 * (INR (w - d i) / INR w)))) /\
  forall i, (w <= i < n)%nat -> latest_high w h i (u i) /\ latest_low w l i (d i).
Proof.
  intros Hw. pose (r1 := fun i => arg_last fgeb (map (fun k => Fin (h (i - w + k)%nat)) (seq 0 (w + 1)))).
  pose (r2 := fun i => arg_last fleb (map (fun k => Fin (l (i - w + k)%nat)) (seq 0 (w + 1)))).
  eexists _, (fun i => w - r1 i)%nat, (fun i => w - r2 i)%nat. split; [reflexivity|].
  assert (B1 : forall i, (r1 i <= w)%nat). { intros i. destruct (arg_last_max (fun k => h (i - w + k)%nat) (w + 1) ltac:(lia)) as (A & _). fold (r1 i) in A. lia. }
  assert (B2 : forall i, (r2 i <= w)%nat). { intros i. destruct (arg_last_min (fun k => l (i - w + k)%nat) (w + 1) ltac:(lia)) as (A & _). fold (r2 i) in A. lia. }
  split.
  - unfold xseries, series. rewrite !windows_bars by lia. rewrite combine_bars, Nat.min_id, map_map. replace (0 + (w + 1) - 1)%nat with w by lia.
    apply aligned_bars_ext; [lia|]. intros i Hi. unfold aroon_win.
    assert (LB : forall f : nat -> R, last_bars (w + 1) (fun k => Fin (f k)) i = map (fun k => Fin (f (i - w + k)%nat)) (seq 0 (w + 1))).
    { intros f. unfold last_bars. rewrite (shift_bars (i - w) (fun k => Fin (f (i - w + k)%nat)) 0). cbn [plus]. replace (i + 1 - (w + 1))%nat with (i - w)%nat by lia. apply map_ext_in. intros k Hk. apply in_seq in Hk. do 2 f_equal. lia. }
    rewrite !LB. fold (r1 i). fold (r2 i). rewrite !x_nat, !x_lit, !x_div, !x_mul by now apply INR_neq0.
    specialize (B1 i). specialize (B2 i). replace (w - (w - r1 i))%nat with (r1 i) by lia. replace (w - (w - r2 i))%nat with (r2 i) by lia. do 2 f_equal; ring.
  - intros i Hi. split.
    + destruct (arg_last_max (fun k => h (i - w + k)%nat) (w + 1) ltac:(lia)) as (_ & M & L). fold (r1 i) in M, L. specialize (B1 i). split; [lia|]. split; intros d Hd.
      * specialize (M (w - d)%nat ltac:(lia)). replace (i - w + (w - d))%nat with (i - d)%nat in M by lia. replace (i - (w - r1 i))%nat with (i - w + r1 i)%nat by lia. exact M.
      * specialize (L (w - d)%nat ltac:(lia)). replace (i - w + (w - d))%nat with (i - d)%nat in L by lia. replace (i - (w - r1 i))%nat with (i - w + r1 i)%nat by lia. exact L.
    + destruct (arg_last_min (fun k => l (i - w + k)%nat) (w + 1) ltac:(lia)) as (_ & M & L). fold (r2 i) in M, L. specialize (B2 i). split; [lia|]. split; intros d Hd.
      * specialize (M (w - d)%nat ltac:(lia)). replace (i - w + (w - d))%nat with (i - d)%nat in M by lia. replace (i - (w - r2 i))%nat with (i - w + r2 i)%nat by lia. exact M.
      * specialize (L (w - d)%nat ltac:(lia)). replace (i - w + (w - d))%nat with (i - d)%nat in L by lia. replace (i - (w - r2 i))%nat with (i - w + r2 i)%nat by lia. exact L.
Qed.
Theorem aroon_range w b : (0 < w)%nat -> (b <= w)%nat -> 0 <= 100 * (INR (w - b) / INR w) <= 100.
Proof. intros Hw Hb. assert (0 <= INR (w - b) / INR w <= 1); [|lra]. apply part_range; [|now apply INR_neq0]. split; [apply pos_INR|apply le_INR; lia]. Qed.
Theorem latest_high_unique w h i a b : latest_high w h i a -> latest_high w h i b -> a = b.
Proof.
  intros (A1 & A2 & A3) (B1 & B2 & B3). destruct (Nat.lt_trichotomy a b) as [Z|[Z|Z]]; [|easy|].
  - specialize (B3 a Z). specialize (A2 b B1). lra.
  - specialize (A3 b Z). specialize (B2 a A1). lra.
Qed.

(** ** chandelier and cks *)
Theorem chandelier_real h l c n w mult : (0 < w < n)%nat -> (forall k, (k < n)%nat -> l k <= h k) ->
  exists o, chandelier (xseries h n) (xseries l n) (xseries c n) w (option_map Fin mult) = Ok o /\
  aligned o n w (NaN, NaN) (fun i => let d := unwrap_or mult 3 * wilder_from w 1 (true_range_of h l c) i in (Fin (highest w h i - d), Fin (lowest w l i + d))).
Proof.
  intros Hw H. unfold chandelier. destruct (atr_real h l c n w Hw H) as (a & E & A). rewrite E.
  unfold xseries, series. rewrite !rwindows_bars by lia. cbn [bind]. eexists. split; [reflexivity|].
  rewrite (skipn_aligned _ _ _ _ _ A), !skipn_bars. replace (0 + w - 1 + 1)%nat with w by lia. unfold zip3. rewrite !combine_bars, map_map. apply aligned_bars_ext; [lia|].
  intros i Hi. unfold stop_win. rewrite x_highest, x_lowest by lia.
  replace (unwrap_or (option_map Fin mult) _) with (Fin (unwrap_or mult 3)) by (destruct mult; cbn [option_map unwrap_or]; [easy|now rewrite x_lit]).
  rewrite x_mul, x_sub, x_add. reflexivity.
Qed.
(** [cks]: the best first-pass stop of the last [q] bars, but never below zero (above f64::MAX). *)
Theorem cks_real h l c n p q mult : (0 < p < n)%nat -> (0 < q)%nat -> (forall k, (k < n)%nat -> l k <= h k) ->
  let d i := unwrap_or mult 1 * wilder_from p 1 (true_range_of h l c) i in
  exists o, cks (xseries h n) (xseries l n) (xseries c n) p q (option_map Fin mult) = Ok o /\
  aligned o n (p + q - 1) (NaN, NaN) (fun i =>
    (Fin (Rmax 0 (highest q (fun k => highest p h k - d k) i)), Fin (Rmin max_f64 (lowest q (fun k => lowest p l k + d k) i)))).
Proof.
  intros Hp Hq H d. unfold cks. unfold usub. rewrite (proj2 (Nat.leb_le 1 q)) by lia. cbn [bind]. destruct (atr_real h l c n p Hp H) as (a & E & A). rewrite E.
  unfold xseries. rewrite !slice_from_series by lia. cbn [bind]. rewrite !rwindows_bars by lia. cbn [bind].
  rewrite (skipn_aligned _ _ _ _ _ A). replace (1 + p - 1)%nat with p by lia. unfold zip3. rewrite !combine_bars, map_map.
  rewrite (map_ext (fun x => stop_win _ _) (fun k => (Fin (highest p h k - d k), Fin (lowest p l k + d k)))).
  2:{ intros i. unfold stop_win. rewrite x_highest, x_lowest by lia.
      replace (unwrap_or (option_map Fin mult) _) with (Fin (unwrap_or mult 1)) by (destruct mult; cbn [option_map unwrap_or]; [easy|now rewrite x_lit]).
      rewrite x_mul, x_sub, x_add. reflexivity. }
  rewrite rwindows_bars by lia. cbn [bind]. eexists. split; [reflexivity|]. rewrite map_map. replace (p + (q - 1))%nat with (p + q - 1)%nat by lia.
  apply aligned_bars_ext; [lia|]. intros i Hi. unfold cks_win.
  assert (G : forall ks (f g : nat -> R) x y, fold_left (fun '(hh, ll) '(h0, l0) => (fmax hh h0, fmin ll l0)) (map (fun k => (Fin (f k), Fin (g k))) ks) (Fin x, Fin y) = (Fin (fold_left Rmax (map f ks) x), Fin (fold_left Rmin (map g ks) y))).
  { induction ks as [|k ks IH]; intros; [easy|]. cbn [map fold_left]. rewrite x_max, x_min. apply IH. }
  unfold last_bars at 1. change (@fmaxval xr XR) with (Fin max_f64). rewrite x_lit, G. fold (last_bars q (fun k => highest p h k - d k) i). fold (last_bars q (fun k => lowest p l k + d k) i).
  rewrite fold_Rmax_list, fold_Rmin_list by (apply last_bars_nonempty; lia). reflexivity.
Qed.

(** ** supertrend *)
Theorem supertrend_real h l c n w m : (0 < w < n)%nat -> (forall k, (k < n)%nat -> l k <= h k) ->
  let bl i := (h i + l i) / 2 - m * wilder_from w 1 (true_range_of h l c) i in
  let bu i := (h i + l i) / 2 + m * wilder_from w 1 (true_range_of h l c) i in
  exists o (lo up : nat -> R) (rising : nat -> bool), supertrend (xseries h n) (xseries l n) (xseries c n) w (Fin m) = Ok o /\
  aligned o n w NaN (fun i => Fin (if rising i then lo i else up i)) /\
  lo w = bl w /\ up w = bu w /\ rising w = true /\
  forall i, (w <= i)%nat ->
    lo (S i) = (if Rltb (lo i) (c i) then Rmax (lo i) (bl (S i)) else bl (S i)) /\
    up (S i) = (if Rltb (c i) (up i) then Rmin (up i) (bu (S i)) else bu (S i)) /\
    rising (S i) = (if Rltb (up i) (c (S i)) then true else if Rltb (c (S i)) (lo i) then false else rising i).
Proof.
  intros Hw H bl bu. unfold supertrend. destruct (atr_real h l c n w Hw H) as (a & E & A). rewrite E. cbn [bind].
  destruct (iterate_bars (fun i '(lo, up, r) => ((if Rltb lo (c i) then Rmax lo (bl (S i)) else bl (S i)), (if Rltb (c i) up then Rmin up (bu (S i)) else bu (S i)),
     (if Rltb up (c (S i)) then true else if Rltb (c (S i)) lo then false else r))) (bl w, bu w, true) w) as (st & S0 & SS).
  eexists _, (fun i => fst (fst (st i))), (fun i => snd (fst (st i))), (fun i => snd (st i)). split; [reflexivity|].
  split; [|rewrite S0; repeat split; rewrite SS by easy; destruct (st i) as [[x y] z]; reflexivity].
  rewrite (aligned_is_series _ _ _ _ _ A) by lia. unfold xseries. rewrite zip4_series.
  rewrite (scan_inv_bars _ (fun i => if (i <=? w)%nat then (NaN, NaN, (if (i =? 0)%nat then fminpos else Fin (c (i - 1)%nat)), true)
      else (Fin (fst (fst (st (i - 1)%nat))), Fin (snd (fst (st (i - 1)%nat))), Fin (c (i - 1)%nat), snd (st (i - 1)%nat)))
    (fun i => if (i <? w)%nat then NaN else Fin (if snd (st i) then fst (fst (st i)) else snd (fst (st i))))).
  - split; [rewrite map_length, seq_length; lia|]. split; intros i Hi; rewrite nth_error_map', nth_error_seq by lia; cbn [option_map plus]; destruct (Nat.ltb_spec i w); try lia; reflexivity.
  - reflexivity.
  - intros i Hi. replace (S i - 1)%nat with i by lia. replace (S i =? 0)%nat with false by reflexivity. unfold supertrend_step, fgtb.
    destruct (Nat.ltb_spec i w) as [L|L].
    + rewrite (proj2 (Nat.leb_le i w)), (proj2 (Nat.leb_le (S i) w)) by lia.
      assert (P : exists x, (if (i =? 0)%nat then fminpos else Fin (c (i - 1)%nat)) = x) by now eexists. destruct P as (x & ->).
      rewrite !x_mul_nan_r, x_sub_nan_r, x_add_nan_r, !x_nan_ltb_l, !x_nan_ltb_r. reflexivity.
    + replace (S i <=? w)%nat with false by (symmetry; apply Nat.leb_gt; lia). rewrite x_lit, !x_add, x_div, x_mul, x_sub, x_add by lra. fold (bl i). fold (bu i).
      destruct (Nat.leb_spec i w) as [L2|L2].
      * assert (i = w) as -> by lia. rewrite !x_nan_ltb_l, !x_nan_ltb_r, S0. reflexivity.
      * replace (st i) with (st (S (i - 1))) by (f_equal; lia). rewrite SS by lia. destruct (st (i - 1)%nat) as [[lo up] r]. cbn [fst snd]. replace (S (i - 1)) with i by lia.
        rewrite !x_ltb. 
        assert (Q1 : (if Rltb lo (c (i - 1)%nat) && Rltb (bl i) lo then Fin lo else Fin (bl i)) = Fin (if Rltb lo (c (i - 1)%nat) then Rmax lo (bl i) else bl i)).
        { destruct (Rltb lo (c (i - 1)%nat)); [|easy]. cbn [andb]. unfold Rmax. destruct (Rltb (bl i) lo) eqn:Z, (Rle_dec lo (bl i)); rewrite ?Rltb_true, ?Rltb_false in Z; f_equal; lra. }
        assert (Q2 : (if Rltb (c (i - 1)%nat) up && Rltb up (bu i) then Fin up else Fin (bu i)) = Fin (if Rltb (c (i - 1)%nat) up then Rmin up (bu i) else bu i)).
        { destruct (Rltb (c (i - 1)%nat) up); [|easy]. cbn [andb]. unfold Rmin. destruct (Rltb up (bu i)) eqn:Z, (Rle_dec up (bu i)); rewrite ?Rltb_true, ?Rltb_false in Z; f_equal; lra. }
        rewrite Q1, Q2. f_equal. destruct (Rltb up (c i)); [easy|]. destruct (Rltb (c i) lo); [easy|]. now destruct r.
Qed.
(** While the close is above the lower band it never falls; while it is below the
    upper band, that never rises. *)
Theorem supertrend_ratchet (lo up bl bu c : nat -> R) i :
  lo (S i) = (if Rltb (lo i) (c i) then Rmax (lo i) (bl (S i)) else bl (S i)) ->
  up (S i) = (if Rltb (c i) (up i) then Rmin (up i) (bu (S i)) else bu (S i)) ->
  (lo i < c i -> lo i <= lo (S i)) /\ (c i < up i -> up (S i) <= up i).
Proof.
  intros E1 E2. split; intros H; [rewrite E1|rewrite E2]; rewrite (proj2 (Rltb_true _ _)) by easy; [apply Rmax_l|apply Rmin_l].
Qed.

(** ** atr_stop *)
Theorem atr_stop_real h l c n w mult : (0 < w < n)%nat -> (forall k, (k < n)%nat -> l k <= h k) ->
  let d i := unwrap_or mult 3 * wilder_from w 1 (true_range_of h l c) i in
  exists o (stop : nat -> R) (rising : nat -> bool), atr_stop (xseries h n) (xseries l n) (xseries c n) w (option_map Fin mult) = Ok o /\
  aligned o n w NaN (fun i => Fin (stop (S i))) /\ stop w = 0 /\ rising w = true /\
  forall i, (w <= i)%nat ->
    if rising i then
      let s := Rmax (stop i) (c i - d i) in
      rising (S i) = Rleb s (c i) /\ stop (S i) = (if Rleb s (c i) then s else c i + d i)
    else
      let s := Rmin (stop i) (c i + d i) in
      rising (S i) = Rltb s (c i) /\ stop (S i) = (if Rltb s (c i) then c i - d i else s).
Proof.
  intros Hw H d. unfold atr_stop. destruct (atr_real h l c n w Hw H) as (a & E & A). rewrite E.
  unfold xseries at 1, series. rewrite !rwindows_bars by lia. cbn [bind].
  destruct (iterate_bars (fun i '(r, s) => if (r : bool) then (let s' := Rmax s (c i - d i) in (Rleb s' (c i), if Rleb s' (c i) then s' else c i + d i))
     else (let s' := Rmin s (c i + d i) in (Rltb s' (c i), if Rltb s' (c i) then c i - d i else s'))) (true, 0) w) as (st & S0 & SS).
  eexists _, (fun i => snd (st i)), (fun i => fst (st i)). split; [reflexivity|].
  split; [|rewrite S0; repeat split; intros i Hi; rewrite SS by easy; destruct (st i) as [[] s]; cbn; now split].
  rewrite (skipn_aligned _ _ _ _ _ A), skipn_bars. replace (0 + w - 1 + 1)%nat with w by lia. rewrite combine_bars. replace (Nat.min _ _) with (n - w)%nat by lia.
  rewrite (scan_inv_bars _ (fun i => (fst (st i), Fin (snd (st i)))) (fun i => Fin (snd (st (S i))))).
  - now apply aligned_bars.
  - rewrite S0, x_lit. reflexivity.
  - intros i Hi. unfold atr_stop_step. rewrite at_last_bars by lia. replace (i + 1 - w + (w - 1))%nat with i by lia.
    replace (unwrap_or (option_map Fin mult) _) with (Fin (unwrap_or mult 3)) by (destruct mult; cbn [option_map unwrap_or]; [easy|now rewrite x_lit]).
    rewrite x_mul, x_add, x_sub. fold (d i). rewrite SS by lia. destruct (st i) as [[] s]; cbn [fst snd]; unfold fgtb.
    + rewrite x_max, x_ltb. destruct (Rltb (c i) _) eqn:Z; rewrite ?Rltb_true, ?Rltb_false in Z; [rewrite (proj2 (Rleb_false _ _)) by lra|rewrite (proj2 (Rleb_true _ _)) by lra]; reflexivity.
    + rewrite x_min, x_ltb. destruct (Rltb _ (c i)) eqn:Z; reflexivity.
Qed.
(** While the direction is unchanged the stop never moves against it; and it is
    always on its own side of the close. *)
Theorem atr_stop_ratchet (stop c d : nat -> R) (rising : nat -> bool) i : 0 <= d i ->
  (if rising i then
      let s := Rmax (stop i) (c i - d i) in
      rising (S i) = Rleb s (c i) /\ stop (S i) = (if Rleb s (c i) then s else c i + d i)
    else
      let s := Rmin (stop i) (c i + d i) in
      rising (S i) = Rltb s (c i) /\ stop (S i) = (if Rltb s (c i) then c i - d i else s)) ->
  (rising i = true -> rising (S i) = true -> stop i <= stop (S i)) /\ (rising i = false -> rising (S i) = false -> stop (S i) <= stop i) /\
  (rising (S i) = true -> stop (S i) <= c i) /\ (rising (S i) = false -> c i <= stop (S i)).
Proof.
  intros Hd. destruct (rising i); intros [-> ->].
  - destruct (Rleb _ (c i)) eqn:Z; rewrite ?Rleb_true, ?Rleb_false in Z; repeat split; try easy; intros; try lra. apply Rmax_l.
  - destruct (Rltb _ (c i)) eqn:Z; rewrite ?Rltb_true, ?Rltb_false in Z; repeat split; try easy; intros; try lra. apply Rmin_l.
Qed.

(** ** alligator and gator *)
(** The line of window [w] printed [off] bars late: the smoothed average of bar
    [i - off], or NaN where there is none. *)
Definition late_line (d : nat -> R) (n w off i : nat) : xr :=
  if ((w + off - 1 <=? i) && (i <? n + off))%nat%bool then Fin (wilder_from w 0 d (i - off)) else NaN.
Lemma displaced_real d n w off mo : (0 < w <= n)%nat -> (off <= mo)%nat ->
  displaced (xseries d n) w off mo = Ok (series (late_line d n w off) (n + mo)).
Proof.
  intros Hw Ho. unfold displaced, xseries, series. rewrite (wilder_bars d w 0 n Hw). cbn [bind]. f_equal. apply nth_error_ext. intros i.
  rewrite nth_error_map'. destruct (Nat.lt_ge_cases i (n + mo)) as [L|L].
  2:{ rewrite (proj2 (nth_error_None (seq 0 (n + mo)) i)) by now rewrite seq_length. cbn. apply nth_error_None. rewrite !app_length, !length_pad, map_length, seq_length. lia. }
  rewrite nth_error_seq by easy. cbn [option_map plus]. unfold late_line.
  destruct (Nat.lt_ge_cases i off) as [L1|L1].
  { rewrite nth_error_app1 by (rewrite length_pad; lia). rewrite nth_error_pad by easy. destruct (Nat.leb_spec (w + off - 1) i); [lia|]. reflexivity. }
  rewrite nth_error_app2, length_pad by (rewrite length_pad; lia). rewrite <- app_assoc. destruct (Nat.lt_ge_cases (i - off) (w - 1)) as [L2|L2].
  { rewrite nth_error_app1 by (rewrite length_pad; lia). rewrite nth_error_pad by easy. destruct (Nat.leb_spec (w + off - 1) i); [lia|]. reflexivity. }
  rewrite nth_error_app2, length_pad by (rewrite length_pad; lia). destruct (Nat.leb_spec (w + off - 1) i); [|lia]. destruct (Nat.lt_ge_cases (i - off) n) as [L3|L3].
  - rewrite nth_error_app1 by (rewrite map_length, seq_length; lia). rewrite nth_error_map', nth_error_seq by lia. cbn [option_map]. destruct (Nat.ltb_spec i (n + off)); [|lia]. cbn [andb]. do 3 f_equal. lia.
  - rewrite nth_error_app2 by (rewrite map_length, seq_length; lia). rewrite map_length, seq_length, nth_error_pad by lia. destruct (Nat.ltb_spec i (n + off)); [lia|]. reflexivity.
Qed.
Theorem alligator_real d n jw jo tw to lw lo : (0 < jw <= n)%nat -> (0 < tw <= n)%nat -> (0 < lw <= n)%nat ->
  alligator (xseries d n) jw jo tw to lw lo =
  Ok (series (fun i => (late_line d n jw jo i, late_line d n tw to i, late_line d n lw lo i)) (n + Nat.max (Nat.max jo to) lo)).
Proof. intros H1 H2 H3. unfold alligator. rewrite !displaced_real by (easy || lia). cbn [bind]. now rewrite zip3_series. Qed.
Theorem gator_real d n jw jo tw to lw lo : (0 < jw <= n)%nat -> (0 < tw <= n)%nat -> (0 < lw <= n)%nat ->
  gator (xseries d n) jw jo tw to lw lo =
  Ok (series (fun i => (fabs (fsub (late_line d n jw jo i) (late_line d n tw to i)), fabs (fsub (late_line d n tw to i) (late_line d n lw lo i)))) (n + Nat.max (Nat.max jo to) lo)).
Proof. intros H1 H2 H3. unfold gator. rewrite alligator_real by easy. cbn [bind]. unfold series. now rewrite map_map. Qed.

(** ** ichimoku *)
(** Middle of the range of the last [w] bars, NaN outside the bars that have one. *)
Definition mid_line (h l : nat -> R) (n w i : nat) : xr :=
  if ((w - 1 <=? i) && (i <? n))%nat%bool then Fin ((highest w h i + lowest w l i) / 2) else NaN.
Lemma midpoints_real h l n w : (0 < w)%nat -> (w <= n + 1)%nat -> midpoints (xseries h n) (xseries l n) w = Ok (map (fun i => Fin ((highest w h i + lowest w l i) / 2)) (seq (w - 1) (n - (w - 1)))).
Proof.
  intros Hw Hn. unfold midpoints, xseries, series. rewrite !rwindows_bars by easy. cbn [bind]. rewrite combine_bars, Nat.min_id, map_map. f_equal. cbn [plus].
  replace (n + 1 - w)%nat with (n - (w - 1))%nat by lia. apply map_ext. intros i. rewrite x_highest, x_lowest by easy. rewrite x_add, x_lit, x_div by lra. reflexivity.
Qed.
Theorem ichimoku_real h l c n cw bw lw lag : (0 < cw <= n)%nat -> (0 < bw <= n)%nat -> (0 < lw <= n)%nat -> (lag <= n)%nat ->
  ichimoku (xseries h n) (xseries l n) (xseries c n) cw bw lw lag =
  Ok (series (fun i => (mid_line h l n cw i, mid_line h l n bw i,
        (if (bw <=? i)%nat then fdiv (fadd (mid_line h l n cw (i - bw)) (mid_line h l n bw (i - bw))) (Fin 2) else NaN),
        (if (bw <=? i)%nat then mid_line h l n lw (i - bw) else NaN),
        (if (i + lag <? n)%nat then Fin (c (i + lag)%nat) else NaN))) (n + bw)).
Proof.
  intros Hc Hb Hl Hg. unfold ichimoku. unfold usub. rewrite (proj2 (Nat.leb_le 1 cw)), (proj2 (Nat.leb_le 1 bw)), (proj2 (Nat.leb_le 1 lw)) by lia. cbn [bind].
  rewrite !midpoints_real by lia. cbn [bind]. set (v := fun w i => Fin ((highest w h i + lowest w l i) / 2)).
  assert (LN : forall w, (0 < w <= n)%nat -> pad (w - 1) fnan ++ map (fun i => Fin ((highest w h i + lowest w l i) / 2)) (seq (w - 1) (n - (w - 1))) = series (mid_line h l n w) n).
  { intros w Hw. pose proof (aligned_bars NaN (v w) (w - 1) (n - (w - 1)) n eq_refl) as A. change (@fnan xr XR) with NaN. unfold v in A. rewrite (aligned_is_series _ _ _ _ _ A) by lia. unfold series. apply map_ext_in.
    intros i Hi. apply in_seq in Hi. unfold mid_line. destruct (Nat.ltb_spec i (w - 1)), (Nat.leb_spec (w - 1) i), (Nat.ltb_spec i n); try lia; reflexivity. }
  rewrite (Nat.add_comm (lw - 1) bw). replace (pad (bw + (lw - 1)) (@fnan xr XR)) with (pad bw (@fnan xr XR) ++ pad (lw - 1) (@fnan xr XR)) by (unfold pad; symmetry; apply repeat_app). rewrite <- (app_assoc (pad bw (@fnan xr XR)) (pad (lw - 1) (@fnan xr XR))).
  rewrite !LN by easy. rewrite combine_series, map_map.
  assert (PB : forall f : nat -> xr, series f n ++ pad bw fnan = series (fun i => if (i <? n)%nat then f i else NaN) (n + bw)).
  { intros f. unfold series. rewrite seq_app, map_app. f_equal; [apply map_ext_in; intros i Hi; apply in_seq in Hi; destruct (Nat.ltb_spec i n); [easy|lia]|].
    apply nth_error_ext. intros i. rewrite nth_error_map'. destruct (Nat.lt_ge_cases i bw).
    - rewrite nth_error_pad, nth_error_seq by easy. cbn [option_map]. destruct (Nat.ltb_spec (0 + n + i) n); [lia|reflexivity].
    - rewrite (proj2 (nth_error_None _ _)) by now rewrite length_pad. now rewrite (proj2 (nth_error_None _ _)) by now rewrite seq_length. }
  assert (PF : forall f : nat -> xr, pad bw fnan ++ series f n = series (fun i => if (bw <=? i)%nat then f (i - bw)%nat else NaN) (n + bw)).
  { intros f. unfold series. rewrite (Nat.add_comm n bw), (seq_app bw n 0), map_app. f_equal.
    - apply nth_error_ext. intros i. rewrite nth_error_map'. destruct (Nat.lt_ge_cases i bw).
      + rewrite nth_error_pad, nth_error_seq by easy. cbn [option_map]. destruct (Nat.leb_spec bw (0 + i)); [lia|reflexivity].
      + rewrite (proj2 (nth_error_None _ _)) by now rewrite length_pad. now rewrite (proj2 (nth_error_None _ _)) by now rewrite seq_length.
    - rewrite (shift_bars bw f 0). apply map_ext_in. intros i Hi. apply in_seq in Hi. destruct (Nat.leb_spec bw i); [easy|lia]. }
  assert (LG : skipn lag (xseries c n) ++ pad (lag + bw) fnan = series (fun i => if (i + lag <? n)%nat then Fin (c (i + lag)%nat) else NaN) (n + bw)).
  { unfold xseries, series. rewrite skipn_bars. replace (seq 0 (n + bw)) with (seq 0 (n - lag + (lag + bw))) by (f_equal; lia). rewrite (seq_app (n - lag) (lag + bw) 0), map_app. f_equal.
    - rewrite (shift_bars lag (fun i => if (i + lag <? n)%nat then Fin (c (i + lag)%nat) else NaN) 0). apply map_ext_in. intros i Hi. apply in_seq in Hi. replace (i - lag + lag)%nat with i by lia. destruct (Nat.ltb_spec i n); [easy|lia].
    - apply nth_error_ext. intros i. rewrite nth_error_map'. destruct (Nat.lt_ge_cases i (lag + bw)).
      + rewrite nth_error_pad, nth_error_seq by easy. cbn [option_map]. destruct (Nat.ltb_spec (0 + (n - lag) + i + lag) n); [lia|reflexivity].
      + rewrite (proj2 (nth_error_None _ _)) by now rewrite length_pad. now rewrite (proj2 (nth_error_None _ _)) by now rewrite seq_length. }
  rewrite LG. fold (series (fun x => fdiv (fadd (mid_line h l n cw x) (mid_line h l n bw x)) (flit 2 1)) n). rewrite !PB, !PF. f_equal.
  unfold zip5. rewrite zip4_series. unfold series. rewrite combine_bars, Nat.min_id. apply map_ext. intros i. rewrite x_lit.
  assert (M : forall w, (if (i <? n)%nat then mid_line h l n w i else NaN) = mid_line h l n w i) by (intros w; unfold mid_line; destruct (i <? n)%nat; [easy|now rewrite Bool.andb_false_r]).
  now rewrite !M.
Qed.

(** ** shinohara *)
Theorem shinohara_real h l c n w : (0 < w <= n)%nat ->
  let H i := Rsum (last_bars w h i) in let L i := Rsum (last_bars w l i) in let C i := Rsum (last_bars w c i) in
  (forall i, (w <= i < n)%nat -> C (i - 1)%nat <> L i) -> (forall i, (w - 1 <= i < n)%nat -> C i <> L i) ->
  exists o, shinohara (xseries h n) (xseries l n) (xseries c n) w = Ok o /\
  aligned (map fst o) n w NaN (fun i => Fin (100 * (H i - C (i - 1)%nat) / (C (i - 1)%nat - L i))) /\
  aligned (map snd o) n (w - 1) NaN (fun i => Fin (100 * (H i - C i) / (C i - L i))).
Proof.
  intros Hw H L C N1 N2. destruct (shinohara_values (fun k => Fin (h k)) (fun k => Fin (l k)) (fun k => Fin (c k)) n w Hw) as (o & E & A & B). exists o. split; [exact E|]. split.
  - revert A. apply aligned_ext. intros i Hi. specialize (N1 i Hi). rewrite !x_last_bars, !x_fsum, !x_sub, x_lit, x_mul, x_div by (fold (C (i - 1)%nat); fold (L i); lra). reflexivity.
  - revert B. apply aligned_ext. intros i Hi. specialize (N2 i Hi). rewrite !x_last_bars, !x_fsum, !x_sub, x_lit, x_mul, x_div by (fold (C i); fold (L i); lra). reflexivity.
Qed.

(** ** rwi *)
(** Expected range of a random walk over the [d] bars before bar [i]. *)
Definition walk (tr : nat -> R) (i d : nat) : R := sum_bars tr (i - d) (i - 1) / INR d * sqrt (INR d).
Theorem rwi_real h l c n w : (0 < w < n)%nat -> (forall k, (k < n)%nat -> l k <= h k) ->
  let tr := true_range_of h l c in (forall k, (1 <= k < n)%nat -> 0 < tr k) ->
  exists o, rwi (xseries h n) (xseries l n) (xseries c n) w = Ok o /\
  aligned o n w (NaN, NaN) (fun i =>
    (Fin (fold_left Rmax (map (fun d => (h i - l (i - d)%nat) / walk tr i d) (seq 1 (w - 1))) 0),
     Fin (fold_left Rmax (map (fun d => (h (i - d)%nat - l i) / walk tr i d) (seq 1 (w - 1))) 0))).
Proof.
  intros Hw H tr P. unfold rwi. rewrite true_range_bars_x by (easy || lia). unfold xseries. rewrite !slice_from_series by lia. cbn [bind]. rewrite !rwindows_bars by lia. cbn [bind].
  eexists. split; [reflexivity|]. unfold zip3. rewrite !combine_bars, map_map. replace (1 + w - 1)%nat with w by lia. apply aligned_bars_ext; [lia|].
  intros i Hi. unfold rwi_win.
  assert (G : forall m, (m <= w - 1)%nat -> fold_left (rwi_step w (last_bars w (fun k => Fin (h k)) i) (last_bars w (fun k => Fin (l k)) i) (last_bars w (fun k => Fin (true_range_of h l c k)) i)) (seq 2 m) (flit 0 1, flit 0 1, flit 0 1)
     = (Fin (fold_left Rmax (map (fun d => (h i - l (i - d)%nat) / walk tr i d) (seq 1 m)) 0), Fin (fold_left Rmax (map (fun d => (h (i - d)%nat - l i) / walk tr i d) (seq 1 m)) 0), Fin (sum_bars tr (i - m) (i - 1) * (if (m =? 0)%nat then 0 else 1)))).
  { induction m as [|m IH]; intros Hm.
    - cbn [seq fold_left map Nat.eqb]. rewrite x_lit. repeat f_equal. ring.
    - rewrite !seq_S, !map_app, !fold_left_app, IH by lia. cbn [map fold_left]. unfold rwi_step. rewrite !at_last_bars by lia.
      replace (2 + m - 1)%nat with (S m) by lia. replace (i + 1 - w + (w - (2 + m)))%nat with (i - S m)%nat by lia. replace (i + 1 - w + (w - 1))%nat with i by lia. replace (1 + m)%nat with (S m) by lia.
      fold (tr (i - S m)%nat). rewrite x_add. 
      assert (SB : sum_bars tr (i - m) (i - 1) * (if (m =? 0)%nat then 0 else 1) + tr (i - S m)%nat = sum_bars tr (i - S m) (i - 1)).
      { destruct m as [|m]; cbn [Nat.eqb]; [rewrite sum_bars_single; ring|]. rewrite (sum_bars_head tr (i - S (S m))) by lia. replace (S (i - S (S m))) with (i - S m)%nat by lia. ring. }
      rewrite SB. cbn [Nat.eqb]. rewrite Rmult_1_r.
      assert (0 < INR (S m)) by (apply INR_pos; lia). assert (0 < sqrt (INR (S m))) by now apply sqrt_lt_R0.
      assert (0 < sum_bars tr (i - S m) (i - 1)). { unfold sum_bars. apply Rsum_pos; [intros x Hx; apply in_map_iff in Hx as (k & <- & Hk); apply in_seq in Hk; apply P; lia|]. replace (i - 1 + 1 - (i - S m))%nat with (S m) by lia. easy. }
      assert (0 < walk tr i (S m)). { unfold walk. apply Rmult_lt_0_compat; [|easy]. now apply Rdiv_lt_0_compat. }
      rewrite x_nat, x_sqrt, x_div, x_mul by lra. fold (walk tr i (S m)). rewrite !x_sub, !x_div, !x_max by lra. reflexivity. }
  rewrite (G (w - 1)%nat) by lia. reflexivity.
Qed.

(** ** psar *)
(** Wilder's parabolic step: (acceleration, rising, SAR, extreme point) from one
    bar to the next; [hp], [lp] are the high and low two bars before the new bar
    (the new bar being [hn], [ln]). *)
Definition sar_next (inc mx hp hn lp ln : R) (st : R * bool * R * R) : R * bool * R * R :=
  let '(af, up, sar, ep) := st in
  let proj := sar + af * (ep - sar) in
  if up then
    if Rltb ln proj then (inc, false, Rmax ep hn, ln)
    else ((if Rltb ep hn then Rmin (af + inc) mx else af), true, Rmin (Rmin lp ln) proj, Rmax ep hn)
  else
    if Rltb proj hn then (inc, true, Rmin ep ln, hn)
    else ((if Rltb ln ep then Rmin (af + inc) mx else af), false, Rmax (Rmax hp hn) proj, Rmin ep ln).
Definition sar_of (st : R * bool * R * R) : R := let '(_, _, sar, _) := st in sar.
Definition sar_up (st : R * bool * R * R) : bool := let '(_, up, _, _) := st in up.
Definition sar_af (st : R * bool * R * R) : R := let '(af, _, _, _) := st in af.
Definition sar_ep (st : R * bool * R * R) : R := let '(_, _, _, ep) := st in ep.

Theorem psar_real h l n af mx : (0 < n)%nat ->
  let inc := unwrap_or af 0.02 in let m := unwrap_or mx 0.2 in
  exists o st, psar (xseries h n) (xseries l n) (option_map Fin af) (option_map Fin mx) = Ok o /\
  aligned o n 1 NaN (fun i => Fin (sar_of (st i))) /\
  st 0%nat = (inc, false, h 0%nat, l 0%nat) /\
  forall i, st (S i) = sar_next inc m (h (i - 1)%nat) (h (S i)) (l (i - 1)%nat) (l (S i)) (st i).
Proof.
  intros Hn inc m. unfold psar, xseries. rewrite !(idx_series _ 0 n) by easy. cbn [bind]. rewrite length_series. unfold usub. rewrite (proj2 (Nat.leb_le 1 n)) by lia. cbn [bind].
  replace (unwrap_or (option_map Fin af) _) with (Fin inc) by (unfold inc; destruct af; cbn [option_map unwrap_or]; [easy|rewrite x_frac; f_equal; lra]).
  replace (unwrap_or (option_map Fin mx) _) with (Fin m) by (unfold m; destruct mx; cbn [option_map unwrap_or]; [easy|rewrite x_frac; f_equal; lra]).
  destruct (iterate_bars (fun i st => sar_next inc m (h (i - 1)%nat) (h (S i)) (l (i - 1)%nat) (l (S i)) st) (inc, false, h 0%nat, l 0%nat) 0) as (st & S0 & SS).
  pose (emb := fun s : R * bool * R * R => let '(a, u, x, e) := s in mk_psar (Fin a) (negb u) (Fin x) (Fin e)).
  rewrite <- (map_id (seq 0 (n - 1))).
  rewrite (rscan_inv_bars _ (fun i => emb (st i)) (fun i => Fin (sar_of (st (S i))))).
  - cbn [bind]. eexists _, st. split; [reflexivity|]. split; [|split; [exact S0|intros; apply SS; lia]].
    rewrite (shift_bars 1 _ 0). cbn [plus].
    replace (map (fun k => Fin (sar_of (st (S (k - 1))))) (seq 1 (n - 1))) with (map (fun k => Fin (sar_of (st k))) (seq 1 (n - 1))) by (apply map_ext_in; intros k Hk; apply in_seq in Hk; do 3 f_equal; lia).
    now apply aligned_bars1.
  - rewrite S0. reflexivity.
  - intros i Hi. unfold psar_step. rewrite !idx_series by lia. cbn [bind]. rewrite SS by lia. replace (Nat.max i 1 - 1)%nat with (i - 1)%nat by lia. rewrite !Nat.add_1_r.
    destruct (st i) as [[[a u] x] e]. unfold emb, psar_body, sar_next, fgtb. destruct u; cbn [negb]; rewrite !x_sub, !x_mul, !x_add, !x_ltb, ?x_max, ?x_min.
    + destruct (Rltb (l (S i)) _) eqn:Z; cbn [sar_of ps_sar negb]; rewrite ?Rltb_true, ?Rltb_false in *.
      * destruct (Rltb e (h (S i))) eqn:Z2; rewrite ?Rltb_true, ?Rltb_false in *; [rewrite Rmax_right by lra|rewrite Rmax_left by lra]; reflexivity.
      * rewrite ?x_add, ?x_min. destruct (Rltb e (h (S i))) eqn:Z2; rewrite ?Rltb_true, ?Rltb_false in *; [rewrite (Rmax_right e) by lra|rewrite (Rmax_left e) by lra]; reflexivity.
    + destruct (Rltb _ (h (S i))) eqn:Z; cbn [sar_of ps_sar negb]; rewrite ?Rltb_true, ?Rltb_false in *.
      * destruct (Rltb (l (S i)) e) eqn:Z2; rewrite ?Rltb_true, ?Rltb_false in *; [rewrite Rmin_right by lra|rewrite Rmin_left by lra]; reflexivity.
      * rewrite ?x_add, ?x_max. destruct (Rltb (l (S i)) e) eqn:Z2; rewrite ?Rltb_true, ?Rltb_false in *; [rewrite (Rmin_right e) by lra|rewrite (Rmin_left e) by lra]; reflexivity.
Qed.
(** On the right side of its own bar; and, while the trend goes on, of the bar
    two before; the direction flips exactly when the new bar crosses the
    projected value; a flipped SAR starts at the extreme of the old trend. *)
Theorem psar_side inc mx hp hn lp ln st :
  let st' := sar_next inc mx hp hn lp ln st in
  let proj := sar_of st + sar_af st * (sar_ep st - sar_of st) in
  (sar_up st' = true -> sar_of st' <= ln) /\ (sar_up st' = false -> hn <= sar_of st') /\
  (sar_up st = true -> sar_up st' = true -> sar_of st' <= lp /\ sar_of st' <= proj) /\
  (sar_up st = false -> sar_up st' = false -> hp <= sar_of st' /\ proj <= sar_of st') /\
  (sar_up st = true -> (sar_up st' = false <-> ln < proj)) /\ (sar_up st = false -> (sar_up st' = true <-> proj < hn)) /\
  (sar_up st' <> sar_up st -> sar_of st' = (if sar_up st then Rmax (sar_ep st) hn else Rmin (sar_ep st) ln) /\ sar_af st' = inc).
Proof.
  destruct st as [[[af up] sar] ep]. unfold sar_next. cbn [sar_of sar_up sar_af sar_ep]. destruct up.
  - destruct (Rltb ln _) eqn:Z; rewrite ?Rltb_true, ?Rltb_false in Z; cbn [sar_of sar_up sar_af sar_ep]; repeat split; try easy; intros; try apply Rmax_r;
      try (eapply Rle_trans; [apply Rmin_l|]; apply Rmin_r); try (eapply Rle_trans; [apply Rmin_l|]; apply Rmin_l); try apply Rmin_r. lra.
  - destruct (Rltb _ hn) eqn:Z; rewrite ?Rltb_true, ?Rltb_false in Z; cbn [sar_of sar_up sar_af sar_ep]; repeat split; try easy; intros; try apply Rmin_r;
      try (eapply Rle_trans; [|apply Rmax_l]; apply Rmax_r); try (eapply Rle_trans; [|apply Rmax_l]; apply Rmax_l); try apply Rmax_r. lra.
Qed.
(** The acceleration factor stays within [inc, max], and the extreme point bounds
    the new bar. *)
Theorem psar_af (st : nat -> R * bool * R * R) (h l : nat -> R) inc mx i : 0 <= inc <= mx -> sar_af (st 0%nat) = inc ->
  (forall j, st (S j) = sar_next inc mx (h (j - 1)%nat) (h (S j)) (l (j - 1)%nat) (l (S j)) (st j)) -> inc <= sar_af (st i) <= mx.
Proof.
  intros H H0 HS. induction i as [|i IH]; [lra|]. rewrite HS. destruct (st i) as [[[af up] sar] ep]. cbn [sar_af] in IH. unfold sar_next.
  assert (inc <= Rmin (af + inc) mx <= mx) by (unfold Rmin; destruct (Rle_dec _ _); lra).
  destruct up; destruct (Rltb _ _); cbn [sar_af]; try lra; destruct (Rltb _ _); lra.
Qed.
Theorem psar_ep (st : nat -> R * bool * R * R) (h l : nat -> R) inc mx i : st 0%nat = (inc, false, h 0%nat, l 0%nat) ->
  (forall j, st (S j) = sar_next inc mx (h (j - 1)%nat) (h (S j)) (l (j - 1)%nat) (l (S j)) (st j)) ->
  forall k, (k <= i)%nat -> (forall j, (k <= j <= i)%nat -> sar_up (st j) = sar_up (st i)) ->
  if sar_up (st i) then h k <= sar_ep (st i) else sar_ep (st i) <= l k.
Proof.
  intros H0 HS. induction i as [|i IH]; intros k Hk HU.
  - assert (k = 0%nat) as -> by lia. rewrite H0. cbn. lra.
  - assert (EP : if sar_up (st (S i)) then h (S i) <= sar_ep (st (S i)) else sar_ep (st (S i)) <= l (S i)).
    { rewrite HS. destruct (st i) as [[[af up] sar] ep]. unfold sar_next. destruct up; destruct (Rltb _ _); cbn [sar_up sar_ep]; try lra; apply Rmax_r || apply Rmin_r. }
    destruct (Nat.eq_dec k (S i)) as [->|N]; [exact EP|].
    assert (U : sar_up (st i) = sar_up (st (S i))) by (apply HU; lia).
    specialize (IH k ltac:(lia)). assert (HU' : forall j, (k <= j <= i)%nat -> sar_up (st j) = sar_up (st i)) by (intros j Hj; rewrite U; apply HU; lia). specialize (IH HU').
    rewrite <- U. clear HU HU' EP. revert U IH. rewrite HS. destruct (st i) as [[[af up] sar] ep]. unfold sar_next. cbn [sar_up sar_ep]. intros U IH.
    destruct up; destruct (Rltb _ _); cbn [sar_up sar_ep] in *; try discriminate; [eapply Rle_trans; [exact IH|apply Rmax_l]|eapply Rle_trans; [apply Rmin_l|exact IH]].
Qed.

(** ** zigzag *)
Lemma upd_series {A} (f : nat -> A) n i x : upd (series f n) i x = series (fun k => if (k =? i)%nat then x else f k) n.
Proof.
  unfold series. assert (G : forall a, upd (map f (seq a n)) i x = map (fun k => if (k =? a + i)%nat then x else f k) (seq a n)).
  { revert i. induction n as [|n IH]; intros i a; [easy|]. cbn [seq map]. destruct i as [|i]; cbn [upd].
    - rewrite Nat.add_0_r, Nat.eqb_refl. f_equal. apply map_ext_in. intros k Hk. apply in_seq in Hk. destruct (Nat.eqb_spec k a); [lia|easy].
    - destruct (Nat.eqb_spec a (a + S i)); [lia|]. f_equal. rewrite IH. apply map_ext. intros k. now replace (S a + i)%nat with (a + S i)%nat by lia. }
  apply (G 0%nat).
Qed.
Section Zigzag.
  Variables (h l : nat -> R) (n : nat) (d : R).
  (** A pivot at bar [k] is its high or its low. *)
  Definition pivot (k : nat) (high : bool) : R := if high then h k else l k.
  Definition pivots (kind : nat -> option bool) (k : nat) : xr := match kind k with Some u => Fin (pivot k u) | None => NaN end.
  (** [p] and [q] are consecutive pivots. *)
  Definition consecutive (kind : nat -> option bool) (p q : nat) : Prop := (p < q)%nat /\ kind p <> None /\ kind q <> None /\ forall k, (p < k < q)%nat -> kind k = None.
  (** A leg from pivot [p] to [q] that ends with a high when [up]: opposite kinds,
      [q] is the extreme of the bars after [p] up to bar [m], and the move is at least [d] percent of
      its low end. *)
  Definition leg (p q m : nat) (up : bool) : Prop :=
    (forall k, (p < k <= m)%nat -> if up then h k <= h q else l q <= l k) /\
    (if up then l p < h q /\ d <= 100 * ((h q - l p) / l p) else l q < h p /\ d <= 100 * ((h p - l q) / l q)).
  Definition good (kind : nat -> option bool) (p : nat) : Prop :=
    kind 0%nat <> None /\ (forall k, (p < k)%nat -> kind k = None) /\
    forall a b, consecutive kind a b -> exists u, kind a = Some (negb u) /\ kind b = Some u /\ leg a b b u.
  (** Percentages: [b] is [d] percent above [a], [a] is [d] percent below [b]. *)
  Definition above (a b : R) : Prop := d <= 100 * ((b - a) / a).
  Lemma above_iff a b : 0 < a -> (above a b <-> a + a * d / 100 <= b).
  Proof.
    intros Ha. unfold above. replace (100 * ((b - a) / a)) with ((b - a) * 100 / a) by (unfold Rdiv; ring). split; intros H.
    - apply (Rmult_le_compat_r a) in H; [|lra]. unfold Rdiv in H. rewrite Rmult_assoc, Rinv_l in H by lra. lra.
    - apply Rmult_le_reg_r with a; [lra|]. unfold Rdiv. rewrite Rmult_assoc, Rinv_l by lra. lra.
  Qed.
  Lemma below_iff a b : 0 < b -> (d <= (b - a) / b * 100 <-> a <= b - b * d / 100).
  Proof.
    intros Hb. replace ((b - a) / b * 100) with ((b - a) * 100 / b) by (unfold Rdiv; ring). split; intros H.
    - apply (Rmult_le_compat_r b) in H; [|lra]. unfold Rdiv in H. rewrite Rmult_assoc, Rinv_l in H by lra. lra.
    - apply Rmult_le_reg_r with b; [lra|]. unfold Rdiv. rewrite Rmult_assoc, Rinv_l by lra. lra.
  Qed.
  (** Since the extreme [e] of the running leg no bar has reversed it. *)
  Definition unbroken (e i : nat) (up : bool) : Prop :=
    forall k, (e < k < i)%nat -> if up then h e < l k + l k * d / 100 else h k - h k * d / 100 < l e.
  (** State before bar [i]. *)
  Definition zz_inv (i : nat) (st : zz_state) : Prop :=
    exists kind p e up, st = mk_zz (series (pivots kind) n) (p, Fin (pivot p (negb up))) (e, Fin (pivot e up)) /\
    (p < e < n)%nat /\ (e < i)%nat /\ kind p = Some (negb up) /\ good kind p /\ leg p e (i - 1) up /\ unbroken e i up.
  Hypothesis Hd : 0 < d.
  Hypothesis Hp : forall k, (k < n)%nat -> 0 < l k <= h k.
  Lemma x_pct a b : 0 < b -> fgeb (fmul (fdiv (fsub (Fin b) (Fin a)) (Fin b)) (flit 100 1)) (Fin d) = Rleb a (b - b * d / 100).
  Proof.
    intros Hb. unfold fgeb. rewrite x_sub, x_div, x_lit, x_mul, x_leb by lra. destruct (Rleb a _) eqn:E; rewrite ?Rleb_true, ?Rleb_false in *; [now apply below_iff|].
    apply Rnot_le_lt. intros Z. apply below_iff in Z; lra.
  Qed.
  Lemma x_pct_low a b : 0 < a -> fgeb (fmul (fdiv (fsub (Fin b) (Fin a)) (Fin a)) (flit 100 1)) (Fin d) = Rleb (a + a * d / 100) b.
  Proof.
    intros Ha. unfold fgeb. rewrite x_sub, x_div, x_lit, x_mul, x_leb by lra. replace ((b - a) / a * 100) with (100 * ((b - a) / a)) by ring. destruct (Rleb _ b) eqn:E; rewrite ?Rleb_true, ?Rleb_false in *; [now apply above_iff|].
    apply Rnot_le_lt. intros Z. apply above_iff in Z; lra.
  Qed.
  Lemma below_above a b : 0 < a -> 0 < b -> a <= b - b * d / 100 -> a < b /\ d <= 100 * ((b - a) / a).
  Proof. intros Ha Hb H. assert (0 < b * d) by nra. split; [lra|]. apply above_iff; [easy|]. nra. Qed.
  Lemma above_lt a b : 0 < a -> a + a * d / 100 <= b -> a < b /\ d <= 100 * ((b - a) / a).
  Proof. intros Ha H. split; [nra|now apply above_iff]. Qed.
  Lemma mark_good kind p e up m : (p < e <= m)%nat -> good kind p -> kind p = Some (negb up) -> leg p e m up ->
    good (fun k => if (k =? e)%nat then Some up else kind k) e.
  Proof.
    intros He (G0 & G1 & G2) Kp L. split; [|split].
    - destruct (0 =? e)%nat; [easy|exact G0].
    - intros k Hk. destruct (Nat.eqb_spec k e); [lia|]. apply G1. lia.
    - intros a b (C1 & C2 & C3 & C4). destruct (Nat.eqb_spec b e) as [->|Nb].
      + destruct (Nat.eqb_spec a e); [lia|]. assert (a = p) as ->.
        { destruct (Nat.lt_trichotomy a p) as [Z|[Z|Z]]; [|easy|].
          - specialize (C4 p ltac:(lia)). destruct (Nat.eqb_spec p e); [lia|]. congruence.
          - rewrite G1 in C2 by lia. now elim C2. }
        exists up. split; [exact Kp|]. split; [easy|]. destruct L as [L1 L2]. split; [|exact L2]. intros k Hk. apply L1. lia.
      + assert (b <= p)%nat. { destruct (Nat.le_gt_cases b p); [easy|]. rewrite G1 in C3 by easy. now elim C3. }
        destruct (Nat.eqb_spec a e); [lia|]. apply G2. split; [easy|]. split; [easy|]. split; [easy|]. intros k Hk. specialize (C4 k Hk). destruct (Nat.eqb_spec k e); [lia|easy].
  Qed.
  Lemma mark_series kind e up : (e < n)%nat -> upd (series (pivots kind) n) e (Fin (pivot e up)) = series (pivots (fun k => if (k =? e)%nat then Some up else kind k)) n.
  Proof.
    intros He. rewrite upd_series. unfold series. apply map_ext. intros k. unfold pivots. destruct (Nat.eqb_spec k e) as [->|]; reflexivity.
  Qed.
  Lemma zz_step_inv i st : (i < n)%nat -> zz_inv i st -> exists st', zz_step (Fin d) (xseries h n) (xseries l n) st i = Ok st' /\ zz_inv (S i) st'.
  Proof.
    intros Hi (kind & p & e & up & -> & Hpe & Hei & Kp & G & [L1 L2] & U). unfold zz_step. unfold xseries. rewrite !idx_series by easy. cbn [bind fst snd].
    destruct (Hp e ltac:(lia)) as [Pe1 Pe2]. destruct (Hp p ltac:(lia)) as [Pp1 Pp2]. destruct (Hp i ltac:(lia)) as [Pi1 Pi2]. unfold fgtb.
    destruct up; cbn [pivot negb] in *.
    - destruct L2 as [L2 L3]. rewrite !x_ltb. rewrite (proj2 (Rltb_true (l p) (h e))) by easy. rewrite (proj2 (Rltb_false (h e) (l p))) by lra. cbn [andb].
      destruct (Rltb (h e) (h i)) eqn:Z; rewrite ?Rltb_true, ?Rltb_false in Z.
      + eexists. split; [reflexivity|]. exists kind, p, i, true. repeat split; try easy; try lia; try apply G.
        * intros k Hk. destruct (Nat.eq_dec k i) as [->|]; [lra|]. specialize (L1 k ltac:(lia)). lra.
        * lra.
        * apply above_iff; [easy|]. apply above_iff in L3; [|easy]. lra.
        * intros k Hk. lia.
      + rewrite x_pct_low by easy. destruct (Rleb _ (h e)) eqn:Z2; rewrite ?Rleb_true, ?Rleb_false in Z2.
        * change (Fin (h e)) with (Fin (pivot e true)) at 1. rewrite mark_series by lia. eexists. split; [reflexivity|].
          exists (fun k => if (k =? e)%nat then Some true else kind k), e, i, false. cbn [negb pivot]. rewrite Nat.eqb_refl. split; [easy|]. split; [lia|]. split; [lia|]. split; [easy|].
          split; [apply (mark_good kind p e true (i - 1)); [lia|easy|easy|now split]|]. split; [split|].
          -- intros k Hk. destruct (Nat.eq_dec k i) as [->|]; [lra|]. specialize (U k ltac:(lia)). cbn in U. assert (l i * (1 + d / 100) < l k * (1 + d / 100)) by lra. nra.
          -- now apply above_lt.
          -- intros k Hk. lia.
        * eexists. split; [reflexivity|]. exists kind, p, e, true. repeat split; try easy; try lia; try apply G.
          -- intros k Hk. destruct (Nat.eq_dec k i) as [->|]; [lra|]. apply L1. lia.
          -- intros k Hk. destruct (Nat.eq_dec k i) as [->|]; [exact Z2|]. apply U. lia.
    - destruct L2 as [L2 L3]. rewrite !x_ltb. rewrite (proj2 (Rltb_true (l e) (h p))) by easy. rewrite (proj2 (Rltb_false (h p) (l e))) by lra. cbn [andb].
      rewrite x_pct by lra. destruct (Rleb (l e) _) eqn:Z; rewrite ?Rleb_true, ?Rleb_false in Z.
      + change (Fin (l e)) with (Fin (pivot e false)) at 1. rewrite mark_series by lia. eexists. split; [reflexivity|].
        exists (fun k => if (k =? e)%nat then Some false else kind k), e, i, true. cbn [negb pivot]. rewrite Nat.eqb_refl. split; [easy|]. split; [lia|]. split; [lia|]. split; [easy|].
        split; [apply (mark_good kind p e false (i - 1)); [lia|easy|easy|now split]|]. split; [split|].
        * intros k Hk. destruct (Nat.eq_dec k i) as [->|]; [lra|]. specialize (U k ltac:(lia)). cbn in U. assert (0 < 1 - d / 100) by nra. assert (h k * (1 - d / 100) < h i * (1 - d / 100)) by lra. nra.
        * apply below_above; lra.
        * intros k Hk. lia.
      + destruct (Rltb (l i) (l e)) eqn:Z2; rewrite ?Rltb_true, ?Rltb_false in Z2.
        * eexists. split; [reflexivity|]. exists kind, p, i, false. repeat split; try easy; try lia; try apply G.
          -- intros k Hk. destruct (Nat.eq_dec k i) as [->|]; [lra|]. specialize (L1 k ltac:(lia)). lra.
          -- lra.
          -- apply above_iff; [easy|]. apply above_iff in L3; [|easy]. assert (0 < d / 100) by lra. nra.
          -- intros k Hk. lia.
        * eexists. split; [reflexivity|]. exists kind, p, e, false. repeat split; try easy; try lia; try apply G.
          -- intros k Hk. destruct (Nat.eq_dec k i) as [->|]; [lra|]. apply L1. lia.
          -- intros k Hk. destruct (Nat.eq_dec k i) as [->|]; [exact Z|]. apply U. lia.
  Qed.
  Lemma zz_loop_inv m : forall i st, (i + m <= n)%nat -> zz_inv i st -> exists st', zz_loop (Fin d) (xseries h n) (xseries l n) st (seq i m) = Ok st' /\ zz_inv (i + m) st'.
  Proof.
    induction m as [|m IH]; intros i st Hi I; cbn [seq zz_loop]; [exists st; now rewrite Nat.add_0_r|].
    destruct (zz_step_inv i st ltac:(lia) I) as (st' & E & I'). rewrite E. cbn [bind]. destruct (IH (S i) st' ltac:(lia) I') as (st2 & E2 & I2). exists st2. split; [exact E2|]. now replace (i + S m)%nat with (S i + m)%nat by lia.
  Qed.
  (** No single bar spans the threshold by itself. *)
  Hypothesis Hnarrow : forall k, (k < n)%nat -> h k < l k + l k * d / 100.
  Lemma zz_step_same st i : zz_inv (S i) st -> fst (zz_end st) = i -> (i < n)%nat -> zz_step (Fin d) (xseries h n) (xseries l n) st i = Ok st.
  Proof.
    intros (kind & p & e & up & -> & Hpe & Hei & Kp & G & [L1 L2] & U) E Hi. cbn [zz_end fst] in E. subst e. unfold zz_step. unfold xseries. rewrite !idx_series by easy. cbn [bind fst snd].
    destruct (Hp p ltac:(lia)) as [Pp1 Pp2]. destruct (Hp i ltac:(lia)) as [Pi1 Pi2]. specialize (Hnarrow i Hi). unfold fgtb. destruct up; cbn [pivot negb] in *.
    - rewrite !x_ltb. rewrite (proj2 (Rltb_true (l p) (h i))), (proj2 (Rltb_false (h i) (l p))), (proj2 (Rltb_false (h i) (h i))) by lra. cbn [andb]. rewrite x_pct_low by easy. now rewrite (proj2 (Rleb_false _ _)) by easy.
    - rewrite !x_ltb. rewrite (proj2 (Rltb_true (l i) (h p))), (proj2 (Rltb_false (h p) (l i))) by lra. cbn [andb]. rewrite x_pct by lra.
      rewrite (proj2 (Rleb_false (l i) _)) by nra. now rewrite (proj2 (Rltb_false (l i) (l i))) by lra.
  Qed.
  Definition kind0 (u : bool) (k : nat) : option bool := if (k =? 0)%nat then Some u else None.
  Lemma good0 u : good (kind0 u) 0.
  Proof.
    split; [easy|]. split; [intros k Hk; unfold kind0; destruct (Nat.eqb_spec k 0); [lia|easy]|]. intros a b (A & _ & C & _). unfold kind0 in C. destruct (Nat.eqb_spec b 0); [lia|easy].
  Qed.
  Lemma set0 u v : (0 < n)%nat -> upd (series (pivots (kind0 u)) n) 0 (Fin (pivot 0 v)) = series (pivots (kind0 v)) n.
  Proof. intros Hn. rewrite mark_series by easy. unfold series. apply map_ext. intros k. unfold pivots, kind0. now destruct (k =? 0)%nat. Qed.
  (** Bars [1..i-1] have not moved far from the first bar. *)
  Definition calm (i : nat) : Prop := forall k, (1 <= k < i)%nat -> h 0%nat - h 0%nat * d / 100 < l k /\ h k < l 0%nat + l 0%nat * d / 100.
  Lemma zz_init_inv m : forall i x y, (1 <= i)%nat -> (i + m <= n)%nat -> calm i ->
    let st := mk_zz (series (pivots (kind0 false)) n) x y in
    exists st', zz_init (Fin d) (xseries h n) (xseries l n) st (seq i m) = Ok st' /\ (st' = st /\ calm (i + m) \/ (fst (zz_end st') < n)%nat /\ zz_inv (S (fst (zz_end st'))) st').
  Proof.
    induction m as [|m IH]; intros i x y Hi Hm C st; cbn [seq zz_init]; [exists st; split; [easy|]; left; now rewrite Nat.add_0_r|].
    destruct (Hp 0 ltac:(lia)) as [P01 P02]. destruct (Hp i ltac:(lia)) as [Pi1 Pi2].
    unfold xseries. rewrite (idx_series (fun k => Fin (h k)) 0 n) by lia. cbn [bind]. rewrite (idx_series (fun k => Fin (l k)) i n) by lia. cbn [bind]. rewrite x_pct by lra.
    destruct (Rleb (l i) _) eqn:Z; rewrite ?Rleb_true, ?Rleb_false in Z.
    - eexists. split; [reflexivity|]. right. cbn [zz_end fst]. split; [lia|]. exists (kind0 true), 0%nat, i, false. unfold st. cbn [zz_res]. change (Fin (h 0%nat)) with (Fin (pivot 0 true)) at 1. rewrite set0 by lia.
      split; [easy|]. split; [lia|]. split; [lia|]. split; [easy|]. split; [apply good0|]. split; [split|].
      + intros k Hk. destruct (Nat.eq_dec k i) as [->|]; [lra|]. destruct (C k ltac:(lia)). lra.
      + apply below_above; lra.
      + intros k Hk. lia.
    - rewrite (idx_series (fun k => Fin (h k)) i n), (idx_series (fun k => Fin (l k)) 0 n) by lia. cbn [bind]. rewrite x_pct_low by lra.
      destruct (Rleb _ (h i)) eqn:Z2; rewrite ?Rleb_true, ?Rleb_false in Z2.
      + eexists. split; [reflexivity|]. right. cbn [zz_end fst]. split; [lia|]. exists (kind0 false), 0%nat, i, true. unfold st. cbn [zz_res]. change (Fin (l 0%nat)) with (Fin (pivot 0 false)) at 1. rewrite set0 by lia.
        split; [easy|]. split; [lia|]. split; [lia|]. split; [easy|]. split; [apply good0|]. split; [split|].
        * intros k Hk. destruct (Nat.eq_dec k i) as [->|]; [lra|]. destruct (C k ltac:(lia)). lra.
        * now apply above_lt.
        * intros k Hk. lia.
      + destruct (IH (S i) x y ltac:(lia) ltac:(lia)) as (st' & E & D).
        * intros k Hk. destruct (Nat.eq_dec k i) as [->|]; [split; lra|]. apply C. lia.
        * exists st'. split; [exact E|]. replace (i + S m)%nat with (S i + m)%nat by lia. exact D.
  Qed.
  Lemma zigzag_main : (2 <= n)%nat -> exists kind p last, zigzag (xseries h n) (xseries l n) (Some (Fin d)) =
    Ok (series (fun k => if (k =? n - 1)%nat then Fin (pivot k last) else pivots kind k) n) /\ (p < n - 1)%nat /\ good kind p.
  Proof.
    intros Hn. unfold zigzag. cbn [unwrap_or]. 
    assert (LN : forall f : nat -> R, length (xseries f n) = n) by (intros; apply length_series). assert (IL : forall (f : nat -> R) k, (k < n)%nat -> idx (xseries f n) k = Ok (Fin (f k))) by (intros f k Hk; apply (idx_series (fun k => Fin (f k))); exact Hk).
    rewrite !LN. rewrite IL by lia. cbn [bind]. unfold usub. rewrite (proj2 (Nat.leb_le 1 n)) by lia. cbn [bind]. rewrite IL by lia. cbn [bind].
    assert (R0 : upd (repeat fnan n) 0 (Fin (l 0%nat)) = series (pivots (kind0 false)) n).
    { replace (repeat fnan n) with (series (fun _ : nat => NaN) n).
      - rewrite upd_series. unfold series. apply map_ext. intros k. unfold pivots, kind0. destruct (Nat.eqb_spec k 0) as [->|]; reflexivity.
      - unfold series. change (@fnan xr XR) with NaN. generalize 0%nat as a. generalize n. intros m. induction m as [|m IH]; intros a; [easy|]. cbn [seq map repeat]. f_equal. apply IH. }
    rewrite R0.
    destruct (zz_init_inv (n - 1) 1 (0%nat, Fin (l 0%nat)) ((n - 1)%nat, Fin (h (n - 1)%nat)) ltac:(lia) ltac:(lia)) as (st' & E & D); [intros k Hk; lia|]. cbv zeta in *. rewrite E. cbn [bind].
    assert (FIN : forall st, (exists kind p u, zz_res st = series (pivots kind) n /\ (p < n - 1)%nat /\ good kind p /\ u = u :> unit) ->
      exists kind p last, (let* rl := idx (zz_res st) (n - 1) in if fisnan rl then if fgtb (snd (zz_start st)) (snd (zz_end st)) then Ok (upd (zz_res st) (n - 1) (Fin (h (n - 1)%nat))) else let* ll := idx (xseries l n) (n - 1) in Ok (upd (zz_res st) (n - 1) ll) else Ok (zz_res st)) =
      Ok (series (fun k => if (k =? n - 1)%nat then Fin (pivot k last) else pivots kind k) n) /\ (p < n - 1)%nat /\ good kind p).
    { intros st (kind & p & _ & R & Hpn & G & _). rewrite R. rewrite idx_series by lia. cbn [bind]. assert (N : pivots kind (n - 1) = NaN) by (unfold pivots; destruct G as (_ & G & _); now rewrite G by lia). rewrite N.
      change (@fisnan xr XR NaN) with true. cbv iota. unfold xseries. rewrite idx_series by lia. cbn [bind].
      destruct (fgtb _ _); rewrite upd_series; [exists kind, p, true|exists kind, p, false]; (split; [|now split]); f_equal; unfold series; apply map_ext; intros k; destruct (Nat.eqb_spec k (n - 1)) as [->|]; reflexivity. }
    destruct D as [[-> _]|[Hlt I]].
    - cbn [zz_end fst]. rewrite Nat.ltb_irrefl. cbn [bind]. apply FIN. exists (kind0 false), 0%nat, tt. repeat split; try easy; try lia; apply good0.
    - destruct (Nat.ltb_spec (fst (zz_end st')) (n - 1)) as [L|L].
      + replace (n - fst (zz_end st'))%nat with (S (n - 1 - fst (zz_end st'))) by lia. cbn [seq zz_loop]. rewrite zz_step_same by easy. cbn [bind].
        destruct (zz_loop_inv (n - 1 - fst (zz_end st')) (S (fst (zz_end st'))) st' ltac:(lia) I) as (st2 & E2 & I2). rewrite E2. cbn [bind]. apply FIN.
        destruct I2 as (kind & p & e & up & -> & Hpe & _ & _ & G & _). exists kind, p, tt. repeat split; try easy; try lia; apply G.
      + cbn [bind]. apply FIN. destruct I as (kind & p & e & up & -> & Hpe & _ & _ & G & _). cbn [zz_end fst] in *. exists kind, p, tt. repeat split; try easy; try lia; apply G.
  Qed.
End Zigzag.

(** On positive prices whose bars do not span the threshold by themselves, every
    printed value is the high or the low of its bar, the first and the last bar
    are always printed, and the pivots in between alternate: each is the extreme
    of the leg that leads to it, at least [d] percent away from the one before. *)
Theorem zigzag_real h l n dist : (2 <= n)%nat -> let d := unwrap_or dist 5 in 0 < d -> (forall k, (k < n)%nat -> 0 < l k <= h k) ->
  (forall k, (k < n)%nat -> 100 * ((h k - l k) / l k) < d) ->
  exists kind last, zigzag (xseries h n) (xseries l n) (option_map Fin dist) =
    Ok (series (fun k => if (k =? n - 1)%nat then Fin (pivot h l k last) else pivots h l kind k) n) /\
  kind 0%nat <> None /\
  forall a b, consecutive kind a b -> exists u, kind a = Some (negb u) /\ kind b = Some u /\ leg h l d a b b u.
Proof.
  intros Hn d Hd Hp Hw. destruct (zigzag_main h l n d Hd Hp) as (kind & p & last & E & _ & G0 & _ & G2); [|exact Hn|].
  - intros k Hk. specialize (Hw k Hk). destruct (Hp k Hk). apply Rnot_le_lt. intros Z. apply above_iff in Z; [unfold above in Z|]; lra.
  - exists kind, last. split; [|now split]. rewrite <- E. unfold d. destruct dist; cbn [option_map unwrap_or]; [easy|]. unfold zigzag. cbn [unwrap_or]. now rewrite x_lit.
Qed.

(** Whatever the arithmetic: a printed pivot is the high or the low of its bar. *)
Section ZigzagGeneric.
  Context {F : Type} {FO : FOps F}.
  Variables (h l : nat -> F) (n : nat) (dist : F).
  Definition of_bar (k : nat) (v : F) : Prop := v = h k \/ v = l k.
  Definition marks (res : list F) : Prop :=
    length res = n /\ (forall k v, nth_error res k = Some v -> v = fnan \/ of_bar k v) /\ (forall v, nth_error res 0 = Some v -> of_bar 0 v).
  Lemma marks_upd res k v : marks res -> of_bar k v -> (k < n)%nat -> marks (upd res k v).
  Proof.
    intros (L & M & Z) B Hk. assert (U : forall j, nth_error (upd res k v) j = if (j =? k)%nat then Some v else nth_error res j).
    { clear - L Hk. revert n L k Hk. induction res as [|a res IH]; intros n L k Hk j; cbn in L; [lia|]. destruct k as [|k]; cbn [upd].
      - destruct j; reflexivity.
      - destruct j as [|j]; [reflexivity|]. cbn [nth_error Nat.eqb]. apply (IH (length res)); [easy|lia]. }
    split; [now rewrite length_upd|]. split.
    - intros j x. rewrite U. destruct (Nat.eqb_spec j k) as [->|]; [intros [= <-]; now right|apply M].
    - intros x. rewrite U. destruct (Nat.eqb_spec 0 k) as [<-|]; [intros [= <-]; exact B|apply Z].
  Qed.
  Definition zz_ok (st : zz_state) : Prop := marks (zz_res st) /\ (fst (zz_end st) < n)%nat /\ of_bar (fst (zz_end st)) (snd (zz_end st)).
  Lemma zz_init_ok idxs : forall st st', (forall i, In i idxs -> (i < n)%nat) -> (0 < n)%nat -> zz_ok st -> zz_init dist (series h n) (series l n) st idxs = Ok st' -> zz_ok st'.
  Proof.
    induction idxs as [|i idxs IH]; intros st st' Hi Hn I E; cbn [zz_init] in E; [now injection E as <-|].
    assert (i < n)%nat by (apply Hi; now left). rewrite !idx_series in E by easy. cbn [bind] in E.
    destruct (fgeb _ _) in E; [injection E as <-|]; [|destruct (fgeb _ _) in E; [injection E as <-|]].
    - destruct I as (M & _ & _). split; [apply marks_upd; [easy|now left|easy]|]. split; [easy|now right].
    - destruct I as (M & _ & _). split; [apply marks_upd; [easy|now right|easy]|]. split; [easy|now left].
    - apply (IH st st'); try easy. intros; apply Hi; now right.
  Qed.
  Lemma zz_step_ok st st' i : (i < n)%nat -> zz_ok st -> zz_step dist (series h n) (series l n) st i = Ok st' -> zz_ok st'.
  Proof.
    intros Hi (M & En & Eb) E. destruct st as [res start en]. cbn [zz_res zz_end] in *. unfold zz_step in E. rewrite !idx_series in E by easy. cbn [bind] in E.
    repeat match type of E with context [if ?c then _ else _] => destruct c end; injection E as <-; split; try (apply marks_upd; assumption); try exact M; (split; [assumption|]); cbn [zz_end fst snd]; try exact Eb; (now left) || (now right).
  Qed.
  Lemma zz_loop_ok idxs : forall st st', (forall i, In i idxs -> (i < n)%nat) -> zz_ok st -> zz_loop dist (series h n) (series l n) st idxs = Ok st' -> zz_ok st'.
  Proof.
    induction idxs as [|i idxs IH]; intros st st' Hi I E; cbn [zz_loop] in E; [now injection E as <-|].
    destruct (zz_step _ _ _ _ _) as [st1|] eqn:E1; cbn [bind] in E; [|easy]. apply (IH st1 st'); [intros; apply Hi; now right| |exact E]. apply (zz_step_ok st _ i); [apply Hi; now left|easy|easy].
  Qed.
  Lemma zigzag_marks o : zigzag (series h n) (series l n) (Some dist) = Ok o -> marks o /\ (fisnan (fnan : F) = true -> forall v, nth_error o (n - 1) = Some v -> of_bar (n - 1) v).
  Proof.
    intros E. unfold zigzag in E. cbn [unwrap_or] in E. rewrite !length_series in E. destruct n as [|m] eqn:Hm; [discriminate E|]. rewrite <- Hm in *. assert (Hn : (0 < n)%nat) by lia. clear m Hm.
    rewrite idx_series in E by lia. cbn [bind] in E. unfold usub in E. rewrite (proj2 (Nat.leb_le 1 n)) in E by lia. cbn [bind] in E. rewrite idx_series in E by lia. cbn [bind] in E.
    destruct (zz_init _ _ _ _ _) as [st1|] eqn:E1; cbn [bind] in E; [|easy].
    assert (I1 : zz_ok st1).
    { apply zz_init_ok in E1; [exact E1|intros i Hi; apply in_seq in Hi; lia|easy|]. split; [|split; [cbn; lia|now left]]. cbn [zz_res].
      assert (U : forall j, nth_error (upd (repeat (fnan : F) n) 0 (l 0%nat)) j = if (j =? 0)%nat then Some (l 0%nat) else nth_error (repeat (fnan : F) n) j) by (destruct n; [lia|]; intros [|j]; reflexivity).
      split; [now rewrite length_upd, repeat_length|]. split; intros; rewrite U in *; cbn [Nat.eqb] in *.
      - destruct (Nat.eqb_spec k 0) as [->|]; [injection H as <-; right; now right|]. left. apply nth_error_In in H. now apply repeat_spec in H.
      - injection H as <-. now right. }
    destruct (if (fst (zz_end st1) <? n - 1)%nat then _ else _) as [st2|] eqn:E2; cbn [bind] in E; [|easy].
    assert (I2 : zz_ok st2). { destruct (_ <? _)%nat in E2; [|now injection E2 as <-]. apply zz_loop_ok in E2; [easy| |easy]. intros i Hi. apply in_seq in Hi. destruct I1 as (_ & ? & _). lia. }
    destruct I2 as (M & _ & _). destruct (idx (zz_res st2) (n - 1)) as [rl|] eqn:E3; cbn [bind] in E; [|easy].
    assert (LAST : forall (v : F) (res : list F), nth_error (upd res (n - 1) v) (n - 1) = Some v \/ (length res <= n - 1)%nat).
    { intros v res. destruct (Nat.lt_ge_cases (n - 1) (length res)) as [Z|Z]; [left|now right]. clear -Z. revert Z. generalize (n - 1)%nat as k. intros k. revert k. induction res as [|a res IH]; intros k Z; cbn in Z; [lia|]. destruct k; cbn; [easy|]. apply IH. lia. }
    assert (LM : length (zz_res st2) = n) by apply M.
    destruct (fisnan rl) eqn:NN.
    - destruct (fgtb _ _) in E.
      + injection E as <-. split; [apply marks_upd; [easy|now left|lia]|]. intros _ v Hv. destruct (LAST (h (n - 1)%nat) (zz_res st2)) as [Z|Z]; [|lia]. rewrite Z in Hv. injection Hv as <-. now left.
      + rewrite idx_series in E by lia. cbn [bind] in E. injection E as <-. split; [apply marks_upd; [easy|now right|lia]|]. intros _ v Hv. destruct (LAST (l (n - 1)%nat) (zz_res st2)) as [Z|Z]; [|lia]. rewrite Z in Hv. injection Hv as <-. now right.
    - injection E as <-. split; [exact M|]. intros NF v Hv. unfold idx in E3. rewrite Hv in E3. injection E3 as <-. destruct M as (_ & M & _). destruct (M _ _ Hv) as [->|B]; [congruence|exact B].
  Qed.
End ZigzagGeneric.
Theorem zigzag_values {F} {FO : FOps F} (h l : nat -> F) n dist o : zigzag (series h n) (series l n) dist = Ok o ->
  length o = n /\ (forall k v, nth_error o k = Some v -> v = fnan \/ v = h k \/ v = l k) /\ (forall v, nth_error o 0 = Some v -> v = h 0%nat \/ v = l 0%nat) /\
  (fisnan (fnan : F) = true -> forall v, nth_error o (n - 1) = Some v -> v = h (n - 1)%nat \/ v = l (n - 1)%nat).
Proof.
  intros E. destruct (zigzag_marks h l n (unwrap_or dist (flit 5 1)) o) as ((L & M & Z) & W); [now destruct dist|]. repeat split; assumption.
Qed.

(** ** hurst *)
Definition slope (xs ys : list R) : R :=
  Rsum (map (fun '(x, y) => (x - mean xs) * (y - mean ys)) (combine xs ys)) / Rsum (map (fun x => (x - mean xs) ^ 2) xs).
Lemma x_linreg xs ys : xs <> [] -> length ys = length xs -> Rsum (map (fun x => (x - mean xs) ^ 2) xs) <> 0 -> linreg (map Fin xs) (map Fin ys) = Fin (slope xs ys).
Proof.
  intros Hx Hl NZ. assert (0 < length xs)%nat by (destruct xs; cbn; [easy|lia]). unfold linreg. rewrite !map_length, !x_nat, !x_lit, !x_fold_fadd, Hl.
  rewrite !x_div by now apply INR_neq0. fold (mean xs). replace (Rsum ys / INR (length xs)) with (mean ys) by (unfold mean; now rewrite Hl).
  unfold slope. generalize (mean ys) as my. generalize dependent (mean xs). intros mx NZ my.
  assert (G : forall xs ys a b, length ys = length xs -> fold_left (fun '(cv, v) '(xi, yi) => (fadd cv (fmul (fsub xi (Fin mx)) (fsub yi (Fin my))), fadd v (powi2 (fsub xi (Fin mx))))) (combine (map Fin xs) (map Fin ys)) (Fin a, Fin b)
     = (Fin (a + Rsum (map (fun '(x, y) => (x - mx) * (y - my)) (combine xs ys))), Fin (b + Rsum (map (fun x => (x - mx) ^ 2) xs)))).
  { clear. induction xs as [|x xs IH]; intros [|y ys] a b Hl; try discriminate; cbn [map combine fold_left]; [rewrite !Rsum_nil; do 2 f_equal; ring|].
    rewrite !x_sub, x_mul, x_pow2, !x_add, IH by (cbn in Hl; lia). rewrite !Rsum_cons. do 2 f_equal; ring. }
  rewrite G by easy. rewrite !Rplus_0_l. now apply x_div.
Qed.
(** Rescaled range of a chunk: range of the accumulated deviations from the mean
    over the sample standard deviation. *)
Definition drift (l : list R) (k : nat) : R := Rsum (firstn k (map (fun x => x - mean l) l)).
Definition rescaled (l : list R) : R :=
  (Rmax_list (map (drift l) (seq 1 (length l))) - Rmin_list (map (drift l) (seq 1 (length l)))) / sqrt (Rsum (map (fun x => (x - mean l) ^ 2) l) / INR (length l - 1)).
Lemma firstn_S_nth (l : list R) k : (k < length l)%nat -> firstn (S k) l = firstn k l ++ [nth k l 0].
Proof. revert k. induction l as [|a l IH]; intros k H; cbn in H; [lia|]. destruct k; [reflexivity|]. cbn [firstn nth app]. f_equal. apply IH. lia. Qed.
Lemma x_hurst_rs l : (2 <= length l)%nat -> Rsum (map (fun x => (x - mean l) ^ 2) l) <> 0 -> (forall k, (k <= length l)%nat -> Rabs (drift l k) <= max_f64) ->
  hurst_rs (map Fin l) = Fin (rescaled l).
Proof.
  intros Hl NZ B. unfold hurst_rs. rewrite x_fsum, map_length, !x_nat, x_div by (apply INR_neq0; lia). fold (mean l). change (@fminval xr XR) with (Fin (- max_f64)). change (@fmaxval xr XR) with (Fin max_f64). rewrite !x_lit.
  set (dv := map (fun x => x - mean l) l).
  assert (G : forall k, (k <= length l)%nat -> fold_left (hurst_step (Fin (mean l))) (map Fin (firstn k l)) (Fin (- max_f64), Fin max_f64, Fin 0, Fin 0) =
     (Fin (fold_left Rmax (map (drift l) (seq 1 k)) (- max_f64)), Fin (fold_left Rmin (map (drift l) (seq 1 k)) max_f64), Fin (drift l k), Fin (Rsum (map (fun x => (x - mean l) ^ 2) (firstn k l))))).
  { induction k as [|k IH]; intros Hk; [cbn; unfold drift; cbn; reflexivity|].
    rewrite firstn_S_nth, map_app, fold_left_app, IH by lia. cbn [map fold_left]. unfold hurst_step. rewrite x_sub, !x_add, x_max, x_min, x_mul, x_add.
    rewrite seq_S, !map_app, !fold_left_app. cbn [map fold_left plus].
    assert (D : drift l k + (nth k l 0 - mean l) = drift l (S k)).
    { unfold drift. fold dv. rewrite (firstn_S_nth dv) by (unfold dv; rewrite map_length; lia). rewrite Rsum_app, Rsum_cons, Rsum_nil. unfold dv. rewrite (nth_indep (map (fun x => x - mean l) l) 0 (0 - mean l)) by (rewrite map_length; lia). rewrite (map_nth (fun x => x - mean l)). ring. }
    rewrite D, Rsum_app, Rsum_cons, Rsum_nil. do 2 f_equal. ring. }
  specialize (G (length l) (Nat.le_refl _)). rewrite firstn_all in G. rewrite G.
  assert (NE : map (drift l) (seq 1 (length l)) <> []) by (destruct l; cbn in *; [lia|easy]).
  rewrite fold_Rmax_list, fold_Rmin_list by easy. destruct (Rmax_list_spec _ NE) as [M1 _]. destruct (Rmin_list_spec _ NE) as [M2 _].
  assert (BB : forall x, In x (map (drift l) (seq 1 (length l))) -> - max_f64 <= x <= max_f64).
  { intros x Hx. apply in_map_iff in Hx as (k & <- & Hk). apply in_seq in Hk. specialize (B k ltac:(lia)). revert B. unfold Rabs. destruct (Rcase_abs _); lra. }
  rewrite Rmax_right, Rmin_right by (apply BB; assumption). rewrite x_sub.
  assert (0 < INR (length l - 1)) by (apply INR_pos; lia). assert (0 <= Rsum (map (fun x => (x - mean l) ^ 2) l)) by (apply Rsum_nonneg; intros x Hx; apply in_map_iff in Hx as (y & <- & _); apply pow2_ge_0).
  rewrite x_div by lra. assert (0 < Rsum (map (fun x => (x - mean l) ^ 2) l) / INR (length l - 1)) by (apply Rdiv_lt_0_compat; lra).
  rewrite x_sqrt by lra. apply x_div. apply Rgt_not_eq, sqrt_lt_R0. lra.
Qed.
(** A chunk that is not constant has a positive rescaled range. *)
Theorem rescaled_pos l : (2 <= length l)%nat -> Rsum (map (fun x => (x - mean l) ^ 2) l) <> 0 -> 0 < rescaled l.
Proof.
  intros Hl NZ. assert (0 < INR (length l - 1)) by (apply INR_pos; lia). assert (0 <= Rsum (map (fun x => (x - mean l) ^ 2) l)) by (apply Rsum_nonneg; intros x Hx; apply in_map_iff in Hx as (y & <- & _); apply pow2_ge_0).
  unfold rescaled. apply Rdiv_lt_0_compat; [|apply sqrt_lt_R0; apply Rdiv_lt_0_compat; lra].
  assert (NE : map (drift l) (seq 1 (length l)) <> []) by (destruct l; cbn in *; [lia|easy]). destruct (Rmax_list_spec _ NE) as [_ M1]. destruct (Rmin_list_spec _ NE) as [_ M2].
  set (mx := Rmax_list _) in *. set (mn := Rmin_list _) in *. apply Rnot_le_lt. intros Z. apply NZ.
  assert (D0 : drift l (length l) = 0).
  { unfold drift. replace (length l) with (length (map (fun x => x - mean l) l)) by apply map_length. rewrite firstn_all. rewrite Rsum_map_sub, Rsum_const, map_id. unfold mean. field. apply INR_neq0. lia. }
  assert (DD : forall k, (k <= length l)%nat -> drift l k = 0).
  { intros k Hk. destruct k as [|k]; [unfold drift; cbn; now rewrite ?Rsum_nil|]. assert (I1 : In (drift l (S k)) (map (drift l) (seq 1 (length l)))) by (apply in_map, in_seq; lia). assert (I2 : In (drift l (length l)) (map (drift l) (seq 1 (length l)))) by (apply in_map, in_seq; lia).
    pose proof (M1 _ I1). pose proof (M2 _ I1). pose proof (M1 _ I2). pose proof (M2 _ I2). lra. }
  assert (X : forall k, (k < length l)%nat -> nth k l 0 - mean l = 0).
  { intros k Hk. pose proof (DD k ltac:(lia)) as A. pose proof (DD (S k) ltac:(lia)) as A'. unfold drift in A, A'. rewrite firstn_S_nth, Rsum_app, A, Rsum_cons, Rsum_nil in A' by (rewrite map_length; lia).
    rewrite (nth_indep (map (fun x => x - mean l) l) 0 (0 - mean l)), (map_nth (fun x => x - mean l)) in A' by (rewrite map_length; lia). lra. }
  rewrite <- (Rmult_0_r (INR (length l))), <- (Rsum_const 0 l). f_equal. apply map_ext_in. intros x Hx. apply (In_nth _ _ 0) in Hx as (k & Hk & <-). rewrite X by easy. ring.
Qed.
Definition log10 (x : R) : R := ln x / ln 10.
Definition chunks {A} (x : nat) (w : list A) : list (list A) := map (fun j => firstn x (skipn (j * x) w)) (seq 0 (length w / x)).
Lemma x_chunks x w : chunks_exact x (map Fin w) = map (map Fin) (chunks x w).
Proof. unfold chunks_exact, chunks. rewrite map_map, map_length. apply map_ext. intros j. now rewrite skipn_map, firstn_map. Qed.
(** The value of a window for the sub-window sizes [sizes]. *)
Theorem hurst_win_real sizes w : (forall x, In x sizes -> (2 <= x <= length w)%nat) ->
  (forall x c, In x sizes -> In c (chunks x w) -> Rsum (map (fun y => (y - mean c) ^ 2) c) <> 0 /\ forall k, (k <= x)%nat -> Rabs (drift c k) <= max_f64) ->
  (exists x y, In x sizes /\ In y sizes /\ x <> y) ->
  hurst_win sizes (map Fin w) = Ok (Fin (slope (map (fun x => log10 (INR x)) sizes) (map (fun x => log10 (mean (map rescaled (chunks x w)))) sizes))).
Proof.
  intros Hs Hc (a & b & Ia & Ib & Nab). unfold hurst_win.
  assert (L10 : 0 < ln 10) by (rewrite <- ln_1; apply ln_increasing; lra).
  assert (CL : forall x c, (0 < x)%nat -> In c (chunks x w) -> length c = x).
  { intros x c Hx Ic. apply in_map_iff in Ic as (j & <- & Hj). apply in_seq in Hj. rewrite firstn_length, skipn_length. pose proof (Nat.div_mod (length w) x ltac:(lia)). assert (S j * x <= length w)%nat by nia. nia. }
  rewrite (@rmap_Ok_map _ _ _ (fun x => Fin (log10 (mean (map rescaled (chunks x w)))))).
  - cbn [bind]. f_equal. rewrite (map_ext_in _ (fun x => Fin (log10 (INR x)))).
    2:{ intros x Hx. rewrite x_nat. specialize (Hs x Hx). cbn. unfold xlog, xmap. rewrite (proj2 (Rltb_true 0 (INR x))) by (apply INR_pos; lia). reflexivity. }
    rewrite <- (map_map (fun x => log10 (INR x)) Fin), <- (map_map (fun x => log10 (mean (map rescaled (chunks x w)))) Fin). apply x_linreg; [destruct sizes; [easy|discriminate]|now rewrite !map_length|].
    set (xs := map (fun x => log10 (INR x)) sizes). intros Z.
    assert (ZZ : forall x, In x xs -> x = mean xs).
    { intros x Hx. assert ((x - mean xs) ^ 2 = 0); [|nra]. apply (Rsum_zero (map (fun x => (x - mean xs) ^ 2) xs)); [intros y Hy; apply in_map_iff in Hy as (z & <- & _); apply pow2_ge_0|exact Z|now apply (in_map (fun x => (x - mean xs) ^ 2))]. }
    assert (log10 (INR a) = log10 (INR b)) as E. { rewrite (ZZ (log10 (INR a))), (ZZ (log10 (INR b))); [easy| |]; now apply (in_map (fun x => log10 (INR x))). }
    unfold log10 in E. assert (ln (INR a) = ln (INR b)) as E2. { apply (f_equal (fun r => r * ln 10)) in E. unfold Rdiv in E. rewrite !Rmult_assoc, Rinv_l in E by lra. lra. }
    apply ln_inv in E2; [now apply INR_eq in E2| |]; apply INR_pos; [specialize (Hs a Ia)|specialize (Hs b Ib)]; lia.
  - intros x Hx. specialize (Hs x Hx). unfold hurst_point. destruct (Nat.eqb_spec x 0); [lia|]. f_equal. rewrite x_chunks, map_length.
    assert (NC : chunks x w <> []). { unfold chunks. assert (1 <= length w / x)%nat by (apply Nat.div_le_lower_bound; lia). destruct (length w / x)%nat; [lia|easy]. }
    assert (FS : forall cs a, (forall c, In c cs -> In c (chunks x w)) -> fold_left (fun acc c => fadd acc (hurst_rs c)) (map (map Fin) cs) (Fin a) = Fin (a + Rsum (map rescaled cs))).
    { induction cs as [|c cs IH]; intros r Hcs; cbn [map fold_left]; [rewrite Rsum_nil; f_equal; ring|]. assert (Ic : In c (chunks x w)) by (apply Hcs; now left). destruct (Hc x c Hx Ic) as [H1 H2]. pose proof (CL x c ltac:(lia) Ic) as LC.
      rewrite x_hurst_rs by (try easy; try lia; rewrite LC; assumption). rewrite x_add, IH by (intros; apply Hcs; now right). rewrite Rsum_cons. f_equal. ring. }
    rewrite x_lit, FS by easy. rewrite Rplus_0_l, x_nat. assert (0 < length (chunks x w))%nat by (destruct (chunks x w); cbn; [easy|lia]). rewrite x_div by now apply INR_neq0.
    replace (Rsum (map rescaled (chunks x w)) / INR (length (chunks x w))) with (mean (map rescaled (chunks x w))) by (unfold mean; now rewrite map_length).
    assert (0 < mean (map rescaled (chunks x w))).
    { unfold mean. apply Rdiv_lt_0_compat; [|rewrite map_length; now apply INR_pos]. apply Rsum_pos; [|destruct (chunks x w); easy]. intros y Hy. apply in_map_iff in Hy as (c & <- & Ic). destruct (Hc x c Hx Ic) as [H1 _]. apply rescaled_pos; [rewrite (CL x c); lia || easy|easy]. }
    cbn. unfold xlog, xmap. rewrite (proj2 (Rltb_true 0 _)) by easy. reflexivity.
Qed.
