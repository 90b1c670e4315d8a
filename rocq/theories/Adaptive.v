(** * Adaptive: exact values of the adaptive averages kama, vma, vidya and frama,
    and of mdma, hwma and ssf. *)

From Coq Require Import Reals Lra Lia.
From Flocq Require Import Core.
From Verif Require Import NaN Poison RSpec XRFacts Bars DistReal VolatReal MomReal.
Local Unset Implicit Arguments.
Local Open Scope R_scope.

(** ** Specification *)

(** An adaptive average of [x] with gains [a], started from the value 0 before
    bar [k]: at each bar it moves by the share [a i] of its distance to the price.
    [adapt a x k j] is its value at bar [k + j]. *)
Fixpoint adapt (a x : nat -> R) (k j : nat) : R :=
  match j with
  | O => a k * x k
  | S j' => adapt a x k j' + a (k + j)%nat * (x (k + j)%nat - adapt a x k j')
  end.
Definition adaptive (a x : nat -> R) (k i : nat) : R := adapt a x k (i - k).

(** Length of the path of the last [w] prices. *)
Definition path (w : nat) (f : nat -> R) (i : nat) : R :=
  Rsum (map (fun k => Rabs (f k - f (k - 1)%nat)) (seq (i + 2 - w) (w - 1))).
(** kama: Kaufman's efficiency ratio and smoothing constant. *)
Definition kama_gain (w s l : nat) (f : nat -> R) (i : nat) : R :=
  let fast := 2 / INR (s + 1) in let slow := 2 / INR (l + 1) in
  let er := Rabs (f i - f (i + 1 - w)%nat) / path w f i in
  (er * (fast - slow) + slow) ^ 2.
(** vma: 2/(w+1) times the absolute momentum oscillator of 9 bars. *)
Definition vma_gain (w : nat) (f : nat -> R) (i : nat) : R :=
  let u := Rsum (last_bars 9 (up_move f) i) in let d := Rsum (last_bars 9 (down_move f) i) in
  2 / INR (w + 1) * Rabs ((u - d) / (u + d)).
(** vidya: 2/(w+1) times the deviation of 5 bars over its mean of 20 bars. *)
Definition vidya_gain (w : nat) (f : nat -> R) (i : nat) : R :=
  2 / INR (w + 1) * (sd (last_bars 5 f i) / mean (last_bars 20 (fun k => sd (last_bars 5 f k)) i)).

(** ** The average itself *)
Lemma adaptive_first a x k : adaptive a x k k = a k * x k.
Proof. unfold adaptive. now rewrite Nat.sub_diag. Qed.
Lemma adaptive_next a x k i : (k <= i)%nat -> adaptive a x k (S i) = adaptive a x k i + a (S i) * (x (S i) - adaptive a x k i).
Proof.
  intros H. unfold adaptive. replace (S i - k)%nat with (S (i - k)) by lia. cbn [adapt]. now replace (k + S (i - k))%nat with (S i) by lia.
Qed.
Theorem adaptive_inside a x k i lo hi : (k <= i)%nat -> lo <= 0 <= hi ->
  (forall j, (k <= j <= i)%nat -> 0 <= a j <= 1 /\ lo <= x j <= hi) -> lo <= adaptive a x k i <= hi.
Proof.
  intros Hi H0. replace i with (k + (i - k))%nat by lia. unfold adaptive. replace (k + (i - k) - k)%nat with (i - k)%nat by lia. generalize (i - k)%nat. clear i Hi.
  induction n as [|j IH]; intros H; cbn [adapt].
  - destruct (H k ltac:(lia)) as [A X]. split; nra.
  - specialize (IH ltac:(intros; apply H; lia)). destruct (H (k + S j)%nat ltac:(lia)) as [A X]. split; nra.
Qed.

Lemma x_adaptive {A} (g : xr -> A -> xr * xr) (b : nat -> A) a x k n :
  (forall i s, (k <= i < k + n)%nat -> g (Fin s) (b i) = (Fin (s + a i * (x i - s)), Fin (s + a i * (x i - s)))) ->
  scan g (Fin 0) (map b (seq k n)) = map (fun i => Fin (adaptive a x k i)) (seq k n).
Proof.
  intros H. apply (scan_inv_bars _ (fun i => if (i <=? k)%nat then Fin 0 else Fin (adaptive a x k (i - 1)))).
  - now rewrite Nat.leb_refl.
  - intros i Hi. rewrite (proj2 (Nat.leb_gt (S i) k)) by lia. cbn [minus]. rewrite Nat.sub_0_r. destruct (Nat.leb_spec i k).
    + replace i with k in * by lia. rewrite H by lia. rewrite adaptive_first. f_equal; f_equal; ring.
    + rewrite H by lia. destruct i as [|i]; [lia|]. cbn [minus]. rewrite Nat.sub_0_r. rewrite adaptive_next by lia. reflexivity.
Qed.

(** ** kama *)
Lemma x_path w f i : (0 < w <= i + 1)%nat ->
  fold_left (fun acc p => fadd acc (fabs (fsub (at_ p 0) (at_ p 1)))) (windows 2 (last_bars w (fun k => Fin (f k)) i)) (flit 0 1) = Fin (path w f i).
Proof.
  intros Hw. unfold last_bars. rewrite windows_bars by lia. unfold path. rewrite fold_left_map.
  rewrite x_lit, (x_fold_add _ (fun k => Rabs (f k - f (k - 1)%nat))).
  - f_equal. rewrite Rplus_0_l. do 2 f_equal. f_equal; lia.
  - intros k Hk. apply in_seq in Hk. unfold last_bars. cbn [seq map at_ nth]. rewrite x_sub, x_abs. f_equal.
    replace (k + 1 - 2)%nat with (k - 1)%nat by lia. replace (S (k - 1)) with k by lia. now rewrite Rabs_minus_sym.
Qed.
Theorem kama_real f n w short long : (0 < w)%nat ->
  (forall i, (w - 1 <= i < n)%nat -> path w f i <> 0) ->
  exists o, kama (xseries f n) w short long = Ok o /\
  aligned o n (w - 1) NaN (fun i => Fin (adaptive (kama_gain w (unwrap_or short 2%nat) (unwrap_or long 30%nat) f) f (w - 1) i)).
Proof.
  intros Hw H. unfold kama, usub. rewrite (proj2 (Nat.leb_le 1 w)) by lia. cbn [bind]. unfold xseries, series. rewrite rwindows_bars by lia. cbn [bind plus].
  eexists. split; [reflexivity|]. rewrite x_nan, (x_lit 0). rewrite (x_adaptive _ _ (kama_gain w (unwrap_or short 2%nat) (unwrap_or long 30%nat) f) f).
  - apply aligned_bars. lia.
  - intros i s Hi. unfold kama_step. rewrite x_path by lia.
    replace (last_ (last_bars w (fun k => Fin (f k)) i)) with (Fin (f i)) by (unfold last_; rewrite length_last_bars, nth_last_bars by lia; do 2 f_equal; lia).
    replace (at_ (last_bars w (fun k => Fin (f k)) i) 0) with (Fin (f (i + 1 - w)%nat)) by (unfold at_; rewrite nth_last_bars by lia; do 2 f_equal; lia).
    rewrite !x_nat, !x_lit. specialize (H i ltac:(lia)).
    rewrite !x_sub, x_abs, !x_div by (try easy; apply not_0_INR; lia). rewrite !x_sub, !x_mul, !x_add, x_pow2, !x_mul, !x_add.
    unfold kama_gain. f_equal; f_equal; ring.
Qed.
Lemma path_nonneg w f i : 0 <= path w f i.
Proof. apply Rsum_nonneg. intros x Hx. apply in_map_iff in Hx as (k & <- & _). apply Rabs_pos. Qed.
Lemma path_ge w f i : (0 < w <= i + 1)%nat -> Rabs (f i - f (i + 1 - w)%nat) <= path w f i.
Proof.
  intros Hw. unfold path. replace i with (i + 1 - w + (w - 1))%nat at 1 by lia. replace (i + 2 - w)%nat with (S (i + 1 - w)) by lia.
  generalize (i + 1 - w)%nat. intros a. generalize (w - 1)%nat. intros m. clear. induction m as [|m IH].
  - rewrite Nat.add_0_r. cbn. rewrite Rminus_diag_eq, Rabs_R0 by easy. lra.
  - rewrite seq_S, map_app, Rsum_app. cbn [map]. rewrite Rsum_cons, Rsum_nil. replace (S a + m)%nat with (a + S m)%nat by lia.
    replace (a + S m - 1)%nat with (a + m)%nat by lia.
    pose proof (Rabs_triang (f (a + S m)%nat - f (a + m)%nat) (f (a + m)%nat - f a)) as T.
    replace (f (a + S m)%nat - f (a + m)%nat + (f (a + m)%nat - f a)) with (f (a + S m)%nat - f a) in T by ring. lra.
Qed.
Lemma two_over s : (1 <= s)%nat -> 0 <= 2 / INR (s + 1) <= 1.
Proof.
  intros H. apply le_INR in H. cbn in H. rewrite plus_INR. cbn. split.
  - apply Rlt_le, Rdiv_lt_0_compat; lra.
  - apply Rmult_le_reg_r with (INR s + 1); [lra|]. unfold Rdiv. rewrite Rmult_assoc, Rinv_l; lra.
Qed.
(** Its gain is between 0 and 1, so kama stays in the range of 0 and the prices so far. *)
Theorem kama_gain_unit w s l f i : (0 < w <= i + 1)%nat -> (1 <= s)%nat -> (1 <= l)%nat -> path w f i <> 0 -> 0 <= kama_gain w s l f i <= 1.
Proof.
  intros Hw Hs Hl HP. unfold kama_gain. pose proof (path_ge w f i Hw) as G. pose proof (path_nonneg w f i) as P. pose proof (Rabs_pos (f i - f (i + 1 - w)%nat)).
  assert (E : 0 <= Rabs (f i - f (i + 1 - w)%nat) / path w f i <= 1).
  { assert (0 < path w f i) by lra. split.
    - unfold Rdiv. apply Rmult_le_pos; [easy|]. apply Rlt_le. now apply Rinv_0_lt_compat.
    - apply Rmult_le_reg_r with (path w f i); [easy|]. unfold Rdiv. rewrite Rmult_assoc, Rinv_l; lra. }
  pose proof (two_over s Hs). pose proof (two_over l Hl). cbv zeta. set (e := _ / path w f i) in *. set (a := 2 / INR (s + 1)) in *. set (b := 2 / INR (l + 1)) in *.
  assert (0 <= e * (a - b) + b <= 1) by nra. split; nra.
Qed.
Theorem kama_inside f n w short long o i lo hi : (0 < w)%nat -> (1 <= unwrap_or short 2)%nat -> (1 <= unwrap_or long 30)%nat ->
  (forall i, (w - 1 <= i < n)%nat -> path w f i <> 0) -> lo <= 0 <= hi -> (forall k, (k < n)%nat -> lo <= f k <= hi) ->
  kama (xseries f n) w short long = Ok o -> (w - 1 <= i < n)%nat -> exists y, nth_error o i = Some (Fin y) /\ lo <= y <= hi.
Proof.
  intros Hw Hs Hl H H0 HB E Hi. destruct (kama_real f n w short long Hw H) as (o' & E' & _ & _ & V). rewrite E in E'. injection E' as <-.
  eexists. split; [apply V; lia|]. apply adaptive_inside; [lia|easy|]. intros j Hj. split; [|apply HB; lia]. apply kama_gain_unit; auto; [lia|]. apply H. lia.
Qed.

(** ** vma *)
Lemma x_run_up f i : run_up (fun k => Fin (f k)) i = Fin (sum_bars (up_move f) 1 i).
Proof.
  induction i as [|i IH]; cbn [run_up]; [now rewrite sum_bars_empty, x_lit by lia|]. rewrite IH, x_sub, x_lit, x_max, x_add.
  destruct i as [|i]; [rewrite sum_bars_empty, sum_bars_single by lia; f_equal; unfold up_move; cbn [minus]; ring|]. rewrite (sum_bars_last _ 1 (S i)) by lia. unfold up_move at 2. now replace (S (S i) - 1)%nat with (S i) by lia.
Qed.
Lemma x_run_down f i : run_down (fun k => Fin (f k)) i = Fin (sum_bars (down_move f) 1 i).
Proof.
  induction i as [|i IH]; cbn [run_down]; [now rewrite sum_bars_empty, x_lit by lia|]. rewrite IH, x_sub, x_lit, x_max, x_add.
  destruct i as [|i]; [rewrite sum_bars_empty, sum_bars_single by lia; f_equal; unfold down_move; cbn [minus]; ring|]. rewrite (sum_bars_last _ 1 (S i)) by lia. unfold down_move at 2. now replace (S (S i) - 1)%nat with (S i) by lia.
Qed.
Theorem vma_real f n w :
  (forall i, (9 <= i < n)%nat -> Rsum (last_bars 9 (up_move f) i) + Rsum (last_bars 9 (down_move f) i) <> 0) ->
  exists o, vma (xseries f n) w = Ok o /\
  aligned o n (Nat.max w 9) NaN (fun i => Fin (adaptive (vma_gain w f) f 9 i)).
Proof.
  intros H. unfold vma. eexists. split; [reflexivity|]. rewrite x_nan. unfold xseries, series.
  assert (S : scan (vma_step (fdiv (flit 2 1) (fofnat (w + 1)))) (flit 0 1)
     (combine (cmo_raw (map (fun k => Fin (f k)) (seq 0 n)) 9) (skipn 9 (map (fun k => Fin (f k)) (seq 0 n)))) =
     map (fun i => Fin (adaptive (vma_gain w f) f 9 i)) (seq 9 (n - 9))).
  { rewrite skipn_bars. cbn [plus]. destruct (le_lt_dec n 9) as [L|L].
    { replace (n - 9)%nat with 0%nat by lia. cbn [seq map]. now rewrite combine_nil. }
    fold (series (fun k => Fin (f k)) n). rewrite cmo_raw_bars by lia. rewrite combine_bars, Nat.min_id, (x_lit 0). apply x_adaptive.
    intros i s Hi. cbv zeta. unfold vma_step. rewrite !x_run_up, !x_run_down, !x_sub, !x_lit, x_nat.
    assert (G : forall g, sum_bars g 1 i - sum_bars g 1 (i - 9) = Rsum (last_bars 9 g i)).
    { intros g. unfold sum_bars, last_bars. replace (i + 1 - 1)%nat with ((i - 9) + 9)%nat by lia. rewrite seq_app, map_app, Rsum_app.
      replace (i - 9 + 1 - 1)%nat with (i - 9)%nat by lia. replace (1 + (i - 9))%nat with (i + 1 - 9)%nat by lia. ring. }
    rewrite !G, !x_add, !x_div by (try (apply not_0_INR; lia); apply H; lia). rewrite x_abs, !x_mul, !x_add. unfold vma_gain. cbv zeta. f_equal; f_equal; ring. }
  rewrite S, skipn_bars. replace (9 + (Nat.max w 9 - 9))%nat with (Nat.max w 9) by lia. apply aligned_bars. lia.
Qed.
Theorem vma_gain_unit w f i : (1 <= w)%nat -> Rsum (last_bars 9 (up_move f) i) + Rsum (last_bars 9 (down_move f) i) <> 0 -> 0 <= vma_gain w f i <= 1.
Proof.
  intros Hw H. unfold vma_gain. cbv zeta. set (u := Rsum (last_bars 9 (up_move f) i)) in *. set (d := Rsum (last_bars 9 (down_move f) i)) in *.
  assert (0 <= u) by (apply Rsum_nonneg; intros x Hx; apply in_map_iff in Hx as (k & <- & _); apply up_move_nonneg).
  assert (0 <= d) by (apply Rsum_nonneg; intros x Hx; apply in_map_iff in Hx as (k & <- & _); apply down_move_nonneg).
  pose proof (cmo_range u d ltac:(easy) ltac:(easy) H) as C. pose proof (two_over w Hw). pose proof (Rabs_pos ((u - d) / (u + d))).
  assert (Rabs ((u - d) / (u + d)) <= 1) by (apply Rabs_le; lra). split; nra.
Qed.
Theorem vma_inside f n w o i lo hi : (1 <= w)%nat ->
  (forall i, (9 <= i < n)%nat -> Rsum (last_bars 9 (up_move f) i) + Rsum (last_bars 9 (down_move f) i) <> 0) ->
  lo <= 0 <= hi -> (forall k, (k < n)%nat -> lo <= f k <= hi) ->
  vma (xseries f n) w = Ok o -> (Nat.max w 9 <= i < n)%nat -> exists y, nth_error o i = Some (Fin y) /\ lo <= y <= hi.
Proof.
  intros Hw H H0 HB E Hi. destruct (vma_real f n w H) as (o' & E' & _ & _ & V). rewrite E in E'. injection E' as <-.
  eexists. split; [apply V; lia|]. apply adaptive_inside; [lia|easy|]. intros j Hj. split; [|apply HB; lia]. apply vma_gain_unit; auto. apply H. lia.
Qed.

(** ** vidya *)
Lemma x_std5 f n w : (0 < w)%nat -> std_dev_raw (xseries f n) w = Ok (map (fun i => Fin (sd (last_bars w f i))) (seq (w - 1) (n + 1 - w))).
Proof.
  intros Hw. unfold std_dev_raw, xseries, series. rewrite rwindows_bars by easy. cbn [bind plus]. f_equal. rewrite map_map. apply map_ext_in. intros i _.
  unfold std_dev_win. now rewrite x_last_bars, x_sd by (rewrite ?length_last_bars; lia).
Qed.
(** The inputs of vidya's recurrence, bar by bar. *)
Lemma vidya_bars f n w : exists o, vidya (xseries f n) w = Ok o /\
  o = pad 23 NaN ++ scan (vidya_step (Fin (2 / INR (w + 1)))) (Fin 0)
        (map (fun i => (Fin (mean (last_bars 20 (fun k => sd (last_bars 5 f k)) i)), Fin (sd (last_bars 5 f i)), Fin (f i))) (seq 23 (n - 23))).
Proof.
  unfold vidya. rewrite x_std5 by lia. cbn [bind]. rewrite sma_bars by lia. cbn [bind]. eexists. split; [reflexivity|].
  rewrite x_nan, !x_lit, x_nat, x_div by (apply not_0_INR; lia). do 2 f_equal.
  change (skipn 19 (pad (20 - 1) NaN ++ ?m)) with m. rewrite skipn_bars. unfold xseries, series. rewrite skipn_bars. unfold zip3. cbn [plus minus].
  rewrite !combine_bars. f_equal. f_equal. lia.
Qed.
Theorem vidya_real f n w : (forall i, (23 <= i < n)%nat -> mean (last_bars 20 (fun k => sd (last_bars 5 f k)) i) <> 0) ->
  exists o, vidya (xseries f n) w = Ok o /\ aligned o n 23 NaN (fun i => Fin (adaptive (vidya_gain w f) f 23 i)).
Proof.
  intros H. destruct (vidya_bars f n w) as (o & E & ->). exists (pad 23 NaN ++ map (fun i => Fin (adaptive (vidya_gain w f) f 23 i)) (seq 23 (n - 23))). split; [|apply aligned_bars; lia].
  rewrite E. do 2 f_equal. apply x_adaptive. intros i s Hi. unfold vidya_step. rewrite x_div by (apply H; lia). rewrite x_sub, !x_mul, x_add. unfold vidya_gain. f_equal; f_equal; ring.
Qed.
(** 24 equal prices in a row end it (exact arithmetic). *)
Theorem vidya_flat_forever f n w p : (23 <= p)%nat -> (forall k, (p - 23 <= k <= p)%nat -> f k = f p) ->
  exists o, vidya (xseries f n) w = Ok o /\ forall i, (p <= i < n)%nat -> nth_error o i = Some NaN.
Proof.
  intros Hp Flat. destruct (vidya_bars f n w) as (o & E & ->). eexists. split; [exact E|]. intros i Hi.
  rewrite nth_error_app2 by (unfold pad; rewrite repeat_length; lia). unfold pad. rewrite repeat_length.
  rewrite scan_fst by (intros ? [[]]; reflexivity). change NaN with (@fnan xr XR).
  apply (scan_poison (fun s x => fst (vidya_step (Fin (2 / INR (w + 1))) s x)) (fun i => (Fin (mean (last_bars 20 (fun k => sd (last_bars 5 f k)) i)), Fin (sd (last_bars 5 f i)), Fin (f i))) (Fin 0) 23 (n - 23) p); [easy| | |lia].
  - intros s. unfold vidya_step. cbn [fst].
    assert (Z : forall k, (p - 19 <= k <= p)%nat -> sd (last_bars 5 f k) = 0).
    { intros k Hk. unfold sd, last_bars. rewrite (repeat_bars f (f p)) by (intros j Hj; apply Flat; lia). rewrite <- sqrt_0. f_equal. unfold var.
      assert (M : mean (repeat (f p) 5) = f p) by (apply mean_const; [easy|intros x Hx; now apply repeat_spec in Hx]). rewrite M.
      apply mean_const; [easy|]. intros x Hx. apply in_map_iff in Hx as (y & <- & Hy). apply repeat_spec in Hy as ->. ring. }
    assert (M : mean (last_bars 20 (fun k => sd (last_bars 5 f k)) p) = 0).
    { apply mean_const; [now apply last_bars_nonempty; lia|]. intros x Hx. apply in_map_iff in Hx as (k & <- & Hk). apply in_seq in Hk. apply Z. lia. }
    rewrite M, Z by lia. change (fdiv (Fin 0) (Fin 0)) with (quot 0 0). rewrite x_nan, quot_0_0. now rewrite x_mul_nan_r, x_mul_nan_l, x_add_nan_l.
  - intros j _. unfold vidya_step. cbn [fst]. rewrite x_nan. now rewrite x_sub_nan_r, x_mul_nan_r, x_add_nan_l.
Qed.

(** ** frama *)
(** Fractal dimension of the window: the ranges of its two halves against its own. *)
Definition frama_gain (w : nat) (f : nat -> R) (i : nat) : R :=
  let m := (w / 2)%nat in
  let n1 := (highest m f (i - m) - lowest m f (i - m)) / INR m in
  let n2 := (highest m f i - lowest m f i) / INR m in
  let n3 := (highest w f i - lowest w f i) / INR w in
  if Req (n1 + n2) 0 then 1
  else clamp 0.01 1 (exp (-4.6 * ((ln (n1 + n2) - ln n3) / ln 2 - 1))).

Lemma fold_four (l1 l2 : list xr) a b c d : length l1 = length l2 ->
  fold_left (fun '(hh1, ll1, hh2, ll2) '(x1, x2) => (fmax hh1 x1, fmin ll1 x1, fmax hh2 x2, fmin ll2 x2)) (combine l1 l2) (a, b, c, d) =
  (fold_left fmax l1 a, fold_left fmin l1 b, fold_left fmax l2 c, fold_left fmin l2 d).
Proof.
  revert l2 a b c d. induction l1 as [|x l1 IH]; intros [|y l2] a b c d L; try easy. cbn [combine fold_left]. apply IH. now injection L.
Qed.
Lemma x_clamp_val lo hi x : lo <= hi -> fclamp_val (Fin x) (Fin lo) (Fin hi) = Fin (clamp lo hi x).
Proof.
  intros H. unfold fclamp_val, clamp. rewrite x_ltb. cbv zeta. unfold Rmax, Rmin.
  destruct (Rltb x lo) eqn:E1; [apply Rltb_true in E1|apply Rltb_false in E1]; rewrite x_ltb;
    match goal with |- context [Rltb ?a ?b] => destruct (Rltb a b) eqn:E2 end; [apply Rltb_true in E2|apply Rltb_false in E2|apply Rltb_true in E2|apply Rltb_false in E2];
    repeat destruct (Rle_dec _ _); try lra; f_equal; lra.
Qed.
Lemma Rmax_list_rev l : l <> [] -> Rmax_list (rev l) = Rmax_list l.
Proof.
  intros H. apply (is_max_unique l); [|now apply Rmax_list_spec]. destruct (Rmax_list_spec (rev l)) as [I M].
  { intros E. apply (f_equal (@rev R)) in E. now rewrite rev_involutive in E. }
  split; [now apply in_rev|]. intros x Hx. apply M. now apply in_rev in Hx.
Qed.
Lemma Rmin_list_rev l : l <> [] -> Rmin_list (rev l) = Rmin_list l.
Proof.
  intros H. apply (is_min_unique l); [|now apply Rmin_list_spec]. destruct (Rmin_list_spec (rev l)) as [I M].
  { intros E. apply (f_equal (@rev R)) in E. now rewrite rev_involutive in E. }
  split; [now apply in_rev|]. intros x Hx. apply M. now apply in_rev in Hx.
Qed.
Lemma max_from l : l <> [] -> (forall x, In x l -> - max_f64 <= x) -> fold_left fmax (map Fin l) fminval = Fin (Rmax_list l).
Proof.
  intros Hl H. change fminval with (Fin (- max_f64)). rewrite x_fold_max_from, fold_Rmax_list by easy. f_equal. apply Rmax_right. apply H. now apply Rmax_list_spec.
Qed.
Lemma min_from l : l <> [] -> (forall x, In x l -> x <= max_f64) -> fold_left fmin (map Fin l) fmaxval = Fin (Rmin_list l).
Proof.
  intros Hl H. change fmaxval with (Fin max_f64). rewrite x_fold_min_from, fold_Rmin_list by easy. f_equal. apply Rmin_right. apply H. now apply Rmin_list_spec.
Qed.
Lemma range_nonneg m f i : (0 < m <= i + 1)%nat -> lowest m f i <= highest m f i.
Proof.
  intros H. destruct (highest_spec m f i H) as [_ A]. destruct (lowest_spec m f i H) as [_ B]. specialize (A i). specialize (B i). apply Rle_trans with (f i); [apply B|apply A]; lia.
Qed.
(** The whole window's extremes are those of its halves. *)
Lemma highest_halves m f i : (0 < m)%nat -> (2 * m <= i + 1)%nat -> highest (2 * m) f i = Rmax (highest m f (i - m)) (highest m f i).
Proof.
  intros Hm Hi. apply (is_max_unique (last_bars (2 * m) f i)); [apply Rmax_list_spec, last_bars_nonempty; lia|].
  destruct (highest_spec m f (i - m) ltac:(lia)) as [(k1 & A1 & A2 & E1) U1]. destruct (highest_spec m f i ltac:(lia)) as [(k2 & B1 & B2 & E2) U2]. split.
  - apply In_last_bars; [lia|]. unfold Rmax. destruct (Rle_dec _ _); [exists k2|exists k1]; repeat split; auto; lia.
  - intros x Hx. apply In_last_bars in Hx; [|lia]. destruct Hx as (k & K1 & K2 & ->). destruct (le_lt_dec k (i - m)).
    + eapply Rle_trans; [apply U1; lia|apply Rmax_l].
    + eapply Rle_trans; [apply U2; lia|apply Rmax_r].
Qed.
Lemma lowest_halves m f i : (0 < m)%nat -> (2 * m <= i + 1)%nat -> lowest (2 * m) f i = Rmin (lowest m f (i - m)) (lowest m f i).
Proof.
  intros Hm Hi. apply (is_min_unique (last_bars (2 * m) f i)); [apply Rmin_list_spec, last_bars_nonempty; lia|].
  destruct (lowest_spec m f (i - m) ltac:(lia)) as [(k1 & A1 & A2 & E1) U1]. destruct (lowest_spec m f i ltac:(lia)) as [(k2 & B1 & B2 & E2) U2]. split.
  - apply In_last_bars; [lia|]. unfold Rmin. destruct (Rle_dec _ _); [exists k1|exists k2]; repeat split; auto; lia.
  - intros x Hx. apply In_last_bars in Hx; [|lia]. destruct Hx as (k & K1 & K2 & ->). destruct (le_lt_dec k (i - m)).
    + eapply Rle_trans; [apply Rmin_l|apply U1; lia].
    + eapply Rle_trans; [apply Rmin_r|apply U2; lia].
Qed.

Theorem frama_real f n m : (0 < m)%nat -> (forall k, (k < n)%nat -> - max_f64 <= f k <= max_f64) ->
  (forall i, (2 * m - 1 <= i < n)%nat -> lowest (2 * m) f i < highest (2 * m) f i) ->
  exists o, frama (xseries f n) (2 * m) = Ok (Some o) /\
  aligned o n (2 * m - 1) NaN (fun i => Fin (adaptive (frama_gain (2 * m) f) f (2 * m - 1) i)).
Proof.
  intros Hm HB H. unfold frama. replace (2 * m mod 2 =? 0)%nat with true by (symmetry; apply Nat.eqb_eq; rewrite Nat.mul_comm; apply Nat.mod_mul; lia). cbn [negb].
  unfold usub. rewrite (proj2 (Nat.leb_le 1 (2 * m))) by lia. cbn [bind]. unfold xseries, series. rewrite rwindows_bars by lia. cbn [bind plus].
  eexists. split; [reflexivity|]. rewrite x_nan, (x_lit 0). rewrite (x_adaptive _ _ (frama_gain (2 * m) f) f); [apply aligned_bars; lia|].
  intros i s Hi. specialize (H i ltac:(lia)). assert (M2 : (2 * m / 2 = m)%nat) by (rewrite Nat.mul_comm; apply Nat.div_mul; lia).
  unfold frama_step, frama_gain. rewrite !M2. rewrite x_last_bars. rewrite fold_four.
  2:{ rewrite !firstn_length, rev_length. reflexivity. }
  assert (L1 : firstn m (map Fin (last_bars (2 * m) f i)) = map Fin (last_bars m f (i - m))).
  { rewrite firstn_map. f_equal. unfold last_bars. rewrite firstn_bars. f_equal. f_equal; lia. }
  assert (L2 : firstn m (rev (map Fin (last_bars (2 * m) f i))) = map Fin (rev (last_bars m f i))).
  { rewrite <- map_rev, firstn_map. f_equal. unfold last_bars. rewrite <- !map_rev, firstn_map. f_equal. rewrite firstn_rev, seq_length.
    rewrite skipn_seq'. do 2 f_equal; lia. }
  rewrite L1, L2.
  assert (N1 : last_bars m f (i - m) <> []) by now apply last_bars_nonempty. assert (N2 : last_bars m f i <> []) by now apply last_bars_nonempty.
  assert (N3 : rev (last_bars m f i) <> []). { intros E. apply (f_equal (@rev R)) in E. now rewrite rev_involutive in E. }
  assert (B1 : forall x, In x (last_bars m f (i - m)) -> - max_f64 <= x <= max_f64) by (intros x Hx; apply In_last_bars in Hx as (k & K1 & K2 & ->); [apply HB; lia|lia]).
  assert (B2 : forall x, In x (rev (last_bars m f i)) -> - max_f64 <= x <= max_f64) by (intros x Hx; apply in_rev in Hx; apply In_last_bars in Hx as (k & K1 & K2 & ->); [apply HB; lia|lia]).
  rewrite !max_from, !min_from by (try easy; intros x Hx; first [now apply B1|now apply B2]).
  rewrite Rmax_list_rev, Rmin_list_rev by easy.
  fold (highest m f (i - m)) (lowest m f (i - m)) (highest m f i) (lowest m f i).
  rewrite !x_sub, x_max, x_min, !x_nat, x_sub. rewrite <- highest_halves, <- lowest_halves by lia.
  pose proof (range_nonneg m f (i - m) ltac:(lia)) as R1. pose proof (range_nonneg m f i ltac:(lia)) as R2.
  assert (Pm : 0 < INR m) by (apply lt_0_INR; lia). assert (Pm2 : 0 < INR (2 * m)) by (apply lt_0_INR; lia).
  rewrite !x_div, x_add by lra.
  set (n1 := (highest m f (i - m) - lowest m f (i - m)) / INR m). set (n2 := (highest m f i - lowest m f i) / INR m). set (n3 := (highest (2 * m) f i - lowest (2 * m) f i) / INR (2 * m)).
  assert (0 <= n1) by (apply Rmult_le_pos; [lra|apply Rlt_le; now apply Rinv_0_lt_compat]). assert (0 <= n2) by (apply Rmult_le_pos; [lra|apply Rlt_le; now apply Rinv_0_lt_compat]).
  assert (P3 : 0 < n3) by (apply Rdiv_lt_0_compat; lra). cbv zeta.
  assert (La : last_ (map Fin (last_bars (2 * m) f i)) = Fin (f i)).
  { rewrite <- x_last_bars. unfold last_. rewrite length_last_bars, nth_last_bars by lia. do 2 f_equal. lia. }
  rewrite La. assert (L2' : ln 2 <> 0) by (pose proof ln_lt_2; lra).
  assert (A : fclamp_val (fexp (fmul (flit (-46) 10) (fsub (fdiv (fsub (fln (Fin (n1 + n2))) (fln (Fin n3))) (fln (flit 2 1))) (flit 1 1)))) (flit 1 100) (flit 1 1) =
     Fin (if Req (n1 + n2) 0 then 1 else clamp 0.01 1 (exp (-4.6 * ((ln (n1 + n2) - ln n3) / ln 2 - 1))))).
  { rewrite !x_lit, !x_frac, (x_ln n3), (x_ln 2) by lra. destruct (Req (n1 + n2) 0) eqn:Z.
    - apply Req_true in Z. rewrite Z. assert (E0 : fln (Fin 0) = Inf true). { cbn. unfold Rltb, Req. destruct (Rlt_dec 0 0); [lra|]. destruct (Req_EM_T 0 0); easy. }
      rewrite E0. cbn [fsub fdiv fmul fexp XR xsub xadd xneg]. cbn [xdiv]. unfold Rltb at 1. destruct (Rlt_dec (ln 2) 0); [pose proof ln_lt_2; lra|].
      cbn [xorb xsub xadd xneg xmul]. unfold Req. destruct (Req_EM_T (-46 / 10) 0); [lra|]. unfold Rltb. destruct (Rlt_dec (-46 / 10) 0); [|lra]. cbn [xorb xmap].
      unfold fclamp_val. cbn [fltb XR xltb]. reflexivity.
    - apply Req_false in Z. rewrite x_ln by lra. rewrite x_sub, x_div, x_sub, x_mul, x_exp by easy. rewrite x_clamp_val by lra. replace (-46 / 10) with (-4.6) by lra. reflexivity. }
  rewrite A. set (al := if Req (n1 + n2) 0 then 1 else _). rewrite !x_lit, x_sub, !x_mul, x_add. f_equal; f_equal; ring.
Qed.
Theorem frama_gain_unit w f i : 0.01 <= frama_gain w f i <= 1.
Proof.
  unfold frama_gain. cbv zeta. destruct (Req _ _); [lra|]. unfold clamp, Rmax, Rmin. repeat destruct (Rle_dec _ _); lra.
Qed.
Theorem frama_inside f n m o i lo hi : (0 < m)%nat -> (forall k, (k < n)%nat -> - max_f64 <= f k <= max_f64) ->
  (forall i, (2 * m - 1 <= i < n)%nat -> lowest (2 * m) f i < highest (2 * m) f i) ->
  lo <= 0 <= hi -> (forall k, (k < n)%nat -> lo <= f k <= hi) ->
  frama (xseries f n) (2 * m) = Ok (Some o) -> (2 * m - 1 <= i < n)%nat -> exists y, nth_error o i = Some (Fin y) /\ lo <= y <= hi.
Proof.
  intros Hm HB H H0 HL E Hi. destruct (frama_real f n m Hm HB H) as (o' & E' & _ & _ & V). rewrite E in E'. injection E' as <-.
  eexists. split; [apply V; lia|]. apply adaptive_inside; [lia|easy|]. intros j Hj. split; [pose proof (frama_gain_unit (2 * m) f j); lra|apply HL; lia].
Qed.

(** ** mdma *)
(** McGinley: the first price, then a step that shrinks with the fourth power of
    the ratio of price to average. *)
Fixpoint mcginley (w : nat) (f : nat -> R) (i : nat) : R :=
  match i with
  | O => f O
  | S j => mcginley w f j + (f i - mcginley w f j) / (0.6 * INR w * (f i / mcginley w f j) ^ 4)
  end.
Theorem mdma_real f n w : (0 < w)%nat -> (0 < n)%nat -> (forall k, (k < n)%nat -> f k <> 0) -> (forall k, (k < n)%nat -> mcginley w f k <> 0) ->
  exists o, mdma (xseries f n) w = Ok o /\ aligned o n 0 NaN (fun i => Fin (mcginley w f i)).
Proof.
  intros Hw Hn Hf Hm. unfold mdma, xseries. rewrite idx_series by easy. cbn [bind]. rewrite slice_from_series by lia. cbn [bind]. eexists. split; [reflexivity|].
  replace (Fin (f 0%nat) :: _) with (map (fun i => Fin (mcginley w f i)) (seq 0 n)); [apply aligned_bars0|].
  replace n with (S (n - 1)) at 1 by lia. cbn [seq map]. f_equal. symmetry.
  apply (scan_inv_bars _ (fun i => Fin (mcginley w f (i - 1)))); [easy|]. intros i Hi. destruct i as [|j]; [lia|].
  replace (S (S j) - 1)%nat with (S j) by lia. replace (S j - 1)%nat with j by lia. unfold mdma_step. cbn [mcginley].
  pose proof (Hf (S j) ltac:(lia)) as F1. pose proof (Hm j ltac:(lia)) as M1.
  rewrite x_sub, x_frac, x_nat, x_mul, x_div, x_pow4, x_mul by easy. rewrite x_div, x_add.
  - f_equal; f_equal; do 3 f_equal; lra.
  - apply Rmult_integral_contrapositive_currified; [apply Rmult_integral_contrapositive_currified; [lra|apply not_0_INR; lia]|].
    apply pow_nonzero. unfold Rdiv. apply Rmult_integral_contrapositive_currified; [easy|now apply Rinv_neq_0_compat].
Qed.
Theorem mcginley_const w c i : mcginley w (fun _ => c) i = c.
Proof. induction i as [|i IH]; cbn [mcginley]; [easy|]. rewrite IH. unfold Rminus. rewrite Rplus_opp_r. unfold Rdiv. rewrite Rmult_0_l. lra. Qed.
(** One price a hundred times below the average throws mdma out of the range of
    the prices by six orders of magnitude. *)
Theorem mdma_leaves_range : exists f w, (forall k, 1 <= f k <= 100) /\ w = 10%nat /\
  exists o, mdma (xseries f 2) w = Ok o /\ exists y, nth_error o 1 = Some (Fin y) /\ y < -1000000.
Proof.
  exists (fun k => match k with O => 100 | _ => 1 end), 10%nat. split; [intros [|k]; lra|]. split; [easy|].
  set (f := fun k : nat => match k with O => 100 | _ => 1 end).
  assert (V : mcginley 10 f 1 = 100 + (1 - 100) / (0.6 * 10 * (1 / 100) ^ 4)) by (cbn; lra).
  assert (B : mcginley 10 f 1 < -1000000) by (rewrite V; cbn; lra).
  destruct (mdma_real f 2 10) as (o & E & _ & _ & A); [lia|lia|intros [|k] _; cbn; lra| |].
  - intros [|[|k]] Hk; [cbn; lra| |lia]. lra.
  - exists o. split; [exact E|]. eexists. split; [apply A; lia|exact B].
Qed.

(** ** hwma *)
(** Level, trend and curvature before bar [i] (Holt-Winters without season). *)
Fixpoint holt (al be ga : R) (f : nat -> R) (i : nat) : R * R * R :=
  match i with
  | O => (f O, 0, 0)
  | S j => let '(a, b, c) := holt al be ga f j in
           let a' := (1 - al) * (a + b + c / 2) + al * f j in
           let b' := (1 - be) * (b + c) + be * (a' - a) in
           let c' := (1 - ga) * c + ga * (b' - b) in (a', b', c')
  end.
Definition share (o : option R) (d : R) : R := SmoothReal.clamp01 (unwrap_or o d).
Theorem hwma_real f n al be ga : (0 < n)%nat ->
  exists o, hwma (xseries f n) (option_map Fin al) (option_map Fin be) (option_map Fin ga) = Ok o /\
  aligned o n 0 NaN (fun i => let '(a, b, c) := holt (share al 0.2) (share be 0.1) (share ga 0.1) f (S i) in Fin (a + b + c / 2)).
Proof.
  intros Hn. unfold hwma, xseries. rewrite idx_series by easy. cbn [bind].
  assert (C : forall o d z, d = IZR z / 10 -> fclamp_val (unwrap_or (option_map Fin o) (flit z 10)) (flit 0 1) (flit 1 1) = Fin (share o d)).
  { intros o d z ->. unfold share. destruct o; cbn [option_map unwrap_or]; [|rewrite x_frac]; apply SmoothReal.x_clamp01. }
  rewrite (C al 0.2) by lra. rewrite (C be 0.1), (C ga 0.1) by lra. eexists. split; [reflexivity|].
  set (A := share al 0.2). set (B := share be 0.1). set (G := share ga 0.1). unfold series.
  set (up := fun p : R * R * R => let '(a, b, c) := p in (Fin a, Fin b, Fin c)).
  rewrite (scan_inv_bars _ (fun i => up (holt A B G f i)) (fun i => let '(a, b, c) := holt A B G f (S i) in Fin (a + b + c / 2))).
  - apply aligned_bars0.
  - cbn [holt up]. now rewrite x_lit.
  - intros i Hi. cbn [holt]. destruct (holt A B G f i) as [[a b] c]. cbn [up]. unfold hwma_step. rewrite !x_lit, !x_frac, !x_sub, !x_add, !x_mul, !x_add, !x_mul, !x_add.
    rewrite !x_sub, !x_mul, !x_add, !x_sub, !x_mul, !x_add. assert (Q : forall t, 5 / 10 * t = t / 2) by (intros; lra). now rewrite !x_mul, !x_add, !Q.
Qed.
Theorem hwma_const c n al be ga : (0 < n)%nat ->
  exists o, hwma (xseries (fun _ => c) n) (option_map Fin al) (option_map Fin be) (option_map Fin ga) = Ok o /\ aligned o n 0 NaN (fun i => Fin c).
Proof.
  intros Hn. destruct (hwma_real (fun _ => c) n al be ga Hn) as (o & E & A). exists o. split; [easy|]. revert A. apply aligned_ext. intros i _.
  assert (H : forall i, holt (share al 0.2) (share be 0.1) (share ga 0.1) (fun _ => c) i = (c, 0, 0)).
  { induction i0 as [|j IH]; [easy|]. cbn [holt]. rewrite IH. f_equal; [f_equal|]; lra. }
  rewrite H. f_equal. lra.
Qed.

(** ** ssf *)
(** The two- and three-pole filters: seeded with the first prices, printed from
    the bar after them. *)
Definition ssf2 (a b c : R) (f y : nat -> R) : Prop :=
  y 0%nat = f 0%nat /\ y 1%nat = f 1%nat /\ forall i, (2 <= i)%nat -> y i = a * f i + b * y (i - 1)%nat + c * y (i - 2)%nat.
Definition ssf3 (a b c d : R) (f y : nat -> R) : Prop :=
  y 0%nat = f 0%nat /\ y 1%nat = f 1%nat /\ y 2%nat = f 2%nat /\
  forall i, (3 <= i)%nat -> y i = a * f i + b * y (i - 1)%nat + c * y (i - 2)%nat + d * y (i - 3)%nat.

Fixpoint ssf2_st (a b c : R) (f : nat -> R) (j : nat) : R * R :=
  match j with O => (f 0%nat, f 1%nat) | S k => let '(p, q) := ssf2_st a b c f k in (q, a * f (S (S k)) + b * q + c * p) end.
Fixpoint ssf3_st (a b c d : R) (f : nat -> R) (j : nat) : R * R * R :=
  match j with O => (f 0%nat, f 1%nat, f 2%nat)
  | S k => let '(p, q, r) := ssf3_st a b c d f k in (q, r, a * f (S (S (S k))) + b * r + c * q + d * p) end.

Theorem ssf_real f n w : (0 < w)%nat -> (2 <= n)%nat ->
  let x := PI * sqrt 2 / INR w in
  let c := - exp (- x) ^ 2 in let b := 2 * exp (- x) * cos x in let a := 1 - b - c in
  exists o y, ssf (xseries f n) w (Some false) = Ok o /\ ssf (xseries f n) w None = Ok o /\ ssf2 a b c f y /\ aligned o n 2 NaN (fun i => Fin (y i)).
Proof.
  intros Hw Hn x c b a.
  set (y := fun i => match i with O => f 0%nat | S k => snd (ssf2_st a b c f k) end).
  assert (Y : ssf2 a b c f y).
  { split; [easy|]. split; [easy|]. intros [|[|k]] Hk; [lia|lia|]. replace (S (S k) - 1)%nat with (S k) by lia. replace (S (S k) - 2)%nat with k by lia.
    unfold y. cbn [ssf2_st]. destruct k as [|k]; [easy|]. cbn [ssf2_st]. destruct (ssf2_st a b c f k) as [p q]. reflexivity. }
  exists (pad 2 NaN ++ map (fun i => Fin (y i)) (seq 2 (n - 2))), y.
  assert (E : ssf (xseries f n) w None = Ok (pad 2 NaN ++ map (fun i => Fin (y i)) (seq 2 (n - 2)))).
  { unfold ssf, xseries. cbn [unwrap_or]. rewrite slice_from_series by lia. cbn [bind]. rewrite !idx_series by lia. cbn [bind]. do 2 f_equal.
    change (@fpi xr XR) with (Fin PI). rewrite !x_lit, x_nat, x_sqrt, x_mul, x_div by (try lra; apply not_0_INR; lia). fold x.
    rewrite !x_neg, x_exp, x_cos, !x_mul, !x_neg, !x_mul, !x_sub.
    replace (- exp (- x) * exp (- x)) with c by (unfold c; ring). fold b. fold a.
    apply (scan_inv_bars _ (fun i => (Fin (fst (ssf2_st a b c f (i - 2))), Fin (snd (ssf2_st a b c f (i - 2)))))); [easy|].
    intros i Hi. destruct i as [|[|k]]; [lia|lia|]. replace (S (S k) - 2)%nat with k by lia. replace (S (S (S k)) - 2)%nat with (S k) by lia.
    unfold y. cbn [ssf2_st]. destruct (ssf2_st a b c f k) as [p q]. cbn [fst snd]. unfold ssf2_step. now rewrite !x_mul, !x_add. }
  split; [exact E|]. split; [exact E|]. split; [exact Y|]. apply aligned_bars. lia.
Qed.
Theorem ssf_tri_real f n w : (0 < w)%nat -> (3 <= n)%nat ->
  let x := PI / INR w in let y2 := exp (- x) ^ 2 in let z := 2 * exp (- x) * cos (sqrt 3 * x) in
  let d := y2 ^ 2 in let c := - y2 * (1 + z) in let b := y2 + z in let a := 1 - b - c - d in
  exists o y, ssf (xseries f n) w (Some true) = Ok o /\ ssf3 a b c d f y /\ aligned o n 3 NaN (fun i => Fin (y i)).
Proof.
  intros Hw Hn x y2 z d c b a.
  set (y := fun i => match i with O => f 0%nat | 1%nat => f 1%nat | S (S k) => snd (ssf3_st a b c d f k) end).
  assert (Y : ssf3 a b c d f y).
  { split; [easy|]. split; [easy|]. split; [easy|]. intros [|[|[|k]]] Hk; [lia|lia|lia|].
    replace (S (S (S k)) - 1)%nat with (S (S k)) by lia. replace (S (S (S k)) - 2)%nat with (S k) by lia. replace (S (S (S k)) - 3)%nat with k by lia.
    unfold y. cbn [ssf3_st]. destruct k as [|[|k]]; [easy|easy|]. cbn [ssf3_st]. destruct (ssf3_st a b c d f k) as [[p q] r]. reflexivity. }
  exists (pad 3 NaN ++ map (fun i => Fin (y i)) (seq 3 (n - 3))), y. split; [|split; [exact Y|apply aligned_bars; lia]].
  unfold ssf, xseries. cbn [unwrap_or]. rewrite slice_from_series by lia. cbn [bind]. rewrite !idx_series by lia. cbn [bind]. do 2 f_equal.
  change (@fpi xr XR) with (Fin PI). rewrite !x_lit, x_nat, x_sqrt, x_div by (try lra; apply not_0_INR; lia). fold x.
  rewrite !x_neg, x_exp, !x_mul, x_cos, !x_mul, !x_add, !x_neg, !x_mul, !x_sub.
  replace (exp (- x) * exp (- x)) with y2 by (unfold y2; ring). fold z. replace (y2 * y2) with d by (unfold d; ring). fold c. fold b. fold a.
  apply (scan_inv_bars _ (fun i => let '(p, q, r) := ssf3_st a b c d f (i - 3) in (Fin p, Fin q, Fin r))); [easy|].
  intros i Hi. destruct i as [|[|[|k]]]; [lia|lia|lia|]. replace (S (S (S k)) - 3)%nat with k by lia. replace (S (S (S (S k))) - 3)%nat with (S k) by lia.
  unfold y. cbn [ssf3_st]. destruct (ssf3_st a b c d f k) as [[p q] r]. cbn [fst snd]. unfold ssf3_step. now rewrite !x_mul, !x_add.
Qed.
(** Both filters have unit gain: a constant series comes out unchanged. *)
Theorem ssf2_const a b c v y : a = 1 - b - c -> ssf2 a b c (fun _ => v) y -> forall i, y i = v.
Proof.
  intros -> (Y0 & Y1 & R). assert (H : forall i, y i = v /\ y (S i) = v).
  { induction i as [|i [A B]]; [easy|]. split; [easy|]. rewrite R by lia. replace (S (S i) - 1)%nat with (S i) by lia. replace (S (S i) - 2)%nat with i by lia. rewrite A, B. ring. }
  intros i. apply H.
Qed.
Theorem ssf3_const a b c d v y : a = 1 - b - c - d -> ssf3 a b c d (fun _ => v) y -> forall i, y i = v.
Proof.
  intros -> (Y0 & Y1 & Y2 & R). assert (H : forall i, y i = v /\ y (S i) = v /\ y (S (S i)) = v).
  { induction i as [|i (A & B & C)]; [easy|]. split; [easy|]. split; [easy|]. rewrite R by lia.
    replace (S (S (S i)) - 1)%nat with (S (S i)) by lia. replace (S (S (S i)) - 2)%nat with (S i) by lia. replace (S (S (S i)) - 3)%nat with i by lia. rewrite A, B, C. ring. }
  intros i. apply H.
Qed.

(** ** mama on finite data *)
Lemma rscan_invariant {S A B} (g : S -> A -> result (S * B)) (P : S -> Prop) (Q : B -> Prop) l s : P s ->
  (forall s x, In x l -> P s -> exists s' b, g s x = Ok (s', b) /\ P s' /\ Q b) ->
  exists o, rscan g s l = Ok o /\ Forall Q o.
Proof.
  revert s. induction l as [|a l IH]; intros s H0 H; [exists []; split; [easy|constructor]|]. cbn [rscan].
  destruct (H s a (or_introl eq_refl) H0) as (s' & b & -> & P' & Qb). cbn [bind].
  destruct (IH s' P') as (o & -> & Fo). { intros t x Hx. apply H. now right. }
  cbn [bind]. eexists. split; [reflexivity|]. now constructor.
Qed.
Definition isfin (x : xr) : Prop := exists r, x = Fin r.
Definition finq (l : list xr) : Prop := length l = 7%nat /\ Forall isfin l.
Lemma finq_at l i : finq l -> (i < 7)%nat -> exists r, at_ l i = Fin r.
Proof. intros [L H] Hi. rewrite Forall_forall in H. apply H. unfold at_. apply nth_In. lia. Qed.
Lemma finq_push r l : finq l -> finq (push7 (Fin r) l).
Proof.
  intros [L H]. split.
  - unfold push7. cbn [length]. rewrite firstn_length. lia.
  - unfold push7. constructor; [now exists r|]. rewrite Forall_forall in *. intros x Hx. apply H. rewrite <- (firstn_skipn 6 l). apply in_or_app. now left.
Qed.
Lemma finq_repeat : finq (repeat (flit 0 1) 7).
Proof. split; [easy|]. rewrite x_lit. repeat constructor; now exists 0. Qed.
Lemma x_hilbert a b c d t : exists r, hilbert (Fin a) (Fin b) (Fin c) (Fin d) (Fin t) = Fin r.
Proof. unfold hilbert. rewrite !x_frac, !x_mul, x_add, !x_sub, x_mul. now eexists. Qed.

Record mama_fin (lo hi : R) (s : mama_state) : Prop := {
  mf_mama : exists r, ms_mama s = Fin r /\ lo <= r <= hi;
  mf_fama : exists r, ms_fama s = Fin r /\ lo <= r <= hi;
  mf_period : exists r, ms_period s = Fin r /\ 0 <= r;
  mf_phase : isfin (ms_phase s); mf_re : isfin (ms_re s); mf_im : isfin (ms_im s); mf_i2 : isfin (ms_i2 s); mf_q2 : isfin (ms_q2 s);
  mf_dt : finq (ms_dtrend s); mf_i1 : finq (ms_i1q s); mf_q1 : finq (ms_q1q s)
}.

Lemma mama_step_fin fast slow sm data s i lo hi x :
  0 <= fast <= 1 -> 0 <= slow <= 1 -> lo <= 0 <= hi ->
  (forall j, (j <= i)%nat -> isfin (at_ sm j)) -> at_ data i = Fin x -> lo <= x <= hi -> mama_fin lo hi s ->
  exists s' b, mama_step (Fin fast) (Fin slow) sm data s i = Ok (s', b) /\ mama_fin lo hi s' /\
    exists u v, b = (Fin u, Fin v) /\ lo <= u <= hi /\ lo <= v <= hi.
Proof.
  intros HF HS H0 Hsm Hx Bx [(ma & Ema & Bma) (fa & Efa & Bfa) (pe & Epe & Bpe) (ph & Eph) (re & Ere) (im & Eim) (i2 & Ei2) (q2 & Eq2) Hdt Hi1 Hq1].
  unfold mama_step. rewrite Ema, Efa, Epe, Eph, Ere, Eim, Ei2, Eq2, Hx. rewrite (x_frac 75 1000), (x_frac 54 100), (x_frac 2 10), (x_frac 8 10), (x_frac 67 100), (x_frac 15 10), (x_frac 5 10), x_mul, x_add. cbv zeta.
  set (tw := 75 / 1000 * pe + 54 / 100).
  destruct (Hsm i (Nat.le_refl i)) as (s0 & ->). destruct (Hsm (i - 2)%nat ltac:(lia)) as (s2 & ->). destruct (Hsm (i - 4)%nat ltac:(lia)) as (s4 & ->). destruct (Hsm (i - 6)%nat ltac:(lia)) as (s6 & ->).
  destruct (x_hilbert s0 s2 s4 s6 tw) as (d0 & ->).
  pose proof (finq_push d0 _ Hdt) as Qd. set (dt := push7 (Fin d0) (ms_dtrend s)) in *. clearbody dt.
  destruct (finq_at dt 0 Qd ltac:(lia)) as (t0 & ->). destruct (finq_at dt 2 Qd ltac:(lia)) as (t2 & ->). destruct (finq_at dt 4 Qd ltac:(lia)) as (t4 & ->). destruct (finq_at dt 6 Qd ltac:(lia)) as (t6 & ->).
  destruct (finq_at dt 3 Qd ltac:(lia)) as (t3 & ->). destruct (x_hilbert t0 t2 t4 t6 tw) as (qh & ->).
  pose proof (finq_push qh _ Hq1) as Qq. set (q1 := push7 (Fin qh) (ms_q1q s)) in *. clearbody q1.
  pose proof (finq_push t3 _ Hi1) as Qi. set (i1 := push7 (Fin t3) (ms_i1q s)) in *. clearbody i1.
  destruct (finq_at q1 0 Qq ltac:(lia)) as (q10 & ->). destruct (finq_at q1 2 Qq ltac:(lia)) as (q12 & ->). destruct (finq_at q1 4 Qq ltac:(lia)) as (q14 & ->). destruct (finq_at q1 6 Qq ltac:(lia)) as (q16 & ->).
  destruct (finq_at i1 0 Qi ltac:(lia)) as (i10 & ->). destruct (finq_at i1 2 Qi ltac:(lia)) as (i12 & ->). destruct (finq_at i1 4 Qi ltac:(lia)) as (i14 & ->). destruct (finq_at i1 6 Qi ltac:(lia)) as (i16 & ->).
  destruct (x_hilbert i10 i12 i14 i16 tw) as (ji & ->). destruct (x_hilbert q10 q12 q14 q16 tw) as (jq & ->).
  rewrite !x_sub, !x_add, !x_mul, !x_add, !x_mul, !x_sub, !x_add, !x_mul, !x_add.
  set (I2 := 2 / 10 * (i10 - jq) + 8 / 10 * i2). set (Q2 := 2 / 10 * (q10 + ji) + 8 / 10 * q2).
  set (Re := 2 / 10 * (I2 * i2 + Q2 * q2) + 8 / 10 * re). set (Im := 2 / 10 * (I2 * q2 - Q2 * i2) + 8 / 10 * im).
  assert (PD : exists p0, (if fneb (Fin Im) (flit 0 1) && fneb (Fin Re) (flit 0 1) then fdiv (flit 360 1) (fatan (fdiv (Fin Im) (Fin Re))) else flit 0 1) = Fin p0).
  { unfold fneb. rewrite !x_lit, !x_eqb. destruct (Req Im 0) eqn:E1; [now eexists|]. destruct (Req Re 0) eqn:E2; [now eexists|]. cbn [negb andb].
    apply Req_false in E1, E2. rewrite x_div by easy. change (fatan (Fin (Im / Re))) with (Fin (atan (Im / Re))). rewrite x_div; [now eexists|].
    intros Z. apply E1. apply Rmult_eq_reg_r with (/ Re); [|now apply Rinv_neq_0_compat]. rewrite Rmult_0_l. change (Im * / Re) with (Im / Re).
    rewrite <- (tan_atan (Im / Re)), Z. apply tan_0. }
  destruct PD as (p0 & ->). unfold fclamp. rewrite x_leb, (proj2 (Rleb_true _ _)) by lra. cbn [bind]. rewrite x_clamp_val, !x_lit, x_clamp_val, x_mul, x_add by lra.
  set (P1 := clamp 6 50 _). assert (BP : 6 <= P1 <= 50) by (unfold P1, clamp, Rmax, Rmin; repeat destruct (Rle_dec _ _); lra). clearbody P1.
  assert (PH : exists f0, (if fneb (Fin i10) (Fin 0) then fatan (fdiv (Fin q10) (Fin i10)) else Fin 0) = Fin f0).
  { unfold fneb. rewrite x_eqb. destruct (Req i10 0) eqn:E; [now eexists|]. cbn [negb]. apply Req_false in E. rewrite x_div by easy. now eexists. }
  destruct PH as (f0 & ->). rewrite x_sub, x_max. set (dp := Rmax (ph - f0) 1). assert (D1 : 1 <= dp) by apply Rmax_r. clearbody dp.
  rewrite x_div, x_max by lra. set (al := Rmax (fast / dp) slow).
  assert (BA : 0 <= al <= 1).
  { assert (0 <= fast / dp <= 1). { split; [apply Rmult_le_pos; [lra|apply Rlt_le, Rinv_0_lt_compat; lra]|]. apply Rmult_le_reg_r with dp; [lra|]. unfold Rdiv. rewrite Rmult_assoc, Rinv_l; lra. }
    unfold al, Rmax. destruct (Rle_dec _ _); lra. }
  clearbody al. rewrite !x_mul, !x_sub, !x_mul, !x_add, !x_mul, !x_add.
  set (M := al * x + (1 - al) * ma). assert (BM : lo <= M <= hi) by (unfold M; split; nra). clearbody M.
  set (FA := 5 / 10 * al * M + (1 - 5 / 10 * al) * fa). assert (BF : lo <= FA <= hi) by (unfold FA; split; nra). clearbody FA.
  eexists _, _. split; [reflexivity|]. split.
  - constructor; cbn [ms_mama ms_fama ms_period ms_phase ms_re ms_im ms_i2 ms_q2 ms_dtrend ms_i1q ms_q1q]; try assumption; try (unfold isfin; now eexists).
    eexists. split; [reflexivity|]. lra.
  - exists M, FA. split; [reflexivity|]. split; assumption.
Qed.

(** On finite prices mama returns, for any limits between 0 and 1, and both its
    lines stay in the range of 0 and the prices (exact arithmetic). *)
Theorem mama_finite f n fast slow lo hi : 0 <= unwrap_or fast 0.5 <= 1 -> 0 <= unwrap_or slow 0.05 <= 1 ->
  lo <= 0 <= hi -> (forall k, (k < n)%nat -> lo <= f k <= hi) ->
  exists o, mama (xseries f n) (option_map Fin fast) (option_map Fin slow) = Ok o /\ length o = Nat.max 6 n /\
    forall i, (6 <= i < n)%nat -> exists u v, nth_error o i = Some (Fin u, Fin v) /\ lo <= u <= hi /\ lo <= v <= hi.
Proof.
  intros HF HS H0 HB. unfold mama.
  replace (unwrap_or (option_map Fin fast) (flit 5 10)) with (Fin (unwrap_or fast 0.5)) by (destruct fast; cbn [option_map unwrap_or]; [easy|rewrite x_frac; f_equal; lra]).
  replace (unwrap_or (option_map Fin slow) (flit 5 100)) with (Fin (unwrap_or slow 0.05)) by (destruct slow; cbn [option_map unwrap_or]; [easy|rewrite x_frac; f_equal; lra]).
  replace (length (xseries f n)) with n by (symmetry; apply length_series).
  destruct (rscan_invariant (mama_step (Fin (unwrap_or fast 0.5)) (Fin (unwrap_or slow 0.05)) (pad 3 (flit 0 1) ++ map mama_smooth (windows 4 (xseries f n))) (xseries f n)) (mama_fin lo hi)
     (fun b => exists u v, b = (Fin u, Fin v) /\ lo <= u <= hi /\ lo <= v <= hi) (seq 6 (n - 6)) mama_init) as (vs & E & Q).
  - unfold mama_init. constructor; cbn [ms_mama ms_fama ms_period ms_phase ms_re ms_im ms_i2 ms_q2 ms_dtrend ms_i1q ms_q1q]; try apply finq_repeat; rewrite ?x_lit; try (now exists 0); exists 0; split; (easy || lra).
  - intros s i Hi Hs. apply in_seq in Hi. apply (mama_step_fin _ _ _ _ _ _ _ _ (f i)); auto.
    + intros j Hj. unfold at_. destruct (le_lt_dec 3 j) as [L|L].
      * rewrite app_nth2 by (unfold pad; rewrite repeat_length; lia). unfold pad. rewrite repeat_length. unfold xseries, series. rewrite windows_bars by lia. rewrite map_map.
        rewrite (nth_indep _ fnan (mama_smooth (last_bars 4 (fun k => Fin (f k)) 0))) by (rewrite map_length, seq_length; lia).
        rewrite (map_nth (fun i => mama_smooth (last_bars 4 (fun k => Fin (f k)) i)) _ 0%nat). unfold mama_smooth, last_bars. cbn [seq map at_ nth].
        rewrite !x_lit, !x_mul, !x_add, x_div by lra. now eexists.
      * rewrite app_nth1 by (unfold pad; rewrite repeat_length; lia). destruct j as [|[|[|j]]]; [| | |lia]; cbn [pad repeat nth]; rewrite x_lit; now eexists.
    + unfold xseries. now rewrite at_series by lia.
    + apply HB. lia.
  - rewrite E. cbn [bind]. eexists. split; [reflexivity|]. pose proof (length_rscan E) as L. rewrite seq_length in L. split.
    + rewrite app_length. unfold pad. rewrite repeat_length. lia.
    + intros i Hi. rewrite nth_error_app2 by (unfold pad; rewrite repeat_length; lia). unfold pad. rewrite repeat_length.
      destruct (nth_error vs (i - 6)) as [b|] eqn:En; [|apply nth_error_None in En; lia]. rewrite Forall_forall in Q. destruct (Q b) as (u & v & -> & B1 & B2); [eapply nth_error_In; eauto|]. now exists u, v.
Qed.
