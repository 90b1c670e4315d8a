(** * Window statistics in exact arithmetic (distribution.rs). *)

From Verif Require Export Convex DistShape.
Local Unset Implicit Arguments.
Local Open Scope R_scope.

(** The quotient, with what IEEE-754 returns when the divisor is zero. *)
Definition quot (a b : R) : xr :=
  if Req b 0 then (if Req a 0 then NaN else Inf (Rltb a 0)) else Fin (a / b).
Lemma x_quot a b : fdiv (Fin a) (Fin b) = quot a b. Proof. reflexivity. Qed.
Lemma quot_ok a b : b <> 0 -> quot a b = Fin (a / b).
Proof. intros H. unfold quot. now rewrite (proj2 (Req_false b 0) H). Qed.
Lemma quot_0_0 : quot 0 0 = NaN.
Proof. unfold quot. rewrite (proj2 (Req_true 0 0)) by easy. easy. Qed.

(** Deviation sums. *)
Definition dev (p : nat) (l : list R) : R := Rsum (map (fun x => (x - mean l) ^ p) l).
(** Mean absolute deviation. *)
Definition mean_abs_dev (l : list R) : R := mean (map (fun x => Rabs (x - mean l)) l).
Definition sd (l : list R) : R := sqrt (var l).

(** ** Real facts *)

Lemma length_pos_INR {A} (l : list A) : l <> [] -> 0 < INR (length l).
Proof. intros H. apply INR_pos. destruct l; [easy|cbn; lia]. Qed.

Lemma var_dev l : var l = dev 2 l / INR (length l).
Proof. unfold var, mean at 1, dev. now rewrite map_length. Qed.
Lemma dev2_nonneg l : 0 <= dev 2 l.
Proof.
  apply Rsum_nonneg. intros x Hx. apply in_map_iff in Hx. destruct Hx as (y & <- & _). apply pow2_ge_0.
Qed.
Lemma Rdiv_nonneg a b : 0 <= a -> 0 <= b -> 0 <= a / b.
Proof.
  intros Ha Hb. destruct (Req_dec b 0) as [->|Hn].
  - unfold Rdiv. rewrite Rinv_0. lra.
  - apply Rmult_le_pos; [easy|]. apply Rlt_le, Rinv_0_lt_compat. lra.
Qed.
Lemma var_nonneg l : 0 <= var l.
Proof. rewrite var_dev. apply Rdiv_nonneg; [apply dev2_nonneg | apply pos_INR]. Qed.
Lemma dev2_zero l : dev 2 l = 0 <-> forall x, In x l -> x = mean l.
Proof.
  unfold dev. split.
  - intros H x Hx. assert (E : (x - mean l) ^ 2 = 0).
    { apply (Rsum_zero (map (fun x => (x - mean l) ^ 2) l)); [|easy|].
      - intros y Hy. apply in_map_iff in Hy. destruct Hy as (z & <- & _). apply pow2_ge_0.
      - apply in_map_iff. now exists x. }
    apply pow2_eq0 in E. lra.
  - intros H. rewrite (map_ext_in _ (fun _ => 0)).
    + rewrite Rsum_const. lra.
    + intros x Hx. rewrite (H x Hx) at 1. ring.
Qed.
Lemma var_zero l : l <> [] -> (var l = 0 <-> exists c, forall x, In x l -> x = c).
Proof.
  intros Hn. rewrite var_dev. pose proof (length_pos_INR l Hn) as P. split.
  - intros H. exists (mean l). apply dev2_zero.
    apply Rmult_eq_reg_r with (/ INR (length l)); [|apply Rinv_neq_0_compat; lra].
    unfold Rdiv in H. lra.
  - intros [c Hc]. assert (M : mean l = c) by now apply mean_const.
    replace (dev 2 l) with 0; [unfold Rdiv; lra|]. symmetry. apply dev2_zero. now rewrite M.
Qed.
Lemma mean_affine a b l : l <> [] -> mean (map (fun x => a * x + b) l) = a * mean l + b.
Proof.
  intros H. unfold mean. rewrite map_length. rewrite (Rsum_map_add (fun x => a * x) (fun _ => b)).
  rewrite Rsum_scale, Rsum_const. field. pose proof (length_pos_INR l H). lra.
Qed.
Lemma dev_affine p a b l : l <> [] -> dev p (map (fun x => a * x + b) l) = a ^ p * dev p l.
Proof.
  intros H. unfold dev. rewrite map_map, mean_affine by easy. rewrite <- Rsum_map_scale. f_equal.
  apply map_ext. intros x. rewrite <- Rpow_mult_distr. f_equal. ring.
Qed.
Lemma var_affine a b l : l <> [] -> var (map (fun x => a * x + b) l) = a ^ 2 * var l.
Proof.
  intros H. rewrite !var_dev, map_length, dev_affine by easy. unfold Rdiv. ring.
Qed.
Lemma mad_affine a b l : l <> [] ->
  mean_abs_dev (map (fun x => a * x + b) l) = Rabs a * mean_abs_dev l.
Proof.
  intros H. unfold mean_abs_dev. rewrite map_map, mean_affine by easy.
  rewrite (map_ext _ (fun x => Rabs a * Rabs (x - mean l))).
  - unfold mean at 1 3. rewrite !map_length, Rsum_map_scale. unfold Rdiv. ring.
  - intros x. rewrite <- Rabs_mult. f_equal. ring.
Qed.
(** The mean of the squares is at least the square of the mean. *)
Lemma mean_sq l : l <> [] -> mean l ^ 2 <= mean (map (fun x => x ^ 2) l).
Proof.
  intros H. pose proof (var_nonneg l) as V. pose proof (length_pos_INR l H) as P.
  assert (E : var l = mean (map (fun x => x ^ 2) l) - mean l ^ 2); [|lra].
  unfold var, mean at 1 3. rewrite !map_length.
  rewrite (map_ext _ (fun x => (x ^ 2 + (-2 * mean l) * x) + mean l ^ 2)) by (intros; ring).
  rewrite (Rsum_map_add (fun x => x ^ 2 + -2 * mean l * x)), (Rsum_map_add (fun x => x ^ 2)), Rsum_const.
  rewrite Rsum_scale. unfold mean. field. lra.
Qed.
Lemma mad_nonneg l : 0 <= mean_abs_dev l.
Proof.
  apply Rdiv_nonneg; [|apply pos_INR]. apply Rsum_nonneg. intros x Hx.
  apply in_map_iff in Hx. destruct Hx as (y & <- & _). apply Rabs_pos.
Qed.
Lemma mad_le_sd l : l <> [] -> mean_abs_dev l <= sd l.
Proof.
  intros H. unfold sd. rewrite <- (sqrt_pow2 (mean_abs_dev l)) by apply mad_nonneg.
  apply sqrt_le_1_alt. eapply Rle_trans; [apply mean_sq; destruct l; easy|].
  rewrite map_map. unfold var. right. f_equal. apply map_ext. intros x. apply pow2_abs.
Qed.

(** ** The model's closures *)

Lemma x_win_mean w l : length l = w -> (0 < w)%nat -> win_mean w (map Fin l) = Fin (mean l).
Proof.
  intros <- H. unfold win_mean. now rewrite x_fsum, x_nat, x_div by now apply INR_neq0.
Qed.
Lemma x_sum_dev2 m l : sum_dev2 (Fin m) (map Fin l) = Fin (Rsum (map (fun x => (x - m) ^ 2) l)).
Proof.
  unfold sum_dev2. rewrite x_lit, fold_left_map.
  rewrite (x_fold_add _ (fun x => (x - m) ^ 2)) by (intros; now xr). f_equal. lra.
Qed.
Lemma x_dev p w l (g : xr -> xr) : (forall a, g (Fin a) = Fin (a ^ p)) -> length l = w -> (0 < w)%nat ->
  fold_left (fun acc x => fadd acc (g (fsub x (win_mean w (map Fin l))))) (map Fin l) (flit 0 1) = Fin (dev p l).
Proof.
  intros Hg L H. rewrite (x_win_mean w l L H), x_lit, fold_left_map.
  rewrite (x_fold_add _ (fun x => (x - mean l) ^ p)) by (intros; now rewrite x_sub, Hg).
  f_equal. unfold dev. lra.
Qed.
Lemma x_var w l : length l = w -> (0 < w)%nat -> variance_win w (map Fin l) = Fin (var l).
Proof.
  intros L H. unfold variance_win. rewrite x_win_mean, x_sum_dev2, x_nat, x_div by
    (try easy; apply INR_neq0; lia). f_equal. rewrite var_dev. subst w. reflexivity.
Qed.
Lemma x_sd w l : length l = w -> (0 < w)%nat ->
  fsqrt (fdiv (sum_dev2 (win_mean w (map Fin l)) (map Fin l)) (fofnat w)) = Fin (sd l).
Proof.
  intros L H. fold (variance_win w (map Fin l)). now rewrite x_var, x_sqrt by (try easy; apply var_nonneg).
Qed.

(** A windowed function of the model, once its closure is known. *)
Lemma windowed_real (l : list R) w (g : list xr -> xr) (f : list R -> xr) :
  (0 < w)%nat -> (forall m, length m = w -> g (map Fin m) = f m) ->
  aligned (pad (w - 1) NaN ++ map g (windows w (map Fin l))) (length l) (w - 1) NaN (fun i => f (win w l i)).
Proof.
  intros Hw Hg. pose proof (@aligned_windows xr xr NaN g (map Fin l) w Hw) as A.
  rewrite map_length in A. revert A. apply aligned_ext. intros i Hi. rewrite x_win. apply Hg.
  apply length_win; lia.
Qed.

Ltac windowed f := zap; cbn [bind]; eexists; split; [reflexivity|];
  change (@fnan xr XR) with NaN; apply (fun l w g => windowed_real l w g f); [lia|intros m Lm].

Theorem variance_real l w : (0 < w)%nat ->
  exists o, variance (map Fin l) w = Ok o /\
  aligned o (length l) (w - 1) NaN (fun i => Fin (var (win w l i))).
Proof. intros Hw. unfold variance. windowed (fun m => Fin (var m)). now apply x_var. Qed.

Theorem std_dev_real l w : (0 < w)%nat ->
  exists o, std_dev (map Fin l) w = Ok o /\
  aligned o (length l) (w - 1) NaN (fun i => Fin (sqrt (var (win w l i)))).
Proof.
  intros Hw. unfold std_dev, std_dev_raw. windowed (fun m => Fin (sqrt (var m))). now apply x_sd.
Qed.

Lemma nth_last (l : list R) w : length l = w -> (0 < w)%nat -> nth (w - 1) l 0 = last l 0.
Proof.
  intros <- H. destruct (@exists_last _ l) as (a & z & ->); [destruct l; easy|].
  rewrite app_length, last_last. cbn. rewrite app_nth2 by lia.
  now replace (length a + 1 - 1 - length a)%nat with 0%nat by lia.
Qed.
Lemma last_win (l : list R) w i : (0 < w <= i + 1)%nat -> (i < length l)%nat -> last (win w l i) 0 = nth i l 0.
Proof.
  intros H1 H2. rewrite <- (nth_last _ w) by (try apply length_win; lia).
  assert (E : nth_error (win w l i) (w - 1) = nth_error l i).
  { rewrite nth_error_win by lia. f_equal. lia. }
  apply nth_error_nth. rewrite E. now apply nth_error_nth'.
Qed.

(** [zscore]: the newest bar, standardised; NaN on a constant window. *)
Theorem zscore_real l w : (0 < w)%nat ->
  exists o, zscore (map Fin l) w = Ok o /\
  aligned o (length l) (w - 1) NaN
    (fun i => if Req (var (win w l i)) 0 then NaN
              else Fin ((nth i l 0 - mean (win w l i)) / sqrt (var (win w l i)))).
Proof.
  intros Hw. unfold zscore.
  assert (X : exists o, (let* k := usub w 1 in let* ws := rwindows w (map Fin l) in
     Ok (pad k fnan ++ map (zscore_win w) ws)) = Ok o /\
     aligned o (length l) (w - 1) NaN (fun i => (fun m => quot (last m 0 - mean m) (sd m)) (win w l i))).
  { windowed (fun m => quot (last m 0 - mean m) (sd m)). unfold zscore_win. rewrite x_sd, x_win_mean, x_at by (try easy; lia).
    rewrite x_sub, x_quot, nth_last by easy. reflexivity. }
  destruct X as (o & E & A). exists o. split; [easy|]. revert A. apply aligned_ext. intros i Hi. cbv beta.
  set (m := win w l i). assert (Hm : m <> []) by (apply win_nonempty; lia).
  unfold sd. rcase.
  - rewrite E0, sqrt_0. apply var_zero in E0; [|easy]. destruct E0 as [c Hc].
    rewrite (mean_const c) by easy. rewrite (Hc (last m 0)).
    + replace (c - c) with 0 by lra. apply quot_0_0.
    + destruct (exists_last Hm) as (a & z & ->). rewrite last_last. apply in_or_app. right. now left.
  - rewrite quot_ok.
    + unfold m. rewrite last_win by lia. reflexivity.
    + intros Z. apply sqrt_eq_0 in Z; [easy|apply var_nonneg].
Qed.

Theorem mad_real l w : (0 < w)%nat ->
  exists o, mad (map Fin l) w = Ok o /\
  aligned o (length l) (w - 1) NaN (fun i => Fin (mean_abs_dev (win w l i))).
Proof.
  intros Hw. unfold mad. windowed (fun m => Fin (mean_abs_dev m)). unfold mad_win.
  rewrite x_win_mean by easy. rewrite x_lit, fold_left_map.
  rewrite (x_fold_add _ (fun x => Rabs (x - mean m))) by (intros; now xr).
  rewrite x_nat, x_div by now apply INR_neq0. f_equal. unfold mean_abs_dev. unfold mean at 2.
  rewrite map_length, Lm. f_equal. lra.
Qed.

(** [cv]: deviation relative to the mean; [quot] spells out a zero mean. *)
Theorem cv_real l w : (0 < w)%nat ->
  exists o, cv (map Fin l) w = Ok o /\
  aligned o (length l) (w - 1) NaN (fun i => quot (sqrt (var (win w l i))) (mean (win w l i))).
Proof.
  intros Hw. unfold cv. cbv zeta. zap; cbn [bind]; eexists; split; [reflexivity|].
  change (@fnan xr XR) with NaN.
  apply (windowed_real l w (cv_win w) (fun m => quot (sqrt (var m)) (mean m))); [lia|intros m Lm].
  unfold cv_win. now rewrite x_sd, x_win_mean by easy.
Qed.

Lemma x_ofN n : @fofN xr XR n = Fin (IZR (Z.of_N n)). Proof. reflexivity. Qed.
Lemma IZR_N n : IZR (Z.of_N (N.of_nat n)) = INR n.
Proof. now rewrite nat_N_Z, <- INR_IZR_INZ. Qed.
Lemma IZR_N_sub n k : (N.of_nat k <= N.of_nat n)%N -> IZR (Z.of_N (N.of_nat n - N.of_nat k)) = INR n - INR k.
Proof. intros H. rewrite N2Z.inj_sub by easy. now rewrite minus_IZR, !nat_N_Z, <- !INR_IZR_INZ. Qed.

(** The bias-corrected excess kurtosis. *)
Definition excess_kurtosis (l : list R) : R :=
  let n := INR (length l) in
  (n + 1) * n * (n - 1) / ((n - 2) * (n - 3)) * dev 4 l / (dev 2 l * dev 2 l)
  - 3 * ((n - 1) * (n - 1)) / ((n - 2) * (n - 3)).

Theorem kurtosis_real l w : (4 <= w)%nat -> (N.of_nat w < 2642246)%N ->
  exists o, kurtosis (map Fin l) w = Ok o /\
  aligned o (length l) (w - 1) NaN
    (fun i => if Req (var (win w l i)) 0 then NaN else Fin (excess_kurtosis (win w l i))).
Proof.
  intros Hw Hb. assert (Hok : kurtosis (map Fin l) w <> Panic).
  { destruct (kurtosis_outcome (map Fin l) w) as [[B _]|[_ (o & -> & _)]]; [lia|easy]. }
  revert Hok. unfold kurtosis. cbv zeta. unfold usubN, umul.
  set (W := N.of_nat w).
  destruct (N.leb_spec 1 W) as [B1|]; cbn [bind]; [|easy].
  destruct (N.leb_spec 2 W) as [B2|]; cbn [bind]; [|easy].
  destruct (N.leb_spec 3 W) as [B3|]; cbn [bind]; [|easy].
  do 4 (match goal with |- context [if (?a <? ?b)%N then _ else _] => destruct (a <? b)%N end; cbn [bind]; [|easy]).
  intros _. clear Hb. zap; cbn [bind]; try lia. eexists; split; [reflexivity|].
  change (@fnan xr XR) with NaN.
  set (f := fun m => if Req (var m) 0 then NaN else Fin (excess_kurtosis m)).
  change (fun i => if Req (var (win w l i)) 0 then NaN else Fin (excess_kurtosis (win w l i)))
    with (fun i => f (win w l i)).
  apply windowed_real; [lia|intros m Lm]. unfold f.
  assert (I : 4 <= INR w) by (replace 4 with (INR 4) by (cbn; lra); now apply le_INR).
  unfold kurtosis_win. rewrite (x_dev 4 w m powi4 x_pow4) by (easy || lia).
  assert (S2 : sum_dev2 (win_mean w (map Fin m)) (map Fin m) = Fin (dev 2 m)).
  { rewrite x_win_mean, x_sum_dev2 by (easy || lia). reflexivity. }
  rewrite S2. rewrite !x_ofN, !N2Z.inj_mul, !mult_IZR, N2Z.inj_add, plus_IZR.
  unfold W. change 1%N with (N.of_nat 1). change 2%N with (N.of_nat 2). change 3%N with (N.of_nat 3).
  rewrite !IZR_N_sub, !IZR_N by (unfold W in *; lia). cbn [INR].
  replace (1 + 1 + 1) with 3 by lra. replace (1 + 1) with 2 by lra.
  assert (D : (INR w - 2) * (INR w - 3) <> 0) by (apply Rmult_integral_contrapositive; lra).
  rewrite x_lit, x_mul, !x_div, x_mul, x_mul by easy. rewrite x_quot.
  rewrite var_dev, Lm. rcase.
  - assert (Z : dev 2 m = 0).
    { apply Rmult_eq_reg_r with (/ INR w); [unfold Rdiv in E; lra|apply Rinv_neq_0_compat; lra]. }
    assert (Z4 : dev 4 m = 0).
    { unfold dev. rewrite (map_ext_in _ (fun _ => 0)); [rewrite Rsum_const; lra|].
      intros x Hx. rewrite (proj1 (dev2_zero m) Z x Hx) at 1. ring. }
    rewrite Z, Z4, !Rmult_0_r, quot_0_0. now rewrite x_sub_nan_l.
  - assert (Z : dev 2 m <> 0) by (intros Z; apply E; rewrite Z; unfold Rdiv; lra).
    rewrite quot_ok by now apply Rmult_integral_contrapositive. rewrite x_div, x_sub by easy.
    f_equal. unfold excess_kurtosis. now rewrite Lm.
Qed.

(** The adjusted Fisher-Pearson skewness. *)
Definition adjusted_skew (l : list R) : R :=
  let n := INR (length l) in
  sqrt (n * (n - 1)) / (n - 2) * (dev 3 l / n) / Rpower (var l) (3 / 2).

Theorem skew_real l w : (3 <= w)%nat -> (N.of_nat w * (N.of_nat w - 1) < 2 ^ 64)%N ->
  exists o, skew (map Fin l) w = Ok o /\
  aligned o (length l) (w - 1) NaN
    (fun i => if Req (var (win w l i)) 0 then NaN else Fin (adjusted_skew (win w l i))).
Proof.
  intros Hw Hb. unfold skew. zap; cbn [bind]; try lia.
  assert (I : 3 <= INR w) by (replace 3 with (INR 3) by (cbn; lra); now apply le_INR).
  assert (C : forall m, length m = w -> skew_win w (map Fin m) =
     Ok (if Req (var m) 0 then NaN else Fin (adjusted_skew m))).
  { intros m Lm. unfold skew_win. cbv zeta. rewrite (x_dev 3 w m powi3 x_pow3) by (easy || lia).
    fold (variance_win w (map Fin m)). rewrite x_var by (easy || lia). unfold usubN, umul, two64.
    destruct (N.leb_spec 1 (N.of_nat w)) as [B1|]; [|lia]. cbn [bind].
    destruct (N.ltb_spec (N.of_nat w * (N.of_nat w - 1)) (2 ^ 64)) as [_|B]; [|now apply N.le_ngt in B].
    cbn [bind]. clear Hb. unfold usub. destruct (Nat.leb_spec 2 w); [|lia]. cbn [bind]. f_equal.
    rewrite x_ofN, N2Z.inj_mul, mult_IZR. change 1%N with (N.of_nat 1). rewrite IZR_N_sub, IZR_N by easy.
    cbn [INR]. rewrite x_sqrt by nra. rewrite !x_nat, minus_INR by easy. cbn [INR].
    replace (1 + 1) with 2 by lra. rewrite !x_lit. rewrite !x_div by lra. rewrite x_mul.
    assert (V : fpow (Fin (var m)) (Fin (3 / 2)) = if Req (var m) 0 then Fin 0 else Fin (Rpower (var m) (3 / 2))).
    { cbn. pose proof (var_nonneg m). rcase; try lra; reflexivity. }
    rewrite V. rcase.
    - rewrite x_quot. assert (Z : dev 3 m = 0).
      { unfold dev. rewrite (map_ext_in _ (fun _ => 0)); [rewrite Rsum_const; lra|].
        intros x Hx. apply var_zero in E; [|intros ->; cbn in *; lia]. destruct E as [c Hc].
        rewrite (Hc x Hx). rewrite (mean_const c) by (try easy; intros ->; easy). ring. }
      rewrite Z. replace (sqrt (INR w * (INR w - 1)) / (INR w - 2) * (0 / INR w)) with 0 by (field; lra).
      apply quot_0_0.
    - rewrite x_div by (unfold Rpower; pose proof (exp_pos (3 / 2 * ln (var m))); lra). f_equal.
      unfold adjusted_skew. now rewrite Lm. }
  assert (C2 : forall x, In x (windows w (map Fin l)) -> skew_win w x = Ok match skew_win w x with Ok a => a | Panic => NaN end).
  { intros x Hx. rewrite windows_map in Hx. apply in_map_iff in Hx. destruct Hx as (m & <- & Hm).
    rewrite C; [easy|]. apply (windows_length) in Hm; [easy|lia]. }
  rewrite (rmap_Ok_map C2). cbn [bind]. eexists; split; [reflexivity|]. change (@fnan xr XR) with NaN.
  apply (windowed_real l w _ (fun m => if Req (var m) 0 then NaN else Fin (adjusted_skew m))); [lia|].
  intros m Lm. now rewrite C.
Qed.

(** ** Transformations of the data *)

Lemma win_map {A B} (f : A -> B) w l i : win w (map f l) i = map f (win w l i).
Proof. unfold win. now rewrite skipn_map, firstn_map. Qed.
Lemma aligned_unique {B} (o o' : list B) n k na f g :
  aligned o n k na f -> aligned o' n k na g -> (forall i, (k <= i < n)%nat -> f i = g i) -> o = o'.
Proof.
  intros (L & W & V) (L' & W' & V') H. apply nth_error_ext. intros i.
  destruct (le_lt_dec (Nat.max k n) i) as [G|G].
  - rewrite !(proj2 (nth_error_None _ i)) by lia. easy.
  - destruct (le_lt_dec k i); [rewrite V, V' by lia; f_equal; apply H; lia | rewrite W, W' by lia; easy].
Qed.

Theorem variance_shift l w c :
  variance (map Fin (map (fun x => x + c) l)) w = variance (map Fin l) w.
Proof.
  destruct w as [|w]; [easy|].
  destruct (variance_real l (S w) ltac:(lia)) as (o & -> & A).
  destruct (variance_real (map (fun x => x + c) l) (S w) ltac:(lia)) as (o' & -> & A').
  f_equal. rewrite map_length in A'. apply (aligned_unique _ _ _ _ _ _ _ A' A).
  intros i Hi. f_equal. rewrite win_map.
  rewrite <- (Rmult_1_l (var (win (S w) l i))). replace 1 with (1 ^ 2) by lra.
  rewrite <- (var_affine 1 c) by (apply win_nonempty; lia). f_equal. apply map_ext. intros; lra.
Qed.
Theorem variance_scale l w c : (0 < w)%nat ->
  exists o, variance (map Fin (map (fun x => c * x) l)) w = Ok o /\
  aligned o (length l) (w - 1) NaN (fun i => Fin (c ^ 2 * var (win w l i))).
Proof.
  intros Hw. destruct (variance_real (map (fun x => c * x) l) w Hw) as (o & E & A).
  exists o. split; [easy|]. rewrite map_length in A. revert A. apply aligned_ext. intros i Hi. f_equal.
  rewrite win_map. rewrite <- (var_affine c 0) by (apply win_nonempty; lia). f_equal. apply map_ext. intros; lra.
Qed.
Theorem zscore_affine l w a b : 0 < a ->
  zscore (map Fin (map (fun x => a * x + b) l)) w = zscore (map Fin l) w.
Proof.
  intros Ha. destruct w as [|w]; [easy|].
  destruct (zscore_real l (S w) ltac:(lia)) as (o & -> & A).
  destruct (zscore_real (map (fun x => a * x + b) l) (S w) ltac:(lia)) as (o' & -> & A').
  f_equal. rewrite map_length in A'. apply (aligned_unique _ _ _ _ _ _ _ A' A).
  intros i Hi. rewrite win_map. set (m := win (S w) l i). assert (Hm : m <> []) by (apply win_nonempty; lia).
  rewrite var_affine, mean_affine by easy. pose proof (var_nonneg m).
  assert (a ^ 2 > 0) by nra. rcase; try easy.
  - exfalso. apply E0. apply Rmult_integral in E. lra.
  - exfalso. apply E. rewrite E0. lra.
  - f_equal. rewrite sqrt_mult, sqrt_pow2 by lra.
    change (nth i (map (fun x => a * x + b) l) 0) with (nth i (map (fun x => a * x + b) l) 0).
    rewrite (nth_indep _ 0 (a * 0 + b)) by (rewrite map_length; lia).
    rewrite (map_nth (fun x => a * x + b)). field. split; [|lra].
    intros Z. apply sqrt_eq_0 in Z; [easy|lra].
Qed.
Theorem skew_affine l w a b : a <> 0 -> (3 <= w)%nat -> (N.of_nat w * (N.of_nat w - 1) < 2 ^ 64)%N ->
  exists o, skew (map Fin (map (fun x => a * x + b) l)) w = Ok o /\
  aligned o (length l) (w - 1) NaN
    (fun i => if Req (var (win w l i)) 0 then NaN
              else Fin ((if Rltb a 0 then -1 else 1) * adjusted_skew (win w l i))).
Proof.
  intros Ha Hw Hb. destruct (skew_real (map (fun x => a * x + b) l) w Hw Hb) as (o & E & A). clear Hb.
  exists o. split; [easy|]. rewrite map_length in A. revert A. apply aligned_ext. intros i Hi.
  rewrite win_map. set (m := win w l i). assert (Hm : m <> []) by (apply win_nonempty; lia).
  rewrite var_affine by easy. pose proof (var_nonneg m). assert (P : 0 < a ^ 2) by (apply pow2_pos; easy).
  destruct (Req (a ^ 2 * var m) 0) eqn:E1; [apply Req_true in E1 | apply Req_false in E1];
  (destruct (Req (var m) 0) eqn:E2; [apply Req_true in E2 | apply Req_false in E2]); try easy.
  - exfalso. apply E2. apply Rmult_integral in E1. lra.
  - exfalso. apply E1. rewrite E2. lra.
  - f_equal. unfold adjusted_skew. rewrite map_length, dev_affine, var_affine by easy.
    rewrite <- Rpower_mult_distr by lra.
    assert (Q : Rpower (a ^ 2) (3 / 2) = Rabs a ^ 3).
    { rewrite <- (pow2_abs a). assert (0 < Rabs a) by now apply Rabs_pos_lt.
      rewrite <- Rpower_pow by easy. rewrite Rpower_mult. rewrite <- Rpower_pow by easy. f_equal.
      cbn. lra. }
    rewrite Q. assert (0 < Rabs a) by now apply Rabs_pos_lt.
    assert (I : 3 <= INR (length m)).
    { unfold m. rewrite length_win by lia. replace 3 with (INR 3) by (cbn; lra). now apply le_INR. }
    assert (RP : Rpower (var m) (3 / 2) <> 0) by (unfold Rpower; pose proof (exp_pos (3 / 2 * ln (var m))); lra).
    rcase.
    + rewrite Rabs_left by easy. field. repeat split; try easy; lra.
    + rewrite Rabs_right by lra. field. repeat split; try easy; lra.
Qed.
Theorem kurtosis_affine l w a b : a <> 0 -> (4 <= w)%nat ->
  (N.of_nat w < 2642246)%N ->
  kurtosis (map Fin (map (fun x => a * x + b) l)) w = kurtosis (map Fin l) w.
Proof.
  intros Ha Hw Hb. destruct (kurtosis_real l w Hw Hb) as (o & -> & A).
  destruct (kurtosis_real (map (fun x => a * x + b) l) w Hw Hb) as (o' & -> & A'). clear Hb.
  f_equal. rewrite map_length in A'. apply (aligned_unique _ _ _ _ _ _ _ A' A). intros i Hi.
  rewrite win_map. set (m := win w l i). assert (Hm : m <> []) by (apply win_nonempty; lia).
  assert (V0 : forall l, l <> [] -> var l <> 0 -> dev 2 l <> 0).
  { intros k Hk E Z. apply E. rewrite var_dev, Z. unfold Rdiv. lra. }
  rewrite var_affine by easy. pose proof (var_nonneg m). assert (P : 0 < a ^ 2) by (apply pow2_pos; easy).
  destruct (Req (a ^ 2 * var m) 0) eqn:E1; [apply Req_true in E1 | apply Req_false in E1];
  (destruct (Req (var m) 0) eqn:E2; [apply Req_true in E2 | apply Req_false in E2]); try easy.
  - exfalso. apply E2. apply Rmult_integral in E1. lra.
  - exfalso. apply E1. rewrite E2. lra.
  - f_equal. unfold excess_kurtosis. rewrite map_length, !dev_affine by easy.
    assert (I : 4 <= INR (length m)).
    { unfold m. rewrite length_win by lia. replace 4 with (INR 4) by (cbn; lra). now apply le_INR. }
    pose proof (V0 m Hm E2). f_equal. field. repeat split; try easy; lra.
Qed.
