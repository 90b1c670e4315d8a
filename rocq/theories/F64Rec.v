(** * F64Rec: rounding errors of the recursive averages do not grow with the
      length of the series. *)

From Coq Require Import Reals Lra Lia ZArith.
From Flocq Require Import Core Relative Plus_error IEEE754.BinarySingleNaN.
From Verif Require Import Spec BaseFacts Tac SmoothShape VolShape DistShape TrendShape MomShape XReal Select RSpec XRFacts Bars DistReal VolumeReal VolatReal B64 F64 Smooth SmoothVals Momentum Trend Volume Volatility Correlation CorrReal Dcor F64Facts MomReal TrendReal F64Range F64Err.
Local Unset Implicit Arguments.
Local Open Scope R_scope.

(** The float [x] is finite and within [e] of the real number [r]. *)
Definition near (x : f64) (r e : R) : Prop := fin x /\ Rabs (B2R x - r) <= e.

Lemma near_weaken x r e f : near x r e -> e <= f -> near x r f.
Proof. intros [F H] L. split; [easy|lra]. Qed.
Lemma near_exact x : fin x -> near x (B2R x) 0.
Proof. intros F. split; [easy|]. rewrite Rminus_diag_eq by easy. rewrite Rabs_R0. lra. Qed.
Lemma near_shift x r s e d : near x r e -> Rabs (r - s) <= d -> near x s (e + d).
Proof.
  intros [F H] D. split; [easy|]. replace (B2R x - s) with ((B2R x - r) + (r - s)) by ring.
  eapply Rle_trans; [apply Rabs_triang|]. lra.
Qed.
Lemma near_abs x r e L : near x r e -> Rabs r <= L -> Rabs (B2R x) <= L + e.
Proof.
  intros [_ H] A. replace (B2R x) with ((B2R x - r) + r) by ring. eapply Rle_trans; [apply Rabs_triang|]. lra.
Qed.
Lemma near_nonneg x r e : near x r e -> 0 <= e.
Proof. intros [_ H]. pose proof (Rabs_pos (B2R x - r)). lra. Qed.

Lemma uu_le : uu <= / 1024.
Proof. unfold uu. apply Rle_trans with (bpow radix2 (-10)); [apply bpow_le; lia|]. simpl. lra. Qed.
Lemma rnd_lim r : Rabs r <= bpow radix2 1000 -> Rabs (rnd r) < lim.
Proof.
  intros H. assert (E : rnd (bpow radix2 1000) = bpow radix2 1000).
  { apply round_generic; [apply valid_rnd_N|]. apply generic_format_bpow. unfold SpecFloat.fexp, SpecFloat.emin. lia. }
  assert (L : bpow radix2 1000 < lim) by (apply bpow_lt; lia).
  assert (A : rnd (- bpow radix2 1000) <= rnd r <= rnd (bpow radix2 1000)).
  { split; apply rnd_le; revert H; unfold Rabs; destruct (Rcase_abs r); lra. }
  rewrite rnd_opp, E in A. apply Rabs_def1; lra.
Qed.

Lemma near_add x y r s e f L : near x r e -> near y s f -> Rabs (r + s) + e + f <= L -> L <= bpow radix2 1000 ->
  near (Bplus mode_NE x y) (r + s) (e + f + uu * L).
Proof.
  intros Hx Hy HL HB. destruct Hx as [Fx Ex], Hy as [Fy Ey].
  assert (A : Rabs (B2R x + B2R y) <= L).
  { replace (B2R x + B2R y) with ((B2R x - r) + (B2R y - s) + (r + s)) by ring.
    eapply Rle_trans; [apply Rabs_triang|]. pose proof (Rabs_triang (B2R x - r) (B2R y - s)). lra. }
  pose proof (xval_add x y Fx Fy) as V. rewrite fl_fin in V by (apply rnd_lim; lra).
  apply xval_fin_inv in V as [F V]. split; [exact F|]. rewrite V. pose proof (rnd_add_err x y) as R1. pose proof uu_pos.
  replace (rnd (B2R x + B2R y) - (r + s)) with ((rnd (B2R x + B2R y) - (B2R x + B2R y)) + ((B2R x - r) + (B2R y - s))) by ring.
  eapply Rle_trans; [apply Rabs_triang|]. pose proof (Rabs_triang (B2R x - r) (B2R y - s)). nra.
Qed.
Lemma near_opp x r e : near x r e -> near (Bopp x) (- r) e.
Proof.
  intros [F E]. split; [now rewrite is_finite_Bopp|]. rewrite B2R_Bopp.
  replace (- B2R x - - r) with (- (B2R x - r)) by ring. now rewrite Rabs_Ropp.
Qed.
Lemma near_sub x y r s e f L : near x r e -> near y s f -> Rabs (r - s) + e + f <= L -> L <= bpow radix2 1000 ->
  near (Bminus mode_NE x y) (r - s) (e + f + uu * L).
Proof.
  intros Hx Hy HL HB. destruct Hx as [Fx Ex]. pose proof (near_opp _ _ _ Hy) as Hy'. destruct Hy as [Fy Ey].
  pose proof (near_add x (Bopp y) r (- s) e f L (conj Fx Ex) Hy' HL HB) as [F E].
  pose proof (xval_sub x y Fx Fy) as V. pose proof (xval_add x (Bopp y) Fx (proj1 Hy')) as W. rewrite B2R_Bopp in W.
  change (B2R x + - B2R y) with (B2R x - B2R y) in W. rewrite <- W in V. rewrite (xval_fin _ F) in V.
  apply xval_fin_inv in V as [F' V]. split; [exact F'|]. rewrite V. exact E.
Qed.
Lemma near_mul x y r s e f Rm Sm L : near x r e -> near y s f -> Rabs r <= Rm -> Rabs s <= Sm ->
  (Rm + e) * (Sm + f) <= L -> L <= bpow radix2 1000 ->
  near (Bmult mode_NE x y) (r * s) (Rm * f + Sm * e + e * f + uu * L + eta).
Proof.
  intros Hx Hy HR HS HL HB. pose proof (near_abs _ _ _ _ Hx HR) as Ax. pose proof (near_abs _ _ _ _ Hy HS) as Ay.
  pose proof (near_nonneg _ _ _ Hx) as Pe. pose proof (near_nonneg _ _ _ Hy) as Pf. destruct Hx as [Fx Ex], Hy as [Fy Ey].
  pose proof (Rabs_pos r). pose proof (Rabs_pos s). pose proof (Rabs_pos (B2R x)). pose proof (Rabs_pos (B2R y)).
  assert (A : Rabs (B2R x * B2R y) <= L).
  { rewrite Rabs_mult. eapply Rle_trans; [|exact HL]. apply Rmult_le_compat; easy. }
  pose proof (xval_mul x y Fx Fy) as V. rewrite fl_fin in V by (apply rnd_lim; lra).
  apply xval_fin_inv in V as [F V]. split; [exact F|]. rewrite V. pose proof (rnd_err (B2R x * B2R y)) as R1. pose proof uu_pos.
  replace (rnd (B2R x * B2R y) - r * s) with ((rnd (B2R x * B2R y) - B2R x * B2R y) + (r * (B2R y - s) + s * (B2R x - r) + (B2R x - r) * (B2R y - s))) by ring.
  eapply Rle_trans; [apply Rabs_triang|].
  assert (B1 : Rabs (r * (B2R y - s)) <= Rm * f) by (rewrite Rabs_mult; apply Rmult_le_compat; try apply Rabs_pos; easy).
  assert (B2 : Rabs (s * (B2R x - r)) <= Sm * e) by (rewrite Rabs_mult; apply Rmult_le_compat; try apply Rabs_pos; easy).
  assert (B3 : Rabs ((B2R x - r) * (B2R y - s)) <= e * f) by (rewrite Rabs_mult; apply Rmult_le_compat; try apply Rabs_pos; easy).
  pose proof (Rabs_triang (r * (B2R y - s) + s * (B2R x - r)) ((B2R x - r) * (B2R y - s))).
  pose proof (Rabs_triang (r * (B2R y - s)) (s * (B2R x - r))). assert (uu * Rabs (B2R x * B2R y) <= uu * L) by (apply Rmult_le_compat_l; lra). lra.
Qed.
(** Division by a whole number. *)
Lemma near_div_nat m x r e w L : near x r e -> (0 < w)%nat -> (Z.of_nat w <= 2 ^ 53)%Z -> Rabs r + e <= L -> L <= bpow radix2 1000 ->
  near (Bdiv mode_NE x (@fofnat f64 (B64 m) w)) (r / INR w) (e / INR w + uu * (L / INR w) + eta).
Proof.
  intros [Fx Ex] Hw Hz HL HB. pose proof (xval_nat m w Hz) as N. apply xval_fin_inv in N as [F2 V2].
  assert (P1 : 1 <= INR w) by (change 1 with (INR 1); apply le_INR; lia).
  assert (Pi : 0 < / INR w) by (apply Rinv_0_lt_compat; lra). assert (Pi1 : / INR w <= 1) by (rewrite <- Rinv_1; apply Rinv_le_contravar; lra).
  pose proof (xval_div x (@fofnat f64 (B64 m) w) Fx F2 ltac:(rewrite V2; lra)) as D. rewrite V2 in D.
  assert (A : Rabs (B2R x) <= L).
  { replace (B2R x) with ((B2R x - r) + r) by ring. eapply Rle_trans; [apply Rabs_triang|]. lra. }
  assert (A' : Rabs (B2R x / INR w) <= L / INR w).
  { unfold Rdiv. rewrite Rabs_mult, (Rabs_pos_eq (/ INR w)) by lra. apply Rmult_le_compat_r; lra. }
  assert (LL : L / INR w <= L). { unfold Rdiv. pose proof (Rabs_pos (B2R x)). nra. }
  rewrite fl_fin in D by (apply rnd_lim; lra). apply xval_fin_inv in D as [FD VD]. split; [exact FD|]. rewrite VD.
  pose proof (rnd_err (B2R x / INR w)) as R1. pose proof uu_pos.
  replace (rnd (B2R x / INR w) - r / INR w) with ((rnd (B2R x / INR w) - B2R x / INR w) + (B2R x - r) / INR w) by (unfold Rdiv; ring).
  eapply Rle_trans; [apply Rabs_triang|].
  assert (Q1 : Rabs ((B2R x - r) / INR w) <= e / INR w).
  { unfold Rdiv. rewrite Rabs_mult, (Rabs_pos_eq (/ INR w)) by lra. apply Rmult_le_compat_r; lra. }
  assert (uu * Rabs (B2R x / INR w) <= uu * (L / INR w)) by (apply Rmult_le_compat_l; lra). lra.
Qed.

(** ** A contracting recurrence keeps its error below [d / a] *)
Lemma ema_cons a s x xs : ema a s (x :: xs) = ema a (x * a + s * (1 - a)) xs.
Proof. reflexivity. Qed.
Lemma ema_snoc a s x xs : ema a s (xs ++ [x]) = x * a + ema a s xs * (1 - a).
Proof. unfold ema. now rewrite fold_left_app. Qed.
(** Changing the seed and every item by at most [e] changes an average by at most [e]. *)
Lemma ema_perturb a e xs : 0 <= a <= 1 -> forall ys s t, Rabs (s - t) <= e -> Forall2 (fun x y => Rabs (x - y) <= e) xs ys ->
  Rabs (ema a s xs - ema a t ys) <= e.
Proof.
  intros Ha. induction xs as [|x xs IH]; intros ys s t Hs H; inversion H; subst; [easy|]. rewrite !ema_cons. apply IH; [|easy].
  replace (x * a + s * (1 - a) - (y * a + t * (1 - a))) with (a * (x - y) + (1 - a) * (s - t)) by ring.
  eapply Rle_trans; [apply Rabs_triang|]. rewrite !Rabs_mult, !(Rabs_pos_eq a), !(Rabs_pos_eq (1 - a)) by lra. nra.
Qed.
Lemma mean_perturb e xs ys : 0 <= e -> Forall2 (fun x y => Rabs (x - y) <= e) xs ys -> Rabs (mean xs - mean ys) <= e.
Proof.
  intros He H. assert (L : length xs = length ys) by (induction H; cbn; congruence).
  assert (S : Rabs (Rsum xs - Rsum ys) <= INR (length xs) * e).
  { clear L. induction H; [rewrite Rsum_nil, Rminus_diag_eq, Rabs_R0 by easy; cbn; lra|]. rewrite !Rsum_cons. cbn [length]. rewrite S_INR.
    replace (x + Rsum l - (y + Rsum l')) with ((x - y) + (Rsum l - Rsum l')) by ring. eapply Rle_trans; [apply Rabs_triang|]. lra. }
  unfold mean. rewrite <- L. destruct xs as [|x xs].
  - inversion H; subst. rewrite Rminus_diag_eq, Rabs_R0; [easy|reflexivity].
  - assert (P : 0 < INR (length (x :: xs))) by (apply lt_0_INR; cbn; lia). set (n := INR (length (x :: xs))) in *.
    replace (Rsum (x :: xs) / n - Rsum ys / n) with ((Rsum (x :: xs) - Rsum ys) * / n) by (unfold Rdiv; ring).
    assert (0 < / n) by now apply Rinv_0_lt_compat. rewrite Rabs_mult, (Rabs_pos_eq (/ n)) by lra.
    apply Rmult_le_reg_r with n; [easy|]. rewrite Rmult_assoc, Rinv_l by lra. lra.
Qed.

(** The first [w] items: the computed mean. *)
Lemma pow_uu n : INR n * uu <= 1 -> (1 + uu) ^ n - 1 <= 2 * INR n * uu.
Proof.
  pose proof uu_pos as P. intros H.
  assert (G : forall k, (k <= n)%nat -> (1 + uu) ^ k <= 1 + INR k * uu + (INR k * uu) ^ 2).
  { induction k as [|k IH]; intros Hk; [cbn; lra|]. specialize (IH ltac:(lia)). cbn [pow] in *. rewrite S_INR.
    assert (INR k + 1 <= INR n) by (rewrite <- S_INR; apply le_INR; lia). pose proof (pos_INR k).
    set (q := INR k * uu) in *. assert (0 <= q) by (apply Rmult_le_pos; lra). assert (q + uu <= 1) by (unfold q; assert ((INR k + 1) * uu <= INR n * uu) by (apply Rmult_le_compat_r; lra); lra).
    replace ((INR k + 1) * uu) with (q + uu) by (unfold q; ring).
    assert ((1 + uu) * (1 + uu) ^ k <= (1 + uu) * (1 + q + q * (q * 1))) by (apply Rmult_le_compat_l; lra).
    assert (uu * (q * q) <= uu * q) by (apply Rmult_le_compat_l; nra). nra. }
  specialize (G n (le_n n)). cbn [pow] in G. pose proof (pos_INR n). replace (2 * INR n * uu) with (2 * (INR n * uu)) by ring. set (q := INR n * uu) in *. assert (0 <= q) by (apply Rmult_le_pos; lra). nra.
Qed.
Lemma asum_le l M : (forall x, In x l -> Rabs (B2R x) <= M) -> asum l <= INR (length l) * M.
Proof.
  intros H. unfold asum. induction l as [|x l IH]; cbn [map length]; [rewrite Rsum_nil; cbn; lra|]. rewrite Rsum_cons, S_INR.
  specialize (IH ltac:(intros; apply H; now right)). specialize (H x (or_introl eq_refl)). cbv beta. lra.
Qed.

(** Sizes for which nothing overflows and nothing is lost to underflow. *)
Definition sized (M : R) : Prop := bpow radix2 (-900) <= M <= bpow radix2 900.
Definition small_window (w : nat) : Prop := (Z.of_nat w <= 2 ^ 40)%Z.
Lemma small_INR w : small_window w -> INR w <= bpow radix2 40.
Proof. intros H. rewrite INR_IZR_INZ. change (bpow radix2 40) with (IZR (2 ^ 40)). now apply IZR_le. Qed.
Lemma eta_small M : sized M -> eta <= uu * M * / 1024.
Proof.
  intros [H _]. pose proof uu_pos. apply Rle_trans with (uu * bpow radix2 (-900) * / 1024).
  - replace (/ 1024) with (bpow radix2 (-10)) by (simpl; lra). unfold uu, eta. rewrite <- !bpow_plus. apply bpow_le. lia.
  - apply Rmult_le_compat_r; [lra|]. apply Rmult_le_compat_l; lra.
Qed.
Lemma small_uu w : small_window w -> INR w * uu <= / 8192.
Proof.
  intros H. apply small_INR in H. pose proof uu_pos. replace (/ 8192) with (bpow radix2 40 * bpow radix2 (-53)) by (rewrite <- bpow_plus; simpl; lra).
  apply Rmult_le_compat_r; unfold uu in *; lra.
Qed.
Lemma sized_pos M : sized M -> 0 < M.
Proof. intros [H _]. pose proof (bpow_gt_0 radix2 (-900)). lra. Qed.
Lemma sized_mul M w : sized M -> small_window w -> 1024 * (INR w * M) <= bpow radix2 1000.
Proof.
  intros [H1 H2] Hw. apply small_INR in Hw. pose proof (bpow_gt_0 radix2 (-900)). pose proof (pos_INR w).
  apply Rle_trans with (bpow radix2 10 * (bpow radix2 40 * bpow radix2 900)).
  - apply Rmult_le_compat; [lra|nra|simpl; lra|]. apply Rmult_le_compat; lra.
  - rewrite <- !bpow_plus. apply bpow_le. lia.
Qed.
Lemma mean_near m (l : list f64) M : (0 < length l)%nat -> small_window (length l) -> sized M ->
  (forall x, In x l -> fin x /\ Rabs (B2R x) <= M) ->
  near (Bdiv mode_NE (@fsum f64 (B64 m) l) (@fofnat f64 (B64 m) (length l))) (mean (@map f64 R B2R l)) (5 * INR (length l) * uu * M).
Proof.
  intros Hl Hw HM H. set (w := length l) in *. pose proof (small_uu w Hw) as U. pose proof uu_pos as P. pose proof (sized_pos M HM) as PM.
  pose proof (eta_small M HM) as EM. pose proof (sized_mul M w HM Hw) as SM.
  assert (P1 : 1 <= INR w) by (change 1 with (INR 1); apply le_INR; lia).
  pose proof (pow_uu w ltac:(lra)) as PW. pose proof (asum_le l M ltac:(intros; now apply H)) as AS. change (asum l <= INR w * M) in AS. pose proof (asum_nonneg l) as A0.
  assert (PA : (1 + uu) ^ w * asum l <= 2 * (INR w * M)).
  { apply Rmult_le_compat; [apply pow_le; lra|easy|lra|easy]. }
  destruct (fsum_err m l) as [F1 E1]; [intros; now apply H| |].
  { fold w. eapply Rle_lt_trans; [exact PA|]. apply Rle_lt_trans with (bpow radix2 1000); [nra|apply bpow_lt; lia]. }
  fold w in E1.
  assert (N : near (@fsum f64 (B64 m) l) (rsum l) (2 * INR w * uu * (INR w * M))).
  { split; [exact F1|]. eapply Rle_trans; [exact E1|]. apply Rmult_le_compat; try easy. pose proof (powge w). lra. }
  pose proof (rsum_abs l) as RA.
  assert (T : 0 < INR w * M) by (apply Rmult_lt_0_compat; lra).
  assert (Q : INR w * uu * (INR w * M) <= / 8192 * (INR w * M)) by (apply Rmult_le_compat_r; lra).
  assert (Hz : (Z.of_nat w <= 2 ^ 53)%Z) by (unfold small_window in Hw; lia).
  assert (B1 : Rabs (rsum l) + 2 * INR w * uu * (INR w * M) <= 2 * (INR w * M)) by lra.
  assert (B2 : 2 * (INR w * M) <= bpow radix2 1000) by lra.
  pose proof (near_div_nat m _ _ _ w (2 * (INR w * M)) N Hl Hz B1 B2) as D.
  unfold mean. rewrite map_length. fold w. fold (rsum l). eapply near_weaken; [exact D|].
  replace (2 * INR w * uu * (INR w * M) / INR w) with (2 * INR w * uu * M) by (field; lra).
  replace (2 * (INR w * M) / INR w) with (2 * M) by (field; lra).
  assert (0 < uu * M) by (apply Rmult_lt_0_compat; lra). assert (uu * M <= INR w * uu * M) by (rewrite Rmult_assoc; apply (Rmult_le_compat_r (uu * M)) in P1; lra). lra.
Qed.

(** ** Wilder's average *)
Lemma abs_le r M : Rabs r <= M -> - M <= r <= M.
Proof. unfold Rabs. destruct (Rcase_abs r); lra. Qed.
Lemma le_abs r M : - M <= r <= M -> Rabs r <= M.
Proof. unfold Rabs. destruct (Rcase_abs r); lra. Qed.
Lemma mean_abs l M : l <> [] -> (forall x, In x l -> Rabs x <= M) -> Rabs (mean l) <= M.
Proof. intros Hl H. apply le_abs, mean_bounds; [easy|]. intros x Hx. now apply abs_le, H. Qed.
Lemma ema_abs a s xs M : 0 <= a <= 1 -> Rabs s <= M -> (forall x, In x xs -> Rabs x <= M) -> Rabs (ema a s xs) <= M.
Proof. intros Ha Hs H. apply le_abs, ema_bounds; [easy|now apply abs_le|]. intros x Hx. now apply abs_le, H. Qed.

(** A recurrence whose step is within [d] of the smoothing with weight [a], as
    long as the state stays below [2 * M], stays within [d / a] of the average. *)
Lemma rec_near (g : f64 -> f64 -> f64) a d M xs s0 r0 : 0 < a <= 1 -> 0 <= d -> d / a <= M ->
  (forall s x, fin s -> fin x -> Rabs (B2R s) <= 2 * M -> Rabs (B2R x) <= M -> near (g s x) (B2R x * a + B2R s * (1 - a)) d) ->
  near s0 r0 (d / a) -> Rabs r0 <= M -> (forall x, In x xs -> fin x /\ Rabs (B2R x) <= M) ->
  near (fold_left g xs s0) (ema a r0 (@map f64 R B2R xs)) (d / a).
Proof.
  intros Ha Hd HM Hg Hs Hr. induction xs as [|x xs IH] using rev_ind; intros H; [exact Hs|].
  rewrite fold_left_app, map_app. cbn [fold_left map]. rewrite ema_snoc.
  specialize (IH ltac:(intros; apply H, in_or_app; now left)). destruct (H x ltac:(apply in_or_app; right; now left)) as [Fx Bx].
  assert (A : Rabs (ema a r0 (@map f64 R B2R xs)) <= M).
  { apply ema_abs; [lra|easy|]. intros y Hy. apply in_map_iff in Hy as (z & <- & Hz). apply H, in_or_app. now left. }
  pose proof (near_abs _ _ _ _ IH A) as B. set (s := fold_left g xs s0) in *. set (r := ema a r0 (@map f64 R B2R xs)) in *.
  pose proof (Hg s x (proj1 IH) Fx ltac:(lra) Bx) as N. destruct IH as [_ E].
  assert (D : Rabs (B2R x * a + B2R s * (1 - a) - (B2R x * a + r * (1 - a))) <= (1 - a) * (d / a)).
  { replace (B2R x * a + B2R s * (1 - a) - (B2R x * a + r * (1 - a))) with ((1 - a) * (B2R s - r)) by ring.
    rewrite Rabs_mult, (Rabs_pos_eq (1 - a)) by lra. apply Rmult_le_compat_l; lra. }
  pose proof (near_shift _ _ _ _ _ N D) as N'. eapply near_weaken; [exact N'|].
  replace (d + (1 - a) * (d / a)) with (d / a) by (field; lra). lra.
Qed.

Lemma wilder_step_near m w M s x : (2 <= w)%nat -> small_window w -> sized M -> fin s -> fin x -> Rabs (B2R s) <= 2 * M -> Rabs (B2R x) <= M ->
  near (Bdiv mode_NE (Bplus mode_NE (Bmult mode_NE s (@fofnat f64 (B64 m) (w - 1))) x) (@fofnat f64 (B64 m) w))
    (B2R x * (1 / INR w) + B2R s * (1 - 1 / INR w)) (8 * uu * M).
Proof.
  intros Hw Sw HM Fs Fx Bs Bx. pose proof (small_uu w Sw) as U. pose proof uu_pos as P. pose proof (sized_pos M HM) as PM.
  pose proof (eta_small M HM) as EM. pose proof (sized_mul M w HM Sw) as SM. pose proof eta_pos as PE.
  assert (P2 : 2 <= INR w) by (change 2 with (INR 2); apply le_INR; lia).
  assert (Hz : (Z.of_nat w <= 2 ^ 53)%Z) by (unfold small_window in Sw; lia).
  pose proof (xval_nat m (w - 1) ltac:(lia)) as N. apply xval_fin_inv in N as [F2 V2].
  assert (I1 : INR (w - 1) = INR w - 1) by (rewrite minus_INR by lia; reflexivity). rewrite I1 in V2.
  pose proof (near_exact _ F2) as N2. rewrite V2 in N2.
  assert (T : 0 < INR w * M) by (apply Rmult_lt_0_compat; lra). assert (0 < uu * M) by (apply Rmult_lt_0_compat; lra).
  assert (UM : uu * M <= / 1024 * M) by (apply Rmult_le_compat_r; [lra|apply uu_le]).
  pose proof (near_mul s _ (B2R s) (INR w - 1) 0 0 (2 * M) (INR w - 1) (2 * (INR w * M)) (near_exact s Fs) N2 Bs
    ltac:(rewrite Rabs_pos_eq; lra) ltac:(lra) ltac:(lra)) as Q1.
  set (p := Bmult mode_NE s (fofnat (w - 1))) in *.
  assert (B1 : Rabs (B2R s * (INR w - 1) + B2R x) <= 2 * (INR w * M)).
  { eapply Rle_trans; [apply Rabs_triang|]. rewrite Rabs_mult, (Rabs_pos_eq (INR w - 1)) by lra.
    assert (Rabs (B2R s) * (INR w - 1) <= 2 * M * (INR w - 1)) by (apply Rmult_le_compat_r; lra). lra. }
  assert (UW : uu * (2 * (INR w * M)) <= / 512 * (INR w * M)).
  { pose proof uu_le. assert (uu * (INR w * M) <= / 1024 * (INR w * M)) by (apply Rmult_le_compat_r; lra). lra. }
  assert (WM : M <= INR w * M) by (apply (Rmult_le_compat_r M) in P2; lra).
  pose proof (near_add p x _ _ _ 0 (9 / 4 * (INR w * M)) Q1 (near_exact x Fx) ltac:(lra) ltac:(lra)) as Q2.
  set (q := Bplus mode_NE p x) in *.
  assert (UV : uu * (9 / 4 * (INR w * M)) <= 9 / 4096 * (INR w * M)) by lra.
  pose proof (near_div_nat m q _ _ w (5 / 2 * (INR w * M)) Q2 ltac:(lia) Hz ltac:(lra) ltac:(lra)) as Q3.
  replace (B2R x * (1 / INR w) + B2R s * (1 - 1 / INR w)) with ((B2R s * (INR w - 1) + B2R x) / INR w) by (field; lra).
  eapply near_weaken; [exact Q3|].
  replace (5 / 2 * (INR w * M) / INR w) with (5 / 2 * M) by (field; lra).
  replace ((2 * M * 0 + (INR w - 1) * 0 + 0 * 0 + uu * (2 * (INR w * M)) + eta + 0 + uu * (9 / 4 * (INR w * M))) / INR w) with (17 / 4 * (uu * M) + eta / INR w) by (field; lra).
  assert (eta / INR w <= eta). { unfold Rdiv. assert (/ INR w <= 1) by (rewrite <- Rinv_1; apply Rinv_le_contravar; lra). nra. }
  lra.
Qed.

(** The state after each bar. *)
Lemma scan_nth {S A} (g : S -> A -> S) xs s i : (i < length xs)%nat ->
  nth_error (scan (fun s x => let s' := g s x in (s', s')) s xs) i = Some (fold_left g (firstn (i + 1) xs) s).
Proof.
  revert s i. induction xs as [|x xs IH]; intros s i Hi; cbn [length] in *; [lia|]. destruct i as [|i]; cbn [scan nth_error plus firstn fold_left]; [reflexivity|].
  rewrite IH by lia. reflexivity.
Qed.

(** ** C70: the average printed for a bar is within [8 * w] rounding units of the
       exact one, for however many bars the series has *)
Theorem wilder_f64_error m (f : nat -> f64) n w M : (1 <= w <= n)%nat -> small_window w -> sized M ->
  (forall k, (k < n)%nat -> fin (f k) /\ Rabs (B2R (f k)) <= M) ->
  exists o, @wilder f64 (B64 m) (series f n) w = Ok o /\
  forall i, (w - 1 <= i < n)%nat -> exists x, nth_error o i = Some x /\ fin x /\
    Rabs (B2R x - wilder_from w 0 (fun k => B2R (f k)) i) <= 8 * INR w * uu * M.
Proof.
  intros Hw Sw HM H. pose proof uu_pos as P. pose proof (sized_pos M HM) as PM. pose proof (small_uu w Sw) as U.
  assert (P1 : 1 <= INR w) by (change 1 with (INR 1); apply le_INR; lia).
  destruct (Nat.eq_dec w 1) as [->|N1].
  { exists (series f n). split; [reflexivity|]. intros i Hi. exists (f i). split.
    - unfold series. rewrite nth_error_map', nth_error_seq by lia. reflexivity.
    - split; [now apply H|]. unfold wilder_from. replace (i + 1 - (0 + 1 - 1))%nat with (S i) by lia. rewrite seq_S, map_app. cbn [map].
      rewrite ema_snoc. cbn [plus minus]. replace (1 / INR 1) with 1 by (cbn [INR]; field). rewrite Rminus_diag_eq; [rewrite Rabs_R0|ring].
      assert (0 <= uu * M) by (apply Rmult_le_pos; lra). cbn [INR]. lra. }
  unfold wilder. rewrite (proj2 (Nat.eqb_neq w 1)) by easy. unfold usub. rewrite (proj2 (Nat.leb_le 1 w)) by lia. cbn [bind].
  unfold slice_to, slice_from. rewrite length_series, (proj2 (Nat.leb_le (w - 1) n)) by lia. cbn [bind].
  eexists. split; [reflexivity|]. intros i Hi. rewrite nth_error_app2 by (rewrite length_pad; lia). rewrite length_pad.
  unfold series. rewrite firstn_bars, skipn_bars. replace (Nat.min (w - 1) n) with (w - 1)%nat by lia. cbn [plus].
  set (init := fdiv _ _).
  set (g := fun s x : f64 => Bdiv mode_NE (Bplus mode_NE (Bmult mode_NE s (@fofnat f64 (B64 m) (w - 1))) x) (@fofnat f64 (B64 m) w)).
  change (@wilder_step f64 (B64 m) w) with (fun s x : f64 => let s' := g s x in (s', s')).
  rewrite scan_nth by (rewrite map_length, seq_length; lia). eexists. split; [reflexivity|].
  rewrite firstn_bars. replace (Nat.min (i - (w - 1) + 1) (n - (w - 1))) with (i + 1 - (w - 1))%nat by lia.
  set (xs := map f (seq (w - 1) (i + 1 - (w - 1)))).
  set (hd := map f (seq 0 (w - 1))) in *.
  assert (Lh : length hd = (w - 1)%nat) by (unfold hd; now rewrite map_length, seq_length).
  assert (Hh : forall x, In x hd -> fin x /\ Rabs (B2R x) <= M).
  { intros x Hx. apply in_map_iff in Hx as (k & <- & Hk). apply in_seq in Hk. apply H. lia. }
  assert (HX : forall x, In x xs -> fin x /\ Rabs (B2R x) <= M).
  { intros x Hx. apply in_map_iff in Hx as (k & <- & Hk). apply in_seq in Hk. apply H. lia. }
  assert (Ns : near init (mean (@map f64 R B2R hd)) (8 * uu * M / (1 / INR w))).
  { pose proof (mean_near m hd M ltac:(lia)) as N. rewrite Lh in N. specialize (N ltac:(unfold small_window in *; lia) HM Hh).
    eapply near_weaken; [exact N|]. replace (8 * uu * M / (1 / INR w)) with (8 * INR w * (uu * M)) by (field; lra).
    rewrite minus_INR by lia. cbn [INR]. assert (0 < uu * M) by (apply Rmult_lt_0_compat; lra). nra. }
  assert (Ha : 0 < 1 / INR w <= 1).
  { assert (0 < / INR w) by (apply Rinv_0_lt_compat; lra). assert (/ INR w <= 1) by (rewrite <- Rinv_1; apply Rinv_le_contravar; lra). lra. }
  assert (B : 8 * uu * M / (1 / INR w) <= M).
  { replace (8 * uu * M / (1 / INR w)) with (8 * (INR w * uu) * M) by (field; lra). assert (INR w * uu * M <= / 8192 * M) by (apply Rmult_le_compat_r; lra). lra. }
  assert (A0 : Rabs (mean (@map f64 R B2R hd)) <= M).
  { apply mean_abs.
    - destruct hd; cbn in *; [lia|easy].
    - intros x Hx. apply in_map_iff in Hx as (z & <- & Hz). now apply Hh. }
  assert (D0 : 0 <= 8 * uu * M) by (apply Rmult_le_pos; lra).
  destruct (rec_near g (1 / INR w) (8 * uu * M) M xs init _ Ha D0 B
    ltac:(intros; apply wilder_step_near; try easy; lia) Ns A0 HX) as [F E].
  split; [exact F|]. replace (8 * uu * M / (1 / INR w)) with (8 * INR w * uu * M) in E by (field; lra).
  unfold wilder_from. cbn [plus]. unfold xs, hd in E. rewrite !map_map in E. exact E.
Qed.

(** ** The exponentially weighted average *)
Lemma eta_uu : eta <= uu * / 1024.
Proof. replace (/ 1024) with (bpow radix2 (-10)) by (simpl; lra). unfold uu, eta. rewrite <- bpow_plus. apply bpow_le. lia. Qed.
Lemma lit_near (z : Z) : (Z.abs z <= 2 ^ 53)%Z -> near (b64_of_Z z) (IZR z) 0.
Proof.
  intros H. pose proof (xval_of_Z z H) as V. apply xval_fin_inv in V as [F V]. split; [exact F|]. rewrite V, Rminus_diag_eq, Rabs_R0; [lra|easy].
Qed.
Lemma alpha_near m w : (1 <= w)%nat -> small_window w ->
  near (Bdiv mode_NE (b64_lit 2 1) (@fofnat f64 (B64 m) (w + 1))) (2 / (INR w + 1)) (33 / 32 * uu).
Proof.
  intros Hw Sw. assert (P1 : 1 <= INR w) by (change 1 with (INR 1); apply le_INR; lia). pose proof uu_pos as P. pose proof eta_uu.
  pose proof (lit_near 2 ltac:(easy)) as N. change (b64_of_Z 2) with (b64_lit 2 1) in N.
  assert (B2 : 2 <= bpow radix2 1000) by (apply Rle_trans with (bpow radix2 1); [simpl; lra|apply bpow_le; lia]).
  pose proof (near_div_nat m _ _ _ (w + 1) 2 N ltac:(lia) ltac:(unfold small_window in Sw; lia) ltac:(rewrite Rabs_pos_eq; lra) B2) as D.
  rewrite plus_INR in D. cbn [INR] in D. eapply near_weaken; [exact D|].
  assert (2 / (INR w + 1) <= 1). { apply Rmult_le_reg_r with (INR w + 1); [lra|]. unfold Rdiv. rewrite Rmult_assoc, Rinv_l by lra. lra. }
  assert (uu * (2 / (INR w + 1)) <= uu * 1) by (apply Rmult_le_compat_l; lra). unfold Rdiv at 1. lra.
Qed.
Lemma ewma_weight w : (1 <= w)%nat -> 0 < 2 / (INR w + 1) <= 1.
Proof.
  intros Hw. assert (P1 : 1 <= INR w) by (change 1 with (INR 1); apply le_INR; lia). split.
  - apply Rmult_lt_0_compat; [lra|]. apply Rinv_0_lt_compat. lra.
  - apply Rmult_le_reg_r with (INR w + 1); [lra|]. unfold Rdiv. rewrite Rmult_assoc, Rinv_l by lra. lra.
Qed.
Lemma ewma_step_near m w M s x : (1 <= w)%nat -> small_window w -> sized M -> fin s -> fin x -> Rabs (B2R s) <= 2 * M -> Rabs (B2R x) <= M ->
  let alpha := Bdiv mode_NE (b64_lit 2 1) (@fofnat f64 (B64 m) (w + 1)) in
  near (Bplus mode_NE (Bmult mode_NE x alpha) (Bmult mode_NE s (Bminus mode_NE (b64_lit 1 1) alpha)))
    (B2R x * (2 / (INR w + 1)) + B2R s * (1 - 2 / (INR w + 1))) (12 * uu * M).
Proof.
  intros Hw Sw HM Fs Fx Bs Bx alpha. pose proof uu_pos as P. pose proof uu_le as PU. pose proof (sized_pos M HM) as PM. pose proof (eta_small M HM) as EM.
  pose proof (sized_mul M 1 HM ltac:(unfold small_window; lia)) as SM. cbn [INR] in SM. rewrite Rmult_1_l in SM.
  pose proof (alpha_near m w Hw Sw) as NA. fold alpha in NA. pose proof (ewma_weight w Hw) as [A0 A1]. set (a := 2 / (INR w + 1)) in *. clearbody a alpha.
  pose proof (lit_near 1 ltac:(easy)) as N1. change (b64_of_Z 1) with (b64_lit 1 1) in N1.
  assert (B2 : 2 <= bpow radix2 1000) by (apply Rle_trans with (bpow radix2 1); [simpl; lra|apply bpow_le; lia]).
  pose proof (near_sub _ _ _ _ _ _ (33 / 32) N1 NA ltac:(rewrite Rabs_pos_eq; lra) ltac:(lra)) as NB.
  set (beta := Bminus mode_NE (b64_lit 1 1) alpha) in *. clearbody beta.
  assert (UM : 0 < uu * M) by (apply Rmult_lt_0_compat; lra). assert (UM2 : uu * M <= / 1024 * M) by (apply Rmult_le_compat_r; lra).
  assert (UU : uu * uu * M <= / 1024 * (uu * M)). { rewrite Rmult_assoc. apply Rmult_le_compat_r; lra. }
  pose proof (near_mul x alpha _ _ 0 _ M 1 (33 / 32 * M) (near_exact x Fx) NA Bx ltac:(rewrite Rabs_pos_eq; lra) ltac:(lra) ltac:(lra)) as Q1.
  pose proof (near_mul s beta _ _ 0 _ (2 * M) 1 (17 / 8 * M) (near_exact s Fs) NB Bs ltac:(rewrite Rabs_pos_eq; lra) ltac:(lra) ltac:(lra)) as Q2.
  set (p := Bmult mode_NE x alpha) in *. set (q := Bmult mode_NE s beta) in *. clearbody p q.
  assert (AB : Rabs (B2R x * a + B2R s * (1 - a)) <= 2 * M).
  { apply abs_le in Bs. apply abs_le in Bx. apply le_abs. split; nra. }
  pose proof (near_add p q _ _ _ _ (17 / 8 * M) Q1 Q2 ltac:(lra) ltac:(lra)) as Q3.
  eapply near_weaken; [exact Q3|]. lra.
Qed.

Lemma ewma_near m (l : list f64) w M : (1 <= w <= length l)%nat -> small_window w -> sized M ->
  (forall x, In x l -> fin x /\ Rabs (B2R x) <= M) ->
  exists o, @ewma f64 (B64 m) l w = Ok o /\ length o = length l /\
  forall i, (w - 1 <= i < length l)%nat -> exists x, nth_error o i = Some x /\
    near x (ema (2 / (INR w + 1)) (mean (@map f64 R B2R (firstn w l))) (@map f64 R B2R (firstn (i + 1 - w) (skipn w l)))) (6 * (INR w + 1) * uu * M).
Proof.
  intros Hw Sw HM H. pose proof uu_pos as P. pose proof (sized_pos M HM) as PM. pose proof (small_uu w Sw) as U. pose proof uu_le as PU.
  assert (P1 : 1 <= INR w) by (change 1 with (INR 1); apply le_INR; lia).
  unfold ewma, slice_to, slice_from, usub. rewrite (proj2 (Nat.leb_le w (length l))), (proj2 (Nat.leb_le 1 w)) by lia. cbn [bind].
  set (alpha := fdiv (flit 2 1) (fofnat (w + 1))).
  set (init := fdiv (fsum (firstn w l)) (fofnat w)).
  set (g := fun s x : f64 => Bplus mode_NE (Bmult mode_NE x alpha) (Bmult mode_NE s (Bminus mode_NE (b64_lit 1 1) alpha))).
  change (@ewma_step f64 (B64 m) alpha) with (fun s x : f64 => let s' := g s x in (s', s')).
  eexists. split; [reflexivity|]. split. { rewrite app_length, length_pad. cbn [length]. rewrite length_scan, skipn_length. lia. }
  intros i Hi. rewrite nth_error_app2 by (rewrite length_pad; lia). rewrite length_pad.
  assert (Lh : length (firstn w l) = w) by (rewrite firstn_length; lia).
  assert (Hh : forall x, In x (firstn w l) -> fin x /\ Rabs (B2R x) <= M).
  { intros x Hx. apply H. rewrite <- (firstn_skipn w l). apply in_or_app. now left. }
  set (a := 2 / (INR w + 1)). pose proof (ewma_weight w ltac:(lia)) as Ha. fold a in Ha.
  assert (UM : 0 < uu * M) by (apply Rmult_lt_0_compat; lra).
  assert (DA : 12 * uu * M / a = 6 * (INR w + 1) * uu * M) by (unfold a; field; lra).
  assert (Ns : near init (mean (@map f64 R B2R (firstn w l))) (12 * uu * M / a)).
  { pose proof (mean_near m (firstn w l) M ltac:(lia)) as N. rewrite Lh in N. specialize (N Sw HM Hh). eapply near_weaken; [exact N|]. rewrite DA. nra. }
  assert (B : 12 * uu * M / a <= M).
  { rewrite DA. replace (6 * (INR w + 1) * uu * M) with (6 * (INR w * uu * M) + 6 * (uu * M)) by ring.
    assert (INR w * uu * M <= / 8192 * M) by (apply Rmult_le_compat_r; lra). assert (uu * M <= / 1024 * M) by (apply Rmult_le_compat_r; lra). lra. }
  assert (A0 : Rabs (mean (@map f64 R B2R (firstn w l))) <= M).
  { apply mean_abs.
    - intros E. apply (f_equal (@length R)) in E. rewrite map_length, Lh in E. cbn in E. lia.
    - intros x Hx. apply in_map_iff in Hx as (z & <- & Hz). now apply Hh. }
  assert (D0 : 0 <= 12 * uu * M) by (apply Rmult_le_pos; lra).
  set (xs := firstn (i + 1 - w) (skipn w l)).
  assert (HX : forall x, In x xs -> fin x /\ Rabs (B2R x) <= M).
  { intros x Hx. apply H. rewrite <- (firstn_skipn w l). apply in_or_app. right. rewrite <- (firstn_skipn (i + 1 - w) (skipn w l)). apply in_or_app. now left. }
  pose proof (rec_near g a (12 * uu * M) M xs init _ Ha D0 B
    ltac:(intros; apply (ewma_step_near m w M); try easy; lia) Ns A0 HX) as N.
  rewrite DA in N. exists (fold_left g xs init). split; [|exact N].
  destruct (i - (w - 1))%nat as [|j] eqn:J; cbn [nth_error].
  - unfold xs. replace (i + 1 - w)%nat with 0%nat by lia. reflexivity.
  - rewrite scan_nth by (rewrite skipn_length; lia). unfold xs. replace (i + 1 - w)%nat with (j + 1)%nat by lia. reflexivity.
Qed.

(** Averages of series that differ by at most [e] at every bar differ by at most [e]. *)
Lemma Forall2_map_seq {A} (P : A -> A -> Prop) f g a n : (forall j, (a <= j < a + n)%nat -> P (f j) (g j)) -> Forall2 P (map f (seq a n)) (map g (seq a n)).
Proof. revert a. induction n as [|n IH]; intros a H; cbn [seq map]; constructor; [apply H; lia|]. apply IH. intros; apply H; lia. Qed.
Lemma ewma_from_perturb w k f g i e : (1 <= w)%nat -> (k + w - 1 <= i)%nat -> (forall j, (k <= j <= i)%nat -> Rabs (f j - g j) <= e) ->
  Rabs (ewma_from w k f i - ewma_from w k g i) <= e.
Proof.
  intros Hw Hi H. assert (He : 0 <= e) by (pose proof (H i ltac:(lia)); pose proof (Rabs_pos (f i - g i)); lra).
  unfold ewma_from. apply ema_perturb; [pose proof (ewma_weight w Hw); lra| |].
  - apply mean_perturb; [easy|]. apply Forall2_map_seq. intros j Hj. apply H. lia.
  - apply Forall2_map_seq. intros j Hj. apply H. lia.
Qed.

(** The average of a list whose items are near the values [r a], [r (a + 1)], ... *)
Lemma ewma_tracks m (l : list f64) (r : nat -> R) a w M e : (1 <= w <= length l)%nat -> small_window w -> sized (M + e) ->
  (forall j, (j < length l)%nat -> exists x, nth_error l j = Some x /\ near x (r (a + j)%nat) e /\ Rabs (r (a + j)%nat) <= M) ->
  exists o, @ewma f64 (B64 m) l w = Ok o /\ length o = length l /\
  forall i, (w - 1 <= i < length l)%nat -> exists x, nth_error o i = Some x /\
    near x (ewma_from w a r (a + i)) (e + 6 * (INR w + 1) * uu * (M + e)) /\ Rabs (ewma_from w a r (a + i)) <= M.
Proof.
  intros Hw Sw HM H. destruct (ewma_near m l w (M + e) Hw Sw HM) as (o & E & L & V).
  { intros x Hx. apply In_nth_error in Hx as (j & Hj). assert (j < length l)%nat by (apply nth_error_Some; now rewrite Hj).
    destruct (H j ltac:(easy)) as (y & Hy & N & B). rewrite Hj in Hy. injection Hy as <-. split; [apply N|]. now apply (near_abs _ _ _ _ N). }
  exists o. split; [exact E|]. split; [exact L|]. intros i Hi. destruct (V i Hi) as (x & Hx & N). exists x. split; [exact Hx|].
  set (t := fun k => B2R (nth (k - a) l B754_nan)).
  assert (T : forall j, (j < length l)%nat -> Rabs (t (a + j)%nat - r (a + j)%nat) <= e).
  { intros j Hj. destruct (H j Hj) as (y & Hy & Ny & _). unfold t. replace (a + j - a)%nat with j by lia. rewrite (nth_error_nth _ _ _ Hy). apply Ny. }
  assert (ML : @map f64 R B2R l = map t (seq a (length l))).
  { apply nth_error_ext. intros j. rewrite !nth_error_map'. destruct (Nat.lt_ge_cases j (length l)).
    - rewrite nth_error_seq by easy. destruct (nth_error l j) as [y|] eqn:Y; [|apply nth_error_None in Y; lia]. cbn [option_map]. unfold t.
      replace (a + j - a)%nat with j by lia. now rewrite (nth_error_nth _ _ _ Y).
    - rewrite !(proj2 (nth_error_None _ _)); [easy|rewrite seq_length; lia|easy]. }
  rewrite <- !firstn_map, <- skipn_map, ML in N. rewrite skipn_bars, !firstn_bars in N.
  replace (Nat.min w (length l)) with w in N by lia. replace (Nat.min (i + 1 - w) (length l - w)) with (a + i + 1 - (a + w))%nat in N by lia.
  change (near x (ewma_from w a t (a + i)) (6 * (INR w + 1) * uu * (M + e))) in N.
  split.
  - rewrite Rplus_comm. apply near_shift with (1 := N). apply ewma_from_perturb; try lia. intros j Hj. replace j with (a + (j - a))%nat by lia. apply T. lia.
  - apply le_abs, ewma_from_bounds; try lia. intros j Hj. apply abs_le. destruct (H (j - a)%nat ltac:(lia)) as (y & _ & _ & B). now replace (a + (j - a))%nat with j in B by lia.
Qed.
Theorem ewma_f64_error m (f : nat -> f64) n w M : (1 <= w <= n)%nat -> small_window w -> sized M ->
  (forall k, (k < n)%nat -> fin (f k) /\ Rabs (B2R (f k)) <= M) ->
  exists o, @ewma f64 (B64 m) (series f n) w = Ok o /\
  forall i, (w - 1 <= i < n)%nat -> exists x, nth_error o i = Some x /\ fin x /\
    Rabs (B2R x - ewma_from w 0 (fun k => B2R (f k)) i) <= 6 * (INR w + 1) * uu * M.
Proof.
  intros Hw Sw HM H. destruct (ewma_tracks m (series f n) (fun k => B2R (f k)) 0 w M 0) as (o & E & L & V); rewrite ?length_series in *; try easy.
  - now rewrite Rplus_0_r.
  - intros j Hj. exists (f j). unfold series. rewrite nth_error_map', nth_error_seq by easy. destruct (H j Hj). split; [reflexivity|]. split; [now apply near_exact|easy].
  - exists o. split; [exact E|]. intros i Hi. destruct (V i Hi) as (x & Hx & N & _). exists x. split; [exact Hx|]. cbn [plus] in N. rewrite Rplus_0_r, Rplus_0_l in N. exact N.
Qed.

Lemma sized_small M w : sized M -> small_window w -> (INR w + 1) * uu * M <= / 4096 * M.
Proof.
  intros HM Sw. pose proof (small_uu w Sw) as U. pose proof (sized_pos M HM) as PM. pose proof uu_pos.
  assert (uu <= / 8192). { unfold uu. apply Rle_trans with (bpow radix2 (-13)); [apply bpow_le; lia|]. simpl. lra. }
  apply Rmult_le_compat_r; lra.
Qed.
Lemma sized_grow M e : sized M -> 0 <= e <= M -> M <= bpow radix2 899 -> sized (M + e).
Proof. intros [H1 H2] He B. unfold sized. replace (bpow radix2 900) with (bpow radix2 899 * 2) by (change 900%Z with (899 + 1)%Z; rewrite bpow_plus; simpl (bpow radix2 1); lra). lra. Qed.

Theorem macd_f64_error m (f : nat -> f64) n s l M : (1 <= s <= n)%nat -> (1 <= l <= n)%nat -> small_window s -> small_window l -> sized M ->
  (forall k, (k < n)%nat -> fin (f k) /\ Rabs (B2R (f k)) <= M) ->
  exists o, @macd f64 (B64 m) (series f n) s l = Ok o /\
  forall i, (Nat.max s l - 1 <= i < n)%nat -> exists x, nth_error o i = Some x /\ fin x /\
    Rabs (B2R x - (ewma_from s 0 (fun k => B2R (f k)) i - ewma_from l 0 (fun k => B2R (f k)) i)) <= 6 * (INR s + INR l + 3) * uu * M.
Proof.
  intros Hs Hl Ss Sl HM H. destruct (ewma_f64_error m f n s M Hs Ss HM H) as (o1 & E1 & V1). destruct (ewma_f64_error m f n l M Hl Sl HM H) as (o2 & E2 & V2).
  unfold macd. rewrite E1, E2. cbn [bind]. eexists. split; [reflexivity|]. intros i Hi.
  destruct (V1 i ltac:(lia)) as (x & Hx & N1). destruct (V2 i ltac:(lia)) as (y & Hy & N2). rewrite nth_error_map', nth_error_combine, Hx, Hy. cbn [option_map].
  eexists. split; [reflexivity|]. change (fsub x y) with (Bminus mode_NE x y).
  pose proof (sized_pos M HM) as PM. pose proof (sized_small M s HM Ss) as B1. pose proof (sized_small M l HM Sl) as B2. pose proof uu_pos.
  pose proof (sized_mul M 1 HM ltac:(unfold small_window; lia)) as SM. cbn [INR] in SM. rewrite Rmult_1_l in SM.
  set (r := fun k => B2R (f k)) in *.
  assert (A1 : Rabs (ewma_from s 0 r i) <= M). { apply le_abs, ewma_from_bounds; try lia. intros j Hj. apply abs_le, H. lia. }
  assert (A2 : Rabs (ewma_from l 0 r i) <= M). { apply le_abs, ewma_from_bounds; try lia. intros j Hj. apply abs_le, H. lia. }
  assert (A : Rabs (ewma_from s 0 r i - ewma_from l 0 r i) <= 2 * M) by (apply abs_le in A1; apply abs_le in A2; apply le_abs; lra).
  destruct (near_sub x y _ _ _ _ (3 * M) N1 N2 ltac:(lra) ltac:(lra)) as [F E].
  split; [exact F|]. eapply Rle_trans; [exact E|]. assert (0 < uu * M) by (apply Rmult_lt_0_compat; lra). lra.
Qed.

(** What the tail of an average holds. *)
Lemma tail_tracks (o : list f64) n k (P : nat -> f64 -> Prop) : length o = n -> (forall i, (k <= i < n)%nat -> exists x, nth_error o i = Some x /\ P i x) ->
  forall j, (j < length (skipn k o))%nat -> exists x, nth_error (skipn k o) j = Some x /\ P (k + j)%nat x.
Proof. intros L H j Hj. rewrite skipn_length in Hj. destruct (H (k + j)%nat ltac:(lia)) as (x & Hx & HP). exists x. rewrite nth_error_skipn. now split. Qed.

Theorem dema_f64_error m (f : nat -> f64) n w M : (1 <= w)%nat -> (2 * w - 1 <= n)%nat -> small_window w -> sized M -> M <= bpow radix2 890 ->
  (forall k, (k < n)%nat -> fin (f k) /\ Rabs (B2R (f k)) <= M) ->
  let e1 := ewma_from w 0 (fun k => B2R (f k)) in let e2 := ewma_from w (w - 1) e1 in
  exists o, @dema f64 (B64 m) (series f n) w = Ok o /\
  forall i, (2 * w - 2 <= i < n)%nat -> exists x, nth_error o i = Some x /\ fin x /\
    Rabs (B2R x - (2 * e1 i - e2 i)) <= 30 * (INR w + 1) * uu * M.
Proof.
  intros Hw Hn Sw HM MB H e1 e2. pose proof (sized_pos M HM) as PM. pose proof (sized_small M w HM Sw) as B1. pose proof uu_pos as PU. pose proof uu_le as UL.
  pose proof (sized_mul M 1 HM ltac:(unfold small_window; lia)) as SM. cbn [INR] in SM. rewrite Rmult_1_l in SM. pose proof (eta_small M HM) as EM. pose proof eta_pos as EP.
  assert (UM : 0 < uu * M) by (apply Rmult_lt_0_compat; lra). assert (UM2 : uu * M <= / 1024 * M) by (apply Rmult_le_compat_r; lra).
  assert (P1 : 1 <= INR w) by (change 1 with (INR 1); apply le_INR; lia).
  assert (B899 : bpow radix2 890 <= bpow radix2 899) by (apply bpow_le; lia).
  set (d := 6 * (INR w + 1) * uu * M) in *.
  assert (D0 : 12 * (uu * M) <= d). { unfold d. replace (6 * (INR w + 1) * uu * M) with (6 * (INR w + 1) * (uu * M)) by ring. apply Rmult_le_compat_r; lra. }
  assert (D1 : d <= / 512 * M) by (unfold d; lra).
  destruct (ewma_tracks m (series f n) (fun k => B2R (f k)) 0 w M 0) as (o1 & E1 & L1 & V1); rewrite ?length_series in *; try easy; try lia.
  { now rewrite Rplus_0_r. }
  { intros j Hj. exists (f j). unfold series. rewrite nth_error_map', nth_error_seq by easy. destruct (H j Hj). split; [reflexivity|]. split; [now apply near_exact|easy]. }
  cbn [plus] in V1. rewrite Rplus_0_r, Rplus_0_l in V1. fold d e1 in V1.
  pose proof (tail_tracks o1 n (w - 1) (fun i x => near x (e1 i) d /\ Rabs (e1 i) <= M) L1 V1) as T1.
  destruct (ewma_tracks m (skipn (w - 1) o1) e1 (w - 1) w M d) as (o2 & E2 & L2 & V2); try easy.
  { rewrite skipn_length, L1. lia. }
  { apply sized_grow; [easy|lra|lra]. }
  rewrite skipn_length, L1 in L2, V2. fold e2 in V2.
  unfold dema. rewrite E1. unfold usub. rewrite (proj2 (Nat.leb_le 1 w)) by lia. cbn [bind]. unfold slice_from. rewrite L1, (proj2 (Nat.leb_le (w - 1) n)) by lia. cbn [bind].
  rewrite E2. cbn [bind]. eexists. split; [reflexivity|]. intros i Hi.
  destruct (V1 i ltac:(lia)) as (x & Hx & N1 & A1). destruct (V2 (i - (w - 1))%nat ltac:(lia)) as (y & Hy & N2 & A2).
  replace (w - 1 + (i - (w - 1)))%nat with i in N2, A2 by lia.
  rewrite nth_error_map', nth_error_combine, Hx. rewrite nth_error_app2, length_pad by (rewrite length_pad; lia). rewrite Hy. cbn [option_map].
  eexists. split; [reflexivity|]. change (fsub (fmul (flit 2 1) x) y) with (Bminus mode_NE (Bmult mode_NE (b64_lit 2 1) x) y).
  pose proof (lit_near 2 ltac:(easy)) as N0. change (b64_of_Z 2) with (b64_lit 2 1) in N0.
  assert (G : near y (e2 i) (201 / 100 * d)).
  { eapply near_weaken; [exact N2|]. replace (6 * (INR w + 1) * uu * (M + d)) with (d + 6 * ((INR w + 1) * uu) * d) by (unfold d; ring).
    assert ((INR w + 1) * uu <= / 4096). { apply Rmult_le_reg_r with M; lra. }
    assert (6 * ((INR w + 1) * uu) * d <= 6 * / 4096 * d) by (apply Rmult_le_compat_r; lra). lra. }
  pose proof (near_mul _ _ _ _ _ _ 2 M (3 * M) N0 N1 ltac:(rewrite Rabs_pos_eq; lra) A1 ltac:(lra) ltac:(lra)) as Q1.
  assert (A : Rabs (2 * e1 i - e2 i) <= 3 * M) by (apply abs_le in A1; apply abs_le in A2; apply le_abs; lra).
  destruct (near_sub _ y _ _ _ _ (4 * M) Q1 G ltac:(lra) ltac:(lra)) as [F E].
  split; [exact F|]. eapply Rle_trans; [exact E|]. replace (30 * (INR w + 1) * uu * M) with (5 * d) by (unfold d; ring). lra.
Qed.

Theorem tema_f64_error m (f : nat -> f64) n w M : (1 <= w)%nat -> (3 * w - 2 <= n)%nat -> small_window w -> sized M -> M <= bpow radix2 890 ->
  (forall k, (k < n)%nat -> fin (f k) /\ Rabs (B2R (f k)) <= M) ->
  let e1 := ewma_from w 0 (fun k => B2R (f k)) in let e2 := ewma_from w (w - 1) e1 in let e3 := ewma_from w (2 * w - 2) e2 in
  exists o, @tema f64 (B64 m) (series f n) w = Ok o /\
  forall i, (3 * w - 3 <= i < n)%nat -> exists x, nth_error o i = Some x /\ fin x /\
    Rabs (B2R x - (3 * e1 i - 3 * e2 i + e3 i)) <= 84 * (INR w + 1) * uu * M.
Proof.
  intros Hw Hn Sw HM MB H e1 e2 e3. pose proof (sized_pos M HM) as PM. pose proof (sized_small M w HM Sw) as B1. pose proof uu_pos as PU. pose proof uu_le as UL.
  pose proof (sized_mul M 1 HM ltac:(unfold small_window; lia)) as SM. cbn [INR] in SM. rewrite Rmult_1_l in SM. pose proof (eta_small M HM) as EM. pose proof eta_pos as EP.
  assert (UM : 0 < uu * M) by (apply Rmult_lt_0_compat; lra). assert (UM2 : uu * M <= / 1024 * M) by (apply Rmult_le_compat_r; lra).
  assert (P1 : 1 <= INR w) by (change 1 with (INR 1); apply le_INR; lia).
  assert (B899 : bpow radix2 890 <= bpow radix2 899) by (apply bpow_le; lia).
  set (d := 6 * (INR w + 1) * uu * M) in *.
  assert (D0 : 12 * (uu * M) <= d). { unfold d. replace (6 * (INR w + 1) * uu * M) with (6 * (INR w + 1) * (uu * M)) by ring. apply Rmult_le_compat_r; lra. }
  assert (D1 : d <= / 512 * M) by (unfold d; lra).
  assert (WU : (INR w + 1) * uu <= / 4096) by (apply Rmult_le_reg_r with M; lra).
  assert (GR : forall e, 0 <= e <= 3 * d -> 6 * (INR w + 1) * uu * (M + e) <= 101 / 100 * d).
  { intros e He. replace (6 * (INR w + 1) * uu * (M + e)) with (d + 6 * ((INR w + 1) * uu) * e) by (unfold d; ring).
    assert (6 * ((INR w + 1) * uu) * e <= 6 * / 4096 * e) by (apply Rmult_le_compat_r; lra). lra. }
  destruct (ewma_tracks m (series f n) (fun k => B2R (f k)) 0 w M 0) as (o1 & E1 & L1 & V1); rewrite ?length_series in *; try easy; try lia.
  { now rewrite Rplus_0_r. }
  { intros j Hj. exists (f j). unfold series. rewrite nth_error_map', nth_error_seq by easy. destruct (H j Hj). split; [reflexivity|]. split; [now apply near_exact|easy]. }
  cbn [plus] in V1. rewrite Rplus_0_r, Rplus_0_l in V1. fold d e1 in V1.
  pose proof (tail_tracks o1 n (w - 1) (fun i x => near x (e1 i) d /\ Rabs (e1 i) <= M) L1 V1) as T1.
  destruct (ewma_tracks m (skipn (w - 1) o1) e1 (w - 1) w M d) as (o2 & E2 & L2 & V2); try easy.
  { rewrite skipn_length, L1. lia. }
  { apply sized_grow; [easy|lra|lra]. }
  rewrite skipn_length, L1 in L2, V2. fold e2 in V2.
  pose proof (tail_tracks o2 (n - (w - 1)) (w - 1) _ L2 V2) as T2. cbv beta in T2.
  set (d2 := d + 6 * (INR w + 1) * uu * (M + d)) in *. assert (D2 : d2 <= 201 / 100 * d) by (unfold d2; specialize (GR d ltac:(lra)); lra).
  assert (D20 : 0 <= d2). { unfold d2. assert (0 <= 6 * (INR w + 1) * uu * (M + d)); [|lra]. repeat apply Rmult_le_pos; lra. }
  destruct (ewma_tracks m (skipn (w - 1) o2) e2 (2 * w - 2) w M d2) as (o3 & E3 & L3 & V3); try easy.
  { rewrite skipn_length, L2. lia. }
  { apply sized_grow; [easy|lra|lra]. }
  { intros j Hj. destruct (T2 j Hj) as (x & Hx & Nx). exists x. split; [exact Hx|]. now replace (2 * w - 2 + j)%nat with (w - 1 + (w - 1 + j))%nat by lia. }
  rewrite skipn_length, L2 in L3, V3. fold e3 in V3.
  set (d3 := d2 + 6 * (INR w + 1) * uu * (M + d2)) in *. assert (D3 : d3 <= 303 / 100 * d) by (unfold d3; specialize (GR d2 ltac:(lra)); lra).
  unfold tema. rewrite E1. unfold usub. rewrite (proj2 (Nat.leb_le 1 w)) by lia. cbn [bind]. unfold slice_from. rewrite L1, (proj2 (Nat.leb_le (w - 1) n)) by lia. cbn [bind].
  rewrite E2. cbn [bind]. rewrite L2, (proj2 (Nat.leb_le (w - 1) _)) by lia. cbn [bind]. rewrite E3. cbn [bind]. eexists. split; [reflexivity|]. intros i Hi.
  destruct (V1 i ltac:(lia)) as (x & Hx & N1 & A1). destruct (V2 (i - (w - 1))%nat ltac:(lia)) as (y & Hy & N2 & A2).
  destruct (V3 (i - (2 * w - 2))%nat ltac:(lia)) as (z & Hz & N3 & A3).
  replace (w - 1 + (i - (w - 1)))%nat with i in N2, A2 by lia. replace (2 * w - 2 + (i - (2 * w - 2)))%nat with i in N3, A3 by lia.
  rewrite nth_error_map'. unfold zip3. rewrite !nth_error_combine, Hx. rewrite !nth_error_app2, !length_pad by (rewrite !length_pad; lia). rewrite Hy.
  replace (i - (w - 1) * 2)%nat with (i - (2 * w - 2))%nat by lia. rewrite Hz. cbn [option_map].
  eexists. split; [reflexivity|].
  change (fadd (fsub (fmul (flit 3 1) x) (fmul (flit 3 1) y)) z) with (Bplus mode_NE (Bminus mode_NE (Bmult mode_NE (b64_lit 3 1) x) (Bmult mode_NE (b64_lit 3 1) y)) z).
  pose proof (lit_near 3 ltac:(easy)) as N0. change (b64_of_Z 3) with (b64_lit 3 1) in N0.
  pose proof (near_mul _ _ _ _ _ _ 3 M (4 * M) N0 N1 ltac:(rewrite Rabs_pos_eq; lra) A1 ltac:(lra) ltac:(lra)) as Q1.
  pose proof (near_mul _ _ _ _ _ _ 3 M (4 * M) N0 N2 ltac:(rewrite Rabs_pos_eq; lra) A2 ltac:(lra) ltac:(lra)) as Q2.
  apply abs_le in A1. apply abs_le in A2. apply abs_le in A3.
  assert (S1 : Rabs (3 * e1 i - 3 * e2 i) <= 6 * M) by (apply le_abs; lra).
  pose proof (near_sub _ _ _ _ _ _ (7 * M) Q1 Q2 ltac:(lra) ltac:(lra)) as Q3.
  assert (S2 : Rabs (3 * e1 i - 3 * e2 i + e3 i) <= 7 * M) by (apply le_abs; lra).
  destruct (near_add _ z _ _ _ _ (8 * M) Q3 N3 ltac:(lra) ltac:(lra)) as [F E].
  split; [exact F|]. eapply Rle_trans; [exact E|]. replace (84 * (INR w + 1) * uu * M) with (14 * d) by (unfold d; ring). lra.
Qed.

(** ** The average true range *)
Lemma wilder_weight w : (1 <= w)%nat -> 0 < 1 / INR w <= 1.
Proof.
  intros Hw. assert (P1 : 1 <= INR w) by (change 1 with (INR 1); apply le_INR; lia).
  assert (0 < / INR w) by (apply Rinv_0_lt_compat; lra). assert (/ INR w <= 1) by (rewrite <- Rinv_1; apply Rinv_le_contravar; lra). lra.
Qed.
Lemma wilder_from_perturb w k f g i e : (1 <= w)%nat -> (k + w - 1 <= i)%nat -> (forall j, (k <= j <= i)%nat -> Rabs (f j - g j) <= e) ->
  Rabs (wilder_from w k f i - wilder_from w k g i) <= e.
Proof.
  intros Hw Hi H. assert (He : 0 <= e) by (pose proof (H i ltac:(lia)); pose proof (Rabs_pos (f i - g i)); lra).
  unfold wilder_from. apply ema_perturb; [pose proof (wilder_weight w Hw); lra| |].
  - apply mean_perturb; [easy|]. apply Forall2_map_seq. intros j Hj. apply H. lia.
  - apply Forall2_map_seq. intros j Hj. apply H. lia.
Qed.
Lemma map_seq_plus {A} (f : nat -> A) a b n : map (fun j => f (a + j)%nat) (seq b n) = map f (seq (a + b) n).
Proof. revert b. induction n as [|n IH]; intros b; cbn [seq map]; [reflexivity|]. rewrite IH. do 2 f_equal. now rewrite Nat.add_succ_r. Qed.
Lemma wilder_from_shift w a k f i : (1 <= w)%nat -> wilder_from w k (fun j => f (a + j)%nat) i = wilder_from w (a + k) f (a + i).
Proof. intros Hw. unfold wilder_from. rewrite !map_seq_plus. f_equal. do 2 f_equal; lia. Qed.

Lemma near_max m x y r s e : near x r e -> near y s e -> near (@fmax f64 (B64 m) x y) (Rmax r s) e.
Proof.
  intros [Fx Ex] [Fy Ey]. change (fmax x y) with (if is_nan x then y else if is_nan y then x else if Bltb x y then y else x).
  rewrite (fin_not_nan x Fx), (fin_not_nan y Fy). cbv iota. rewrite ltb_xval, (xval_fin x Fx), (xval_fin y Fy). cbn [xltb].
  apply abs_le in Ex. apply abs_le in Ey.
  destruct (Rltb (B2R x) (B2R y)) eqn:C; [apply Rltb_t in C|apply Rltb_f in C]; (split; [easy|]); apply le_abs; unfold Rmax; destruct (Rle_dec r s); lra.
Qed.
Lemma near_babs m x r e : near x r e -> near (@fabs f64 (B64 m) x) (Rabs r) e.
Proof.
  intros [F E]. change (fabs x) with (Babs x). split; [now rewrite is_finite_Babs|]. rewrite B2R_Babs.
  eapply Rle_trans; [apply Rabs_triang_inv2|easy].
Qed.
Lemma true_range_max h l c : l <= h -> Rmax (Rmax (h - l) (Rabs (h - c))) (Rabs (l - c)) = Rmax h c - Rmin l c.
Proof.
  intros H. pose proof (x_tr_at (fun _ => h) (fun _ => l) (fun _ => c) 0 H) as T. unfold tr_at in T. rewrite !x_sub, !x_abs, !x_max in T. injection T as T. exact T.
Qed.
Lemma tr_near m (h l c : f64) M : sized M -> fin h -> fin l -> fin c -> Rabs (B2R h) <= M -> Rabs (B2R l) <= M -> Rabs (B2R c) <= M -> B2R l <= B2R h ->
  near (@tr_bar f64 (B64 m) h l c) (Rmax (B2R h) (B2R c) - Rmin (B2R l) (B2R c)) (2 * uu * M).
Proof.
  intros HM Fh Fl Fc Bh Bl Bc O. pose proof (sized_pos M HM) as PM.
  pose proof (sized_mul M 1 HM ltac:(unfold small_window; lia)) as SM. cbn [INR] in SM. rewrite Rmult_1_l in SM.
  rewrite <- true_range_max by easy. unfold tr_bar.
  assert (D : forall x y, fin x -> fin y -> Rabs (B2R x) <= M -> Rabs (B2R y) <= M -> near (@fsub f64 (B64 m) x y) (B2R x - B2R y) (2 * uu * M)).
  { intros x y Fx Fy Bx By. change (fsub x y) with (Bminus mode_NE x y). apply abs_le in Bx. apply abs_le in By.
    assert (A : Rabs (B2R x - B2R y) <= 2 * M) by (apply le_abs; lra).
    pose proof (near_sub x y _ _ _ _ (2 * M) (near_exact x Fx) (near_exact y Fy) ltac:(lra) ltac:(lra)) as N.
    eapply near_weaken; [exact N|]. lra. }
  repeat first [apply near_max|apply near_babs]; now apply D.
Qed.

Theorem atr_f64_error m (h l c : nat -> f64) n w M : (1 <= w < n)%nat -> small_window w -> sized M -> M <= bpow radix2 890 ->
  (forall k, (k < n)%nat -> fin (h k) /\ fin (l k) /\ fin (c k) /\ Rabs (B2R (h k)) <= M /\ Rabs (B2R (l k)) <= M /\ Rabs (B2R (c k)) <= M /\ B2R (l k) <= B2R (h k)) ->
  exists o, @atr f64 (B64 m) (series h n) (series l n) (series c n) w = Ok o /\
  forall i, (w <= i < n)%nat -> exists x, nth_error o i = Some x /\ fin x /\
    Rabs (B2R x - wilder_from w 1 (true_range_of (fun k => B2R (h k)) (fun k => B2R (l k)) (fun k => B2R (c k))) i) <= 20 * INR w * uu * M.
Proof.
  intros Hw Sw HM MB H. pose proof (sized_pos M HM) as PM. pose proof uu_pos as PU. pose proof uu_le as UL.
  assert (P1 : 1 <= INR w) by (change 1 with (INR 1); apply le_INR; lia).
  assert (UM : 0 < uu * M) by (apply Rmult_lt_0_compat; lra). assert (UM2 : uu * M <= / 1024 * M) by (apply Rmult_le_compat_r; lra).
  assert (WM : uu * M <= INR w * uu * M) by (rewrite Rmult_assoc; apply (Rmult_le_compat_r (uu * M)) in P1; lra).
  set (t := true_range_of (fun k => B2R (h k)) (fun k => B2R (l k)) (fun k => B2R (c k))).
  assert (T : forall k, (1 <= k < n)%nat -> near (@tr_at f64 (B64 m) h l c k) (t k) (2 * uu * M) /\ Rabs (t k) <= 2 * M).
  { intros k Hk. destruct (H k ltac:(lia)) as (F1 & F2 & _ & B1 & B2 & _ & O). destruct (H (k - 1)%nat ltac:(lia)) as (_ & _ & F3 & _ & _ & B3 & _).
    split; [now apply (tr_near m (h k) (l k) (c (k - 1)%nat) M)|]. apply abs_le in B1. apply abs_le in B2. apply abs_le in B3. apply le_abs.
    unfold t, true_range_of, Rmax, Rmin. destruct (Rle_dec _ _), (Rle_dec _ _); lra. }
  assert (S3 : sized (9 / 4 * M)).
  { destruct HM as [H1 H2]. unfold sized. split; [lra|]. apply Rle_trans with (bpow radix2 10 * bpow radix2 890); [apply Rmult_le_compat; try lra; simpl; lra|]. rewrite <- bpow_plus. apply bpow_le. lia. }
  destruct (wilder_f64_error m (fun j => @tr_at f64 (B64 m) h l c (1 + j)%nat) (n - 1) w (9 / 4 * M) ltac:(lia) Sw S3) as (o & E & V).
  { intros k Hk. destruct (T (1 + k)%nat ltac:(lia)) as [N B]. split; [apply N|]. pose proof (near_abs _ _ _ _ N B). lra. }
  unfold atr. rewrite true_range_bars by lia. cbn [bind]. unfold series in E. rewrite map_seq_plus in E. cbn [plus] in E. rewrite E. cbn [bind].
  eexists. split; [reflexivity|]. intros i Hi. destruct i as [|i]; [lia|]. cbn [nth_error].
  destruct (V i ltac:(lia)) as (x & Hx & F & EX). exists x. split; [exact Hx|]. split; [exact F|].
  rewrite (wilder_from_shift w 1 0 (fun j => B2R (@tr_at f64 (B64 m) h l c j)) i ltac:(lia)) in EX. cbn [plus] in EX.
  pose proof (wilder_from_perturb w 1 (fun j => B2R (@tr_at f64 (B64 m) h l c j)) t (S i) (2 * uu * M) ltac:(lia) ltac:(lia)
    ltac:(intros j Hj; apply T; lia)) as PP.
  set (r := wilder_from w 1 (fun j => B2R (@tr_at f64 (B64 m) h l c j)) (S i)) in *.
  replace (B2R x - wilder_from w 1 t (S i)) with ((B2R x - r) + (r - wilder_from w 1 t (S i))) by ring.
  eapply Rle_trans; [apply Rabs_triang|]. lra.
Qed.
