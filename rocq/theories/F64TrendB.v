(** * F64TrendB: rsi, tsi and relative_vol in one-way markets, in binary64.

    These multiply by 100 before they divide, so that their limit is met only up
    to one unit in the last place: rsi of a rising market may print
    100.00000000000001 ([Refute.rsi_f64_above_100]) but nothing farther off. *)
From Coq Require Import Reals Lra Lia List ZArith.
From Flocq Require Import Core IEEE754.BinarySingleNaN.
From Verif Require Import Spec BaseFacts Tac XReal RSpec XRFacts Bars B64 F64 Smooth Momentum MomReal Volatility F64Facts F64Range F64Osc F64Tau Mono Scale Mirror MirVals F64Trend.
Import ListNotations.
Local Unset Implicit Arguments.
Local Open Scope R_scope.

(** Within 2^-46 (one unit in the last place) of [r]; NaN and the infinity that an overflow of the product leaves are named. *)
Definition near_or_nan (r : R) (s : bool) (x : f64) : Prop := x = B754_nan \/ x = B754_infinity s \/ fin x /\ Rabs (B2R x - r) <= bpow radix2 (-46).
(** A zero, or NaN. *)
Definition zero_or_nan (x : f64) : Prop := x = B754_nan \/ exists s, x = B754_zero s.

Lemma eps100 : 100 * bpow radix2 (-53) <= bpow radix2 (-46).
Proof. replace (-46)%Z with (7 + -53)%Z by easy. rewrite bpow_plus. change (bpow radix2 7) with 128. pose proof (bpow_gt_0 radix2 (-53)). lra. Qed.
Lemma rep_L100 : rep (100 - bpow radix2 (-46)).
Proof. apply (rep_F (100 * 2 ^ 46 - 1) (-46)); [|easy|lia]. rewrite minus_IZR, mult_IZR. cbn. field. Qed.
Lemma hundred_ratio (x : f64) : near_or_nan 100 false (Bdiv mode_NE (Bmult mode_NE (b64_of_Z 100) x) x).
Proof.
  destruct x as [s|s| |s q e B]; try (left; now destruct s || reflexivity). set (x := B754_finite s q e B). destruct lit100 as [F1 V1].
  assert (Fx : fin x) by easy. assert (Nx : B2R x <> 0). { unfold x. cbn -[F2R]. intros Z. apply eq_0_F2R in Z. now destruct s. }
  pose proof (xval_mul (b64_of_Z 100) x F1 Fx) as M. rewrite V1 in M. set (p := Bmult mode_NE (b64_of_Z 100) x) in *. clearbody p. unfold fl in M. destruct (Rltb _ _).
  - apply xval_fin_inv in M as [Fp Vp]. pose proof (rnd_mulZ 100 x) as R. rewrite <- Vp in R. right. right.
    assert (Q : Rabs (B2R p / B2R x - 100) <= bpow radix2 (-46)).
    { replace (B2R p / B2R x - 100) with ((B2R p - 100 * B2R x) * / B2R x) by (field; easy). rewrite Rabs_mult, Rabs_inv. apply (Rmult_le_reg_r (Rabs (B2R x))); [now apply Rabs_pos_lt|].
      rewrite Rmult_assoc, Rinv_l, Rmult_1_r by now apply Rabs_no_R0. apply Rle_trans with (1 := R). rewrite Rabs_mult, (Rabs_pos_eq 100) by lra. pose proof eps100. pose proof (Rabs_pos (B2R x)). nra. }
    apply Rabs_le_inv in Q. destruct rep_U100 as [RU LU], rep_L100 as [RL LL]. unfold U100 in *.
    assert (Q1 : 100 - bpow radix2 (-46) <= rnd (B2R p / B2R x)) by (rewrite <- RL; apply rnd_le; lra). assert (Q2 : rnd (B2R p / B2R x) <= 100 + bpow radix2 (-46)) by (rewrite <- RU; apply rnd_le; lra).
    pose proof (xval_div p x Fp Fx Nx) as V. apply Rabs_def2 in LU, LL. rewrite fl_fin in V by (apply Rabs_def1; lra). apply xval_fin_inv in V as [Fd Vd]. split; [exact Fd|]. rewrite Vd. apply Rabs_le. lra.
  - right. left. assert (S : Rltb (100 * B2R x) 0 = s).
    { destruct s; [apply Rltb_t|apply Rltb_f].
      - assert (B2R x < 0) by now apply F2R_lt_0. lra.
      - assert (0 <= B2R x) by now apply F2R_ge_0. lra. }
    rewrite S in M. destruct p as [t|t| |t q' e' B']; try easy. injection M as ->. unfold x. cbn. now destruct s.
Qed.

(** ** Zeros stay zeros in sums and averages *)
Lemma zn_add x y : zero_or_nan x -> zero_or_nan y -> zero_or_nan (Bplus mode_NE x y).
Proof. intros [-> |[s ->]] [-> |[t ->]]; try (left; reflexivity); try (left; now destruct s). right. destruct s, t; eexists; reflexivity. Qed.
Lemma zn_mul x y : zero_or_nan x -> zero_or_nan (Bmult mode_NE x y).
Proof. intros [-> |[s ->]]; [left; apply nan_mult_l|]. destruct y as [t|t| |t p e B]; [right; eexists; reflexivity|left; reflexivity|left; reflexivity|right; eexists; reflexivity]. Qed.
Lemma zn_div x y : zero_or_nan x -> zero_or_nan (Bdiv mode_NE x y).
Proof. intros [-> |[s ->]]; [left; apply nan_div_l|]. destruct y as [t|t| |t p e B]; [left; reflexivity|right; eexists; reflexivity|left; reflexivity|right; eexists; reflexivity]. Qed.
Lemma zn_fsum m l : (forall x, In x l -> zero_or_nan x) -> zero_or_nan (@fsum f64 (B64 m) l).
Proof.
  intros H. unfold fsum. assert (Z : zero_or_nan (@fsum0 f64 (B64 m))) by (right; eexists; reflexivity). revert Z. generalize (@fsum0 f64 (B64 m)). induction l as [|a l IH]; intros s Z; [exact Z|].
  cbn [fold_left]. apply IH; [intros; apply H; now right|]. apply zn_add; [exact Z|apply H; now left].
Qed.
Lemma zn_wilder m data w o : @wilder f64 (B64 m) data w = Ok o -> (forall x, In x data -> zero_or_nan x) -> forall x, In x o -> zero_or_nan x.
Proof.
  unfold wilder. intros E H x Hx. destruct (w =? 1)%nat; [injection E as <-; now apply H|]. destruct (usub w 1) as [k|]; cbn [bind] in E; [|easy].
  destruct (slice_to data k) as [hd|] eqn:S1; cbn [bind] in E; [|easy]. destruct (slice_from data k) as [tl|] eqn:S2; cbn [bind] in E; [|easy]. injection E as <-.
  assert (H1 : forall y, In y hd -> In y data) by (unfold slice_to in S1; destruct (_ <=? _)%nat; [|easy]; injection S1 as <-; intros y; apply firstn_in).
  assert (H2 : forall y, In y tl -> In y data) by (unfold slice_from in S2; destruct (_ <=? _)%nat; [|easy]; injection S2 as <-; intros y; apply skipn_in).
  apply in_app_iff in Hx as [Hx|Hx]; [apply in_pad in Hx; now left|]. revert x Hx. apply (in_scan _ zero_or_nan).
  - apply zn_div, zn_fsum. intros y Hy. now apply H, H1.
  - intros s a Ha Hs. cbn [wilder_step fst snd]. assert (zero_or_nan (@fdiv f64 (B64 m) (fadd (fmul s (fofnat (w - 1))) a) (fofnat w))); [|easy]. apply zn_div, zn_add; [now apply zn_mul|now apply H, H2].
Qed.
(** 100 g / (g + l) when one of the two is nothing. *)
Lemma all_gain (g l : f64) : zero_or_nan l -> near_or_nan 100 false (Bdiv mode_NE (Bmult mode_NE (b64_of_Z 100) g) (Bplus mode_NE g l)).
Proof.
  intros [-> |[t ->]]; [left; now rewrite nan_plus_r, nan_div_r|]. destruct g as [s|s| |s p e B]; [left; now destruct s, t|left; now destruct s|left; reflexivity|]. exact (hundred_ratio (B754_finite s p e B)).
Qed.
Lemma no_gain_left (g l : f64) : zero_or_nan g -> zero_or_nan (Bdiv mode_NE (Bmult mode_NE (b64_of_Z 100) g) (Bplus mode_NE g l)).
Proof.
  intros H. apply zn_div. destruct H as [-> |[s ->]]; [left; apply nan_mult_r|right; eexists; reflexivity].
Qed.

(** ** rsi: 100 to one unit in the last place while no price is below the one before, exactly 0 while none is above *)
Lemma loss_zero m (a b : f64) : Bltb b a = false -> @loss f64 (B64 m) (a, b) = B754_zero false.
Proof.
  intros H. unfold loss, fmin. change (@fisnan f64 (B64 m) (flit 0 1)) with false. cbv iota. destruct (fisnan _); [reflexivity|].
  change (@fltb f64 (B64 m) (fsub b a) (flit 0 1)) with (Bltb (Bminus mode_NE b a) (B754_zero false)). now rewrite (nn_sub b a H).
Qed.
Theorem rsi_f64_trend m f n w o : @rsi f64 (B64 m) (series f n) w = Ok o ->
  (no_dip n f -> Forall (near_or_nan 100 false) o) /\ (no_gain n f -> Forall zero_or_nan o).
Proof.
  unfold rsi. intros E. destruct (wilder (map gain _) w) as [g|] eqn:G; cbn [bind] in E; [|easy]. destruct (wilder (map loss _) w) as [l|] eqn:L; cbn [bind] in E; [|easy]. injection E as <-.
  split; intros H; constructor; try (now left); apply Forall_forall; intros x Hx; apply in_map_iff in Hx as ((a & b) & <- & Hi); cbn [rsi_ratio].
  - apply all_gain. apply (zn_wilder m _ _ _ L); [|eapply in_combine_r, Hi]. intros x Hx. apply in_map_iff in Hx as (p & <- & Hp). rewrite pairs_series in Hp. apply in_map_iff in Hp as (k & <- & Hk). apply in_seq in Hk.
    rewrite loss_zero; [right; now exists false|]. replace (f k) with (f (S (k - 1))) by (f_equal; lia). apply H. lia.
  - apply no_gain_left. apply (zn_wilder m _ _ _ G); [|eapply in_combine_l, Hi]. intros x Hx. apply in_map_iff in Hx as (p & <- & Hp). rewrite pairs_series in Hp. apply in_map_iff in Hp as (k & <- & Hk). apply in_seq in Hk.
    unfold gain. rewrite max_below; [right; now exists false|]. replace (f k) with (f (S (k - 1))) by (f_equal; lia). apply H. lia.
Qed.

(** ** tsi: 100 or -100 to one unit in the last place *)
Lemma up_abs (x y : f64) : Bltb x y = true -> Babs (Bminus mode_NE y x) = Bminus mode_NE y x.
Proof. intros H. destruct (gap_sign x y H) as [[N S] _]. destruct (Bminus mode_NE y x) as [[]|[]| |[]]; easy. Qed.
Lemma tsi_up m f n s l o : @tsi f64 (B64 m) (series f n) s l = Ok o -> all_up n f -> Forall (near_or_nan 100 false) o.
Proof.
  unfold tsi. intros E H. assert (D : map (@fabs f64 (B64 m)) (map (fun '(a, b) => fsub b a) (pairs (series f n))) = map (fun '(a, b) => @fsub f64 (B64 m) b a) (pairs (series f n))).
  { rewrite map_map. apply map_ext_in. intros (a & b) Hp. rewrite pairs_series in Hp. apply in_map_iff in Hp as (k & [= <- <-] & Hk). apply in_seq in Hk. apply up_abs. replace (f k) with (f (S (k - 1))) by (f_equal; lia). apply H. lia. }
  rewrite D in E. clear D. destruct (ewma _ l) as [ld|]; cbn [bind] in E; [|easy]. destruct (usub l 1) as [k|]; cbn [bind] in E; [|easy]. destruct (ewma (skipn k ld) s) as [pc|]; cbn [bind] in E; [|easy]. injection E as <-.
  apply Forall_app. split; [apply Forall_forall; intros x Hx; apply in_pad in Hx; now left|]. apply Forall_forall. intros x Hx. apply in_map_iff in Hx as ((a & b) & <- & Hi).
  assert (a = b). { revert Hi. clear. induction pc as [|y pc IH]; [easy|]. intros [[= <- <-]|Hi]; [easy|now apply IH]. } subst b. apply hundred_ratio.
Qed.
Lemma opp_less (x y : f64) : Bltb (Bopp x) (Bopp y) = Bltb y x.
Proof. rewrite !ltb_xval, !xval_neg. destruct (xval x) as [a|[]|], (xval y) as [b|[]|]; cbn; try easy. unfold Rltb. destruct (Rlt_dec (- a) (- b)), (Rlt_dec b a); try easy; lra. Qed.
Theorem tsi_f64_trend m f n s l o : @tsi f64 (B64 m) (series f n) s l = Ok o ->
  (all_up n f -> Forall (near_or_nan 100 false) o) /\ (all_down n f -> Forall (near_or_nan (-100) true) o).
Proof.
  intros E. split; [intros H; exact (tsi_up _ _ _ _ _ _ E H)|]. intros H. pose proof (@tsi_mirror f64 (B64 m) (B64Sym m) (series f n) s l) as M. rewrite E in M.
  assert (NS : neg (series f n) = series (fun k => Bopp (f k)) n) by (unfold neg, series; now rewrite map_map). rewrite NS in M. destruct (@tsi f64 (B64 m) (series (fun k => Bopp (f k)) n) s l) as [o'|] eqn:E'; cbn [rrel] in M; [|contradiction M].
  assert (U : Forall (near_or_nan 100 false) o') by (apply (tsi_up _ _ _ _ _ _ E'); intros k Hk; rewrite opp_less; now apply H).
  clear - M U. induction M as [|x y o o' O _ IH]; [constructor|]. inversion U as [|? ? U1 U2]; subst. constructor; [|now apply IH]. clear - O U1. unfold opposite in O. cbn [eqv B64Sym fneg B64] in O.
  destruct O as [-> |[Z1 Z2]].
  - destruct U1 as [A|[A|[A B]]]; [left; now destruct x|right; left; destruct x as [|[]| |]; easy|right; right]. rewrite is_finite_Bopp in A. rewrite B2R_Bopp in B. split; [exact A|]. rewrite <- Rabs_Ropp. now replace (- (B2R x - -100)) with (- B2R x - 100) by ring.
  - exfalso. destruct y; try easy. destruct U1 as [A|[A|[A B]]]; try easy. cbn in B. rewrite Rminus_0_l, Rabs_Ropp, Rabs_pos_eq in B by lra. pose proof (bpow_le radix2 (-46) 0 ltac:(easy)). cbn in *. lra.
Qed.

(** ** relative_vol: 100 to one unit in the last place while every close is above the one before, exactly 0 while every close is below *)
Lemma down_part m (x y std : f64) : Bltb x y = true -> zero_or_nan (@fmul f64 (B64 m) (fmax (flit 0 1) (fsignum (fsub x y))) std).
Proof.
  intros H. apply zn_mul. destruct (gap_sign x y H) as [_ [N S]]. right. exists false. unfold fsignum. change (@fisnan f64 (B64 m) (fsub x y)) with (is_nan (Bminus mode_NE x y)). rewrite N. change (@fsignbit f64 (B64 m) (fsub x y)) with (Bsign (Bminus mode_NE x y)). rewrite S. reflexivity.
Qed.
Lemma rel_vol_items m f n w ps : @rel_vol_pairs f64 (B64 m) (series f n) w = Ok ps -> forall p, In p ps -> exists std k, (S k < n)%nat /\
  p = (@fmul f64 (B64 m) (fmax (flit 0 1) (fsignum (fsub (f (S k)) (f k)))) std, @fmul f64 (B64 m) (fmax (flit 0 1) (fsignum (fsub (f k) (f (S k))))) std).
Proof.
  unfold rel_vol_pairs. intros E p Hp. destruct (std_dev_raw _ w) as [sd|]; cbn [bind] in E; [|easy]. unfold usub in E. destruct (1 <=? w)%nat eqn:W1; cbn [bind] in E; [|easy]. destruct (slice_from _ (w - 1)) as [a|] eqn:A; cbn [bind] in E; [|easy].
  destruct (2 <=? w)%nat eqn:W2; cbn [bind] in E; [|easy]. destruct (1 <=? length _)%nat eqn:N1; cbn [bind] in E; [|easy]. destruct (slice _ (w - 2) _) as [b|] eqn:B; cbn [bind] in E; [|easy]. injection E as <-.
  rewrite length_series in *. apply Nat.leb_le in W1, W2, N1. unfold slice_from in A. rewrite length_series in A. destruct (w - 1 <=? n)%nat eqn:A1; [|easy]. injection A as <-. apply Nat.leb_le in A1.
  unfold slice in B. rewrite length_series in B. destruct (_ && _)%bool; [|easy]. injection B as <-.
  apply in_map_iff in Hp as (((std & x) & y) & <- & Hi). apply In_nth_error in Hi as (j & Hj). unfold zip3 in Hj.
  assert (C : forall {P Q : Type} (u : list P) (v : list Q) i q r, nth_error (combine u v) i = Some (q, r) -> nth_error u i = Some q /\ nth_error v i = Some r).
  { clear. intros P Q u. induction u as [|c u IH]; intros [|d v] [|i] q r; cbn; try easy; [now intros [= -> ->]|apply IH]. }
  apply C in Hj as [Hj Hy]. apply C in Hj as [_ Hx]. assert (LX : (j < length (skipn (w - 1) (series f n)))%nat) by (apply nth_error_Some; congruence). assert (LY : (j < length (firstn (n - 1 - (w - 2)) (skipn (w - 2) (series f n))))%nat) by (apply nth_error_Some; congruence).
  rewrite firstn_length in LY. rewrite skipn_length, length_series in LX. rewrite skipn_length, length_series in LY. rewrite nth_error_firstn in Hy by lia. rewrite nth_error_skipn in Hx. rewrite nth_error_skipn in Hy. unfold series in Hx, Hy.
  rewrite nth_error_map, nth_error_seq in Hx by lia. rewrite nth_error_map, nth_error_seq in Hy by lia. cbn in Hx, Hy. injection Hx as <-. injection Hy as <-.
  exists std, (w - 2 + j)%nat. split; [lia|]. now replace (S (w - 2 + j)) with (w - 1 + j)%nat by lia.
Qed.
Theorem relative_vol_f64_trend m f n w sm o : @relative_vol f64 (B64 m) (series f n) w sm = Ok o ->
  (all_up n f -> Forall (near_or_nan 100 false) o) /\ (all_down n f -> Forall zero_or_nan o).
Proof.
  unfold relative_vol. intros E. destruct (rel_vol_pairs _ w) as [ps|] eqn:P; cbn [bind] in E; [|easy]. destruct (wilder (map fst ps) sm) as [g|] eqn:G; cbn [bind] in E; [|easy]. destruct (wilder (map snd ps) sm) as [l|] eqn:L; cbn [bind] in E; [|easy]. destruct (usub w 1) as [k|]; cbn [bind] in E; [|easy]. injection E as <-.
  split; intros H; apply Forall_app; (split; [apply Forall_forall; intros x Hx; apply in_pad in Hx; now left|]); apply Forall_forall; intros x Hx; apply in_map_iff in Hx as ((a & b) & <- & Hi).
  - apply all_gain. apply (zn_wilder m _ _ _ L); [|eapply in_combine_r, Hi]. intros x Hx. apply in_map_iff in Hx as (p & <- & Hp). apply (rel_vol_items m f n w ps P) in Hp as (std & j & Hj & ->). cbn [snd]. apply down_part. now apply H.
  - apply no_gain_left. apply (zn_wilder m _ _ _ G); [|eapply in_combine_l, Hi]. intros x Hx. apply in_map_iff in Hx as (p & <- & Hp). apply (rel_vol_items m f n w ps P) in Hp as (std & j & Hj & ->). cbn [fst]. apply down_part. now apply H.
Qed.
