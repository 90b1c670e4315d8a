(** * F64Err: rounding error bounds and exactness in binary64. *)

From Coq Require Import Reals Lra Lia ZArith.
From Flocq Require Import Core Relative Plus_error IEEE754.BinarySingleNaN.
From Verif Require Import Spec BaseFacts Tac SmoothShape VolShape DistShape TrendShape MomShape XReal Select RSpec XRFacts Bars DistReal VolumeReal VolatReal B64 F64 Smooth SmoothVals Momentum Trend Volume Volatility Correlation CorrReal Dcor F64Facts MomReal TrendReal F64Range.
Local Unset Implicit Arguments.
Local Open Scope R_scope.

(** Half an ulp of 1, and half the smallest positive float. *)
Definition uu : R := bpow radix2 (-53).
Definition eta : R := bpow radix2 (-1075).
Lemma uu_pos : 0 < uu. Proof. apply bpow_gt_0. Qed.
Lemma eta_pos : 0 < eta. Proof. apply bpow_gt_0. Qed.
Lemma uu_eq : / 2 * bpow radix2 (Z.opp 53 + 1) = uu.
Proof. change (Z.opp 53) with (-53)%Z. unfold uu. rewrite bpow_plus. simpl (bpow radix2 1). lra. Qed.
Lemma eta_eq : / 2 * bpow radix2 (-1074) = eta.
Proof. unfold eta. replace (-1074)%Z with (-1075 + 1)%Z by easy. rewrite bpow_plus. simpl (bpow radix2 1). lra. Qed.

(** Rounding: a relative error of [uu] plus, near zero, an absolute one of [eta]. *)
Lemma rnd_err r : Rabs (rnd r - r) <= uu * Rabs r + eta.
Proof.
  destruct (error_N_FLT radix2 (-1074) 53 eq_refl (fun x => negb (Z.even x)) r) as (e & t & He & Ht & _ & E).
  change (rnd r = r * (1 + e) + t) in E. rewrite E. rewrite uu_eq in He. rewrite eta_eq in Ht.
  replace (r * (1 + e) + t - r) with (e * r + t) by ring. eapply Rle_trans; [apply Rabs_triang|]. rewrite Rabs_mult.
  apply Rplus_le_compat; [|easy]. apply Rmult_le_compat_r; [apply Rabs_pos|easy].
Qed.
(** Sums and differences of floats only have the relative error. *)
Lemma rnd_add_err (x y : f64) : Rabs (rnd (B2R x + B2R y) - (B2R x + B2R y)) <= uu * Rabs (B2R x + B2R y).
Proof.
  destruct (FLT_plus_error_N_ex radix2 (-1074) 53 (fun x => negb (Z.even x)) (B2R x) (B2R y)) as (e & He & E).
  - change (generic_format radix2 (SpecFloat.fexp 53 1024) (B2R x)). apply generic_format_B2R.
  - change (generic_format radix2 (SpecFloat.fexp 53 1024) (B2R y)). apply generic_format_B2R.
  - change (rnd (B2R x + B2R y) = (B2R x + B2R y) * (1 + e)) in E. rewrite E.
    replace ((B2R x + B2R y) * (1 + e) - (B2R x + B2R y)) with (e * (B2R x + B2R y)) by ring. rewrite Rabs_mult.
    apply Rmult_le_compat_r; [apply Rabs_pos|]. eapply Rle_trans; [exact He|]. unfold u_ro. rewrite uu_eq.
    pose proof uu_pos. apply Rmult_le_reg_r with (1 + uu); [lra|]. unfold Rdiv. rewrite Rmult_assoc, Rinv_l by lra. nra.
Qed.

(** ** The sum of a list *)
Definition asum (l : list f64) : R := Rsum (@map f64 R (fun x => Rabs (B2R x)) l).
Definition rsum (l : list f64) : R := Rsum (@map f64 R B2R l).
Lemma asum_nonneg l : 0 <= asum l.
Proof. unfold asum. induction l as [|x l IH]; cbn [map]; [rewrite Rsum_nil; lra|]. rewrite Rsum_cons. pose proof (Rabs_pos (B2R x)). lra. Qed.
Lemma rsum_abs l : Rabs (rsum l) <= asum l.
Proof.
  unfold asum, rsum. induction l as [|x l IH]; cbn [map]; [rewrite Rsum_nil, Rabs_R0; lra|]. rewrite !Rsum_cons.
  cbv beta. eapply Rle_trans; [apply Rabs_triang|]. lra.
Qed.
Lemma asum_snoc l x : asum (l ++ [x]) = asum l + Rabs (B2R x).
Proof. unfold asum. rewrite map_app, Rsum_app. cbn [map]. rewrite Rsum_cons, Rsum_nil. cbv beta. ring. Qed.
Lemma rsum_snoc l x : rsum (l ++ [x]) = rsum l + B2R x.
Proof. unfold rsum. rewrite map_app, Rsum_app. cbn [map]. rewrite Rsum_cons, Rsum_nil. cbv beta. ring. Qed.
Lemma powge n : 1 <= (1 + uu) ^ n.
Proof. pose proof uu_pos. apply pow_R1_Rle. lra. Qed.

Lemma fsum_err m (l : list f64) : (forall x, In x l -> fin x) -> (1 + uu) ^ length l * asum l < lim ->
  fin (@fsum f64 (B64 m) l) /\ Rabs (B2R (@fsum f64 (B64 m) l) - rsum l) <= ((1 + uu) ^ length l - 1) * asum l.
Proof.
  induction l as [|x l IH] using rev_ind; intros Hf Hb.
  - unfold fsum. cbn [fold_left length]. split; [easy|]. unfold rsum, asum. cbn [map]. rewrite Rsum_nil. cbn. rewrite Rminus_0_r, Rabs_R0. lra.
  - rewrite app_length in *. cbn [length] in *. rewrite Nat.add_1_r in *. rewrite asum_snoc in *. rewrite rsum_snoc.
    pose proof (powge (length l)) as P1. pose proof uu_pos as Pu. pose proof (asum_nonneg l) as Pa. pose proof (Rabs_pos (B2R x)) as Px.
    cbn [pow] in *. set (p := (1 + uu) ^ length l) in *.
    destruct IH as [F1 E1]; [intros; apply Hf, in_or_app; now left| |].
    { eapply Rle_lt_trans; [|exact Hb]. assert (0 <= p * Rabs (B2R x)) by nra. assert (0 <= p * asum l) by nra.
      assert (0 <= uu * (p * asum l + p * Rabs (B2R x))) by (apply Rmult_le_pos; lra). lra. }
    unfold fsum in *. rewrite fold_left_app. cbn [fold_left]. set (s := fold_left fadd l fsum0) in *.
    change (fadd s x) with (Bplus mode_NE s x).
    assert (Fx : fin x) by (apply Hf, in_or_app; right; now left).
    pose proof (xval_add s x F1 Fx) as V. pose proof (rnd_add_err s x) as R1. pose proof (rsum_abs l) as RA.
    assert (S1 : Rabs (B2R s) <= p * asum l).
    { replace (B2R s) with ((B2R s - rsum l) + rsum l) by ring. eapply Rle_trans; [apply Rabs_triang|]. nra. }
    assert (S2 : Rabs (B2R s + B2R x) <= p * (asum l + Rabs (B2R x))).
    { eapply Rle_trans; [apply Rabs_triang|]. nra. }
    assert (S3 : Rabs (rnd (B2R s + B2R x)) <= (1 + uu) * p * (asum l + Rabs (B2R x))).
    { replace (rnd (B2R s + B2R x)) with ((rnd (B2R s + B2R x) - (B2R s + B2R x)) + (B2R s + B2R x)) by ring.
      eapply Rle_trans; [apply Rabs_triang|]. nra. }
    rewrite fl_fin in V by lra. apply xval_fin_inv in V as [F2 V]. split; [exact F2|]. rewrite V.
    replace (rnd (B2R s + B2R x) - (rsum l + B2R x)) with ((rnd (B2R s + B2R x) - (B2R s + B2R x)) + (B2R s - rsum l)) by ring.
    eapply Rle_trans; [apply Rabs_triang|].
    assert (S4 : Rabs (B2R s + B2R x) <= (p - 1) * asum l + (asum l + Rabs (B2R x))).
    { replace (B2R s + B2R x) with ((B2R s - rsum l) + (rsum l + B2R x)) by ring. eapply Rle_trans; [apply Rabs_triang|].
      apply Rplus_le_compat; [easy|]. eapply Rle_trans; [apply Rabs_triang|]. lra. }
    nra.
Qed.

(** ** C08: how far the printed mean can be from the mean *)
Theorem sma_f64_error m (data : list f64) w o i :
  @sma f64 (B64 m) data w = Ok o -> (0 < w)%nat -> (Z.of_nat w <= 2 ^ 53)%Z -> (w - 1 <= i < length data)%nat ->
  (forall x, In x (win w data i) -> fin x) -> (1 + uu) ^ w * asum (win w data i) < lim ->
  exists x, nth_error o i = Some x /\ fin x /\
  Rabs (B2R x - mean (@map f64 R B2R (win w data i))) <= ((1 + uu) ^ (w + 1) - 1) * mean (@map f64 R (fun y => Rabs (B2R y)) (win w data i)) + eta.
Proof.
  intros E Hw Hz Hi Hf Hb. destruct (@sma_values _ (B64 m) data w Hw) as (o' & E' & (_ & _ & V)). rewrite E in E'. injection E' as <-.
  specialize (V i Hi). cbv beta in V. change (fold_left fadd (win w data i) fsum0) with (@fsum f64 (B64 m) (win w data i)) in V.
  eexists. split; [exact V|]. assert (L : length (win w data i) = w) by (apply length_win; lia).
  set (l := win w data i) in *. destruct (fsum_err m l Hf) as [F1 E1]; [now rewrite L|]. rewrite L in E1.
  pose proof (xval_nat m w Hz) as N. apply xval_fin_inv in N as [F2 V2].
  assert (P : 0 < INR w) by now apply lt_0_INR. assert (P1 : 1 <= INR w) by (change 1 with (INR 1); apply le_INR; lia).
  assert (Pi : 0 < / INR w) by now apply Rinv_0_lt_compat. assert (Pi1 : / INR w <= 1) by (rewrite <- Rinv_1; apply Rinv_le_contravar; lra).
  set (s := @fsum f64 (B64 m) l) in *. change (fdiv s (fofnat w)) with (Bdiv mode_NE s (@fofnat f64 (B64 m) w)).
  pose proof (xval_div s (@fofnat f64 (B64 m) w) F1 F2 ltac:(rewrite V2; lra)) as D. rewrite V2 in D.
  assert (B : Rabs (rnd (B2R s / INR w)) < lim).
  { assert (S0 : Rabs (B2R s) < lim) by apply abs_B2R_lt_emax. destruct (Rabs_def2 _ _ S0) as [S1 S2].
    assert (Rabs (B2R s / INR w) <= Rabs (B2R s)) by (unfold Rdiv; rewrite Rabs_mult, (Rabs_pos_eq (/ INR w)) by lra; pose proof (Rabs_pos (B2R s)); nra).
    assert (Z : rnd (- Rabs (B2R s)) <= rnd (B2R s / INR w) <= rnd (Rabs (B2R s))).
    { split; apply rnd_le; revert H; generalize (B2R s / INR w), (Rabs (B2R s)); intros a b; unfold Rabs; destruct (Rcase_abs a); lra. }
    assert (RA : rnd (Rabs (B2R s)) = Rabs (B2R s)). { unfold Rabs. destruct (Rcase_abs (B2R s)); rewrite ?rnd_opp, rnd_B2R; reflexivity. }
    rewrite rnd_opp, RA in Z. apply Rabs_def1; lra. }
  rewrite fl_fin in D by exact B. apply xval_fin_inv in D as [FD VD]. split; [exact FD|]. rewrite VD.
  unfold mean. rewrite !map_length, L. fold (rsum l). fold (asum l).
  pose proof (rnd_err (B2R s / INR w)) as R1. pose proof (powge w) as PW. pose proof uu_pos as Pu. pose proof (asum_nonneg l) as Pa. pose proof (rsum_abs l) as RA.
  rewrite Nat.add_1_r. cbn [pow]. set (p := (1 + uu) ^ w) in *. set (A := asum l) in *. set (S := rsum l) in *.
  replace (rnd (B2R s / INR w) - S / INR w) with ((rnd (B2R s / INR w) - B2R s / INR w) + (B2R s - S) / INR w) by (unfold Rdiv; ring).
  eapply Rle_trans; [apply Rabs_triang|].
  assert (Q1 : Rabs ((B2R s - S) / INR w) <= (p - 1) * A * / INR w).
  { unfold Rdiv. rewrite Rabs_mult, (Rabs_pos_eq (/ INR w)) by lra. apply Rmult_le_compat_r; lra. }
  assert (Q2 : Rabs (B2R s / INR w) <= p * A * / INR w).
  { unfold Rdiv. rewrite Rabs_mult, (Rabs_pos_eq (/ INR w)) by lra. apply Rmult_le_compat_r; [lra|].
    replace (B2R s) with ((B2R s - S) + S) by ring. eapply Rle_trans; [apply Rabs_triang|]. lra. }
  assert (Q3 : uu * Rabs (B2R s / INR w) <= uu * (p * A * / INR w)) by (apply Rmult_le_compat_l; lra).
  unfold Rdiv in *. lra.
Qed.

(** ** C50: swapping the windows of macd negates every value *)
Lemma fl_opp r : fl (- r) = xneg (fl r).
Proof.
  unfold fl. rewrite rnd_opp, Rabs_Ropp. destruct (Rltb (Rabs (rnd r)) lim) eqn:E; [reflexivity|]. cbn [xneg].
  apply Rltb_f in E. pose proof (rnd_big_sign r E). f_equal. destruct (Rltb r 0) eqn:E1; [apply Rltb_t in E1|apply Rltb_f in E1]; cbn [negb]; [apply Rltb_f|apply Rltb_t]; lra.
Qed.
Lemma xval_sub_swap (a b : f64) : xval (Bminus mode_NE b a) = xneg (xval (Bminus mode_NE a b)).
Proof.
  destruct (fcases a) as [Fa|[(s & ->)| ->]]; destruct (fcases b) as [Fb|[(t & ->)| ->]]; rewrite ?nan_minus_l, ?nan_minus_r; try easy.
  - rewrite !xval_sub by easy. rewrite <- fl_opp. f_equal. ring.
  - destruct a; try easy; destruct t; reflexivity.
  - destruct b; try easy; destruct s; reflexivity.
  - destruct s, t; reflexivity.
Qed.
Theorem macd_f64_swap m data s l o1 o2 i x y : @macd f64 (B64 m) data s l = Ok o1 -> @macd f64 (B64 m) data l s = Ok o2 ->
  nth_error o1 i = Some x -> nth_error o2 i = Some y -> xval y = xneg (xval x).
Proof.
  unfold macd. destruct (ewma data s) as [a|]; cbn [bind]; [|easy]. destruct (ewma data l) as [b|]; cbn [bind]; [|easy].
  intros [= <-] [= <-]. rewrite !nth_error_map', !nth_error_combine.
  destruct (nth_error a i) as [u|], (nth_error b i) as [v|]; cbn [option_map]; try easy. intros [= <-] [= <-]. apply xval_sub_swap.
Qed.

(** ** C29, C33: symmetry of the correlations, bit for bit *)
Lemma Bmult_comm (x y : f64) : Bmult mode_NE x y = Bmult mode_NE y x.
Proof.
  destruct x as [s|s| |s mx ex Hx], y as [t|t| |t my ey Hy]; try reflexivity; try (now destruct s, t).
  apply B2SF_inj. unfold Bmult. rewrite !B2SF_SF2B. now rewrite xorb_comm, (Pos.mul_comm mx my), (Z.add_comm ex ey).
Qed.
Theorem pcc_f64_symmetric m a b w : @pcc f64 (B64 m) a b w = @pcc f64 (B64 m) b a w.
Proof. apply pcc_symmetric. exact Bmult_comm. Qed.
Theorem dcor_f64_symmetric m a b w : @dcor f64 (B64 m) a b w = @dcor f64 (B64 m) b a w.
Proof. apply dcor_symmetric. exact Bmult_comm. Qed.

(** ** C42: donchian channels are ordered as long as no sum overflows *)
Lemma rnd_double (x : f64) : rnd (B2R x + B2R x) = B2R x + B2R x.
Proof.
  apply round_generic; [apply valid_rnd_N|]. replace (B2R x + B2R x) with (B2R x * bpow radix2 1) by (simpl; lra).
  change (SpecFloat.fexp 53 1024) with (FLT_exp (-1074) 53).
  assert (G : generic_format radix2 (FLT_exp (-1074) 53) (B2R x)) by (change (FLT_exp (-1074) 53) with (SpecFloat.fexp 53 1024); apply generic_format_B2R).
  apply FLT_format_generic in G; [|easy]. destruct G as [[fm fe] G1 G2 G3]. apply generic_format_FLT.
  cbn [Fnum Fexp] in *. apply (FLT_spec radix2 (-1074) 53 _ (Float radix2 fm (fe + 1))); cbn [Fnum Fexp]; [|easy|lia].
  rewrite G1. unfold F2R. cbn [Fnum Fexp]. rewrite bpow_plus. now rewrite Rmult_assoc.
Qed.
Lemma fold_pick {A} (f : A -> A -> A) l : (forall a b, f a b = a \/ f a b = b) -> forall a, fold_left f l a = a \/ In (fold_left f l a) l.
Proof.
  intros H. induction l as [|b l IH]; intros a; cbn [fold_left]; [now left|]. destruct (IH (f a b)) as [->|I]; [|right; now right].
  destruct (H a b) as [->| ->]; [now left|right; now left].
Qed.
Lemma max_of_in m (l : list f64) : l <> [] -> In (@max_of f64 (B64 m) l) l.
Proof.
  destruct l as [|a l]; [easy|]. intros _. unfold max_of. cbn [fold_left]. change (fmax fnan a) with a.
  destruct (fold_pick (@fmax f64 (B64 m)) l) with (a := a) as [->|I]; [|now left|now right].
  intros x y. change (fmax x y) with (if is_nan x then y else if is_nan y then x else if Bltb x y then y else x).
  destruct (is_nan x), (is_nan y), (Bltb x y); auto.
Qed.
Lemma min_of_in m (l : list f64) : l <> [] -> In (@min_of f64 (B64 m) l) l.
Proof.
  destruct l as [|a l]; [easy|]. intros _. unfold min_of. cbn [fold_left]. change (fmin fnan a) with a.
  destruct (fold_pick (@fmin f64 (B64 m)) l) with (a := a) as [->|I]; [|now left|now right].
  intros x y. change (fmin x y) with (if is_nan x then y else if is_nan y then x else if Bltb y x then y else x).
  destruct (is_nan x), (is_nan y), (Bltb y x); auto.
Qed.
Lemma bpow_1022 : bpow radix2 1022 + bpow radix2 1022 < lim.
Proof.
  unfold lim. change 1024%Z with (1022 + 2)%Z. rewrite bpow_plus. pose proof (bpow_gt_0 radix2 1022). simpl (bpow radix2 2). lra.
Qed.
Theorem donchian_f64_ordered m (h l : nat -> f64) n w o : (0 < w)%nat ->
  (forall k, (k < n)%nat -> fin (h k) /\ fin (l k) /\ B2R (l k) <= B2R (h k) /\ Rabs (B2R (h k)) < bpow radix2 1022 /\ Rabs (B2R (l k)) < bpow radix2 1022) ->
  @donchian f64 (B64 m) (series h n) (series l n) w = Ok o ->
  forall i, (w - 1 <= i < n)%nat -> exists u mid lo, nth_error o i = Some (u, mid, lo) /\ fin u /\ fin mid /\ fin lo /\ B2R lo <= B2R mid <= B2R u.
Proof.
  intros Hw H E i Hi. destruct (@donchian_values _ (B64 m) h l n w Hw) as (o' & E' & (_ & _ & V)). rewrite E in E'. injection E' as <-.
  specialize (V i Hi). cbv beta zeta in V. eexists _, _, _. split; [exact V|]. clear V E.
  assert (NH : last_bars w h i <> []) by (apply last_bars_nonempty; lia). assert (NL : last_bars w l i <> []) by (apply last_bars_nonempty; lia).
  assert (BH : forall x, In x (last_bars w h i) -> exists k, (k < n)%nat /\ x = h k).
  { intros x Hx. apply in_map_iff in Hx as (k & <- & Hk). apply in_seq in Hk. exists k. split; [lia|easy]. }
  assert (BL : forall x, In x (last_bars w l i) -> exists k, (k < n)%nat /\ x = l k).
  { intros x Hx. apply in_map_iff in Hx as (k & <- & Hk). apply in_seq in Hk. exists k. split; [lia|easy]. }
  destruct (max_of_fin m (last_bars w h i) NH) as [FM GM]; [intros x Hx; destruct (BH x Hx) as (k & Hk & ->); now apply H|].
  destruct (min_of_fin m (last_bars w l i) NL) as [FN GN]; [intros x Hx; destruct (BL x Hx) as (k & Hk & ->); now apply H|].
  assert (AH : Rabs (B2R (@max_of f64 (B64 m) (last_bars w h i))) < bpow radix2 1022).
  { destruct (BH _ (max_of_in m _ NH)) as (k & Hk & ->). now apply H. }
  assert (AL : Rabs (B2R (@min_of f64 (B64 m) (last_bars w l i))) < bpow radix2 1022).
  { destruct (BL _ (min_of_in m _ NL)) as (k & Hk & ->). now apply H. }
  assert (O : B2R (@min_of f64 (B64 m) (last_bars w l i)) <= B2R (@max_of f64 (B64 m) (last_bars w h i))).
  { apply Rle_trans with (B2R (l i)); [apply GN|apply Rle_trans with (B2R (h i)); [now apply H|apply GM]]; apply in_map, in_seq; lia. }
  set (u := @max_of f64 (B64 m) (last_bars w h i)) in *. set (d := @min_of f64 (B64 m) (last_bars w l i)) in *.
  change (fdiv (fadd u d) (flit 2 1)) with (Bdiv mode_NE (Bplus mode_NE u d) (b64_lit 2 1)).
  pose proof bpow_1022 as B22. apply Rabs_def2 in AH. apply Rabs_def2 in AL.
  assert (R1 : B2R d + B2R d <= rnd (B2R u + B2R d) <= B2R u + B2R u). { rewrite <- (rnd_double d), <- (rnd_double u). split; apply rnd_le; lra. }
  pose proof (xval_add u d FM FN) as V1. rewrite fl_fin in V1 by (apply Rabs_def1; lra). apply xval_fin_inv in V1 as [F1 V1].
  pose proof (xval_of_Z 2 ltac:(easy)) as V2. change (b64_of_Z 2) with (b64_lit 2 1) in V2. apply xval_fin_inv in V2 as [F2 V2].
  pose proof (xval_div (Bplus mode_NE u d) (b64_lit 2 1) F1 F2 ltac:(rewrite V2; lra)) as V3. rewrite V1, V2 in V3.
  assert (R2 : B2R d <= rnd (rnd (B2R u + B2R d) / 2) <= B2R u). {
    pose proof (rnd_le (B2R d) (rnd (B2R u + B2R d) / 2) ltac:(lra)) as Q1. pose proof (rnd_le (rnd (B2R u + B2R d) / 2) (B2R u) ltac:(lra)) as Q2.
    rewrite rnd_B2R in Q1, Q2. now split. }
  pose proof (bpow_gt_0 radix2 1022).
  rewrite fl_fin in V3 by (apply Rabs_def1; lra). apply xval_fin_inv in V3 as [F3 V3].
  split; [exact FM|]. split; [exact F3|]. split; [exact FN|]. rewrite V3. exact R2.
Qed.


(** ** C35: on-balance volume of integer volumes is exact below 2^53 *)
Fixpoint obv_int (c : nat -> R) (z : nat -> Z) (i : nat) : Z :=
  match i with O => 0%Z | S j => (obv_int c z j + (if Rle_dec (c j) (c (S j)) then z (S j) else - z (S j)))%Z end.
Lemma sub_sign (x y : f64) : fin x -> fin y -> 0 < B2R x -> 0 < B2R y ->
  is_nan (Bminus mode_NE y x) = false /\ Bsign (Bminus mode_NE y x) = (if Rle_dec (B2R x) (B2R y) then false else true).
Proof.
  intros Fx Fy Px Py. pose proof (Bminus_correct 53 1024 _ _ mode_NE y x Fy Fx) as C. fold (rnd (B2R y - B2R x)) in C. fold lim in C.
  assert (Sx : Bsign x = false) by (rewrite Bsign_B2R by (easy || lra); apply Rltb_f; lra).
  assert (Sy : Bsign y = false) by (rewrite Bsign_B2R by (easy || lra); apply Rltb_f; lra).
  rewrite Sx, Sy in C. destruct (Rlt_bool _ lim) eqn:L; [|destruct C as [_ C]; discriminate C].
  destruct C as (C1 & C2 & C3). split; [now apply fin_not_nan|]. rewrite C3.
  destruct (Rle_dec (B2R x) (B2R y)) as [H|H].
  - destruct (Rle_lt_or_eq_dec _ _ H) as [H1|H1].
    + rewrite Rcompare_Gt by lra. reflexivity.
    + rewrite Rcompare_Eq by lra. reflexivity.
  - rewrite Rcompare_Lt by lra. reflexivity.
Qed.
Theorem obv_f64_exact m (c v : nat -> f64) (z : nat -> Z) n :
  (forall k, (k < n)%nat -> fin (c k) /\ 0 < B2R (c k)) ->
  (forall k, (k < n)%nat -> fin (v k) /\ B2R (v k) = IZR (z k) /\ (Z.abs (z k) <= 2 ^ 53)%Z) ->
  (forall i, (i < n)%nat -> (Z.abs (obv_int (fun k => B2R (c k)) z i) <= 2 ^ 53)%Z) ->
  exists o, @obv f64 (B64 m) (series c n) (series v n) = Ok o /\
  forall i, (1 <= i < n)%nat -> exists x, nth_error o i = Some x /\ fin x /\ B2R x = IZR (obv_int (fun k => B2R (c k)) z i).
Proof.
  intros Hc Hv Ht. destruct (@obv_values _ (B64 m) c v n) as (o & E & (_ & _ & V)). exists o. split; [exact E|].
  assert (G : forall i, (i < n)%nat -> xval (@obv_total _ (B64 m) c v i) = Fin (IZR (obv_int (fun k => B2R (c k)) z i))).
  { induction i as [|i IH]; intros Hi; [reflexivity|]. specialize (IH ltac:(lia)). apply xval_fin_inv in IH as [F1 V1].
    pose proof (Ht (S i) Hi) as B. cbn [obv_total obv_int] in *.
    destruct (Hc i ltac:(lia)) as [Fa Pa]. destruct (Hc (S i) Hi) as [Fb Pb]. destruct (Hv (S i) Hi) as (Fv & Vv & Bv).
    destruct (sub_sign (c i) (c (S i)) Fa Fb Pa Pb) as [N SG].
    unfold fsignum. change (fsub (c (S i)) (c i)) with (Bminus mode_NE (c (S i)) (c i)).
    change (fisnan ?x) with (is_nan x). change (fsignbit ?x) with (Bsign x). rewrite N, SG.
    set (s := obv_total c v i) in *.
    pose proof (xval_of_Z 1 ltac:(easy)) as V2. change (b64_of_Z 1) with (b64_lit 1 1) in V2. apply xval_fin_inv in V2 as [F2 V2].
    destruct (Rle_dec (B2R (c i)) (B2R (c (S i)))) as [H|H].
    - change (fadd s (fmul (flit 1 1) (v (S i)))) with (Bplus mode_NE s (Bmult mode_NE (b64_lit 1 1) (v (S i)))).
      pose proof (xval_mul (b64_lit 1 1) (v (S i)) F2 Fv) as M. rewrite V2, Vv, Rmult_1_l, fl_Z in M by lia. apply xval_fin_inv in M as [F3 V3].
      rewrite xval_add by easy. rewrite V1, V3, <- plus_IZR. now apply fl_Z.
    - change (fadd s (fmul (fneg (flit 1 1)) (v (S i)))) with (Bplus mode_NE s (Bmult mode_NE (Bopp (b64_lit 1 1)) (v (S i)))).
      assert (F2' : fin (Bopp (b64_lit 1 1))) by easy.
      pose proof (xval_mul (Bopp (b64_lit 1 1)) (v (S i)) F2' Fv) as M. rewrite B2R_Bopp, V2, Vv in M.
      replace (- (1) * IZR (z (S i))) with (IZR (- z (S i))) in M by (rewrite opp_IZR; ring). rewrite fl_Z in M by lia. apply xval_fin_inv in M as [F3 V3].
      rewrite xval_add by easy. rewrite V1, V3, <- plus_IZR. now apply fl_Z. }
  intros i Hi. specialize (V i Hi). eexists. split; [exact V|]. now apply xval_fin_inv, G.
Qed.

(** ** C24: quantile and median return for every data and every q *)
Lemma toN_le x k : inr 0 (INR k) x -> (N.to_nat (b64_toN x) <= k)%nat.
Proof.
  intros H. apply inr_cases in H as [->|[Fx [H0 H1]]]; [cbn; lia|].
  assert (T : (0 <= Btrunc x <= Z.of_nat k)%Z).
  { assert (E : IZR (Btrunc x) = IZR (Ztrunc (B2R x))) by (rewrite Btrunc_correct by easy; apply round_FIX_IZR). apply eq_IZR in E. rewrite E.
    rewrite Ztrunc_floor by easy. split; [apply Zfloor_lub; easy|]. rewrite INR_IZR_INZ in H1. rewrite <- (Zfloor_IZR (Z.of_nat k)). now apply Zfloor_le. }
  unfold b64_toN. destruct x; try easy; try (cbn; lia). lia.
Qed.
Lemma nearby_in md k x : inr 0 (INR k) x -> inr 0 (INR k) (Bnearbyint md x).
Proof.
  intros H. apply inr_cases in H as [->|[Fx [H0 H1]]]; [easy|]. destruct (Bnearbyint_correct 53 1024 _ md x) as (V & F & _). rewrite Fx in F.
  unfold inr. rewrite xval_fin by easy. rewrite V, round_FIX_IZR. rewrite INR_IZR_INZ in *.
  assert (VR : Valid_rnd (round_mode md)) by apply valid_rnd_round_mode.
  split; apply IZR_le.
  - rewrite <- (Zrnd_IZR (round_mode md) 0). now apply Zrnd_le.
  - rewrite <- (Zrnd_IZR (round_mode md) (Z.of_nat k)). now apply Zrnd_le.
Qed.
Lemma clamp_unit m (q : f64) : inr 0 1 (Bdiv mode_NE (@fclamp_val f64 (B64 m) q (b64_lit 0 1) (b64_lit 100 1)) (b64_lit 100 1)).
Proof.
  assert (C : inr 0 100 (@fclamp_val f64 (B64 m) q (b64_lit 0 1) (b64_lit 100 1))).
  { unfold fclamp_val. change (@fltb f64 (B64 m)) with (@Bltb 53 1024).
    pose proof (xval_of_Z 100 ltac:(easy)) as V1. change (b64_of_Z 100) with (b64_lit 100 1) in V1.
    pose proof (xval_of_Z 0 ltac:(easy)) as V0. change (b64_of_Z 0) with (b64_lit 0 1) in V0.
    unfold inr. rewrite !ltb_xval, V0.
    destruct (xval q) as [r|s|] eqn:Q; cbn [xltb].
    - destruct (Rltb r 0) eqn:A; [apply Rltb_t in A|apply Rltb_f in A].
      + cbv iota. rewrite V0, V1. cbn [xltb]. rewrite (proj2 (Rltb_f _ _)) by lra. cbv iota. rewrite V0. lra.
      + cbv iota. rewrite Q, V1. cbn [xltb]. destruct (Rltb 100 r) eqn:B; cbv iota; [apply Rltb_t in B; rewrite V1; lra|apply Rltb_f in B; rewrite Q; lra].
    - destruct s; cbv iota; rewrite V1, ?V0, ?Q; cbn [xltb negb]; cbv iota.
      + rewrite (proj2 (Rltb_f _ _)) by lra. cbv iota. rewrite V0. lra.
      + rewrite V1. lra.
    - cbv iota. rewrite Q, V1. cbn [xltb]. cbv iota. now rewrite Q. }
  apply inr_cases in C as [->|[F [C0 C1]]]; [easy|].
  pose proof (xval_of_Z 100 ltac:(easy)) as V1. change (b64_of_Z 100) with (b64_lit 100 1) in V1. apply xval_fin_inv in V1 as [F1 V1].
  pose proof (xval_div _ _ F F1 ltac:(rewrite V1; lra)) as D. rewrite V1 in D.
  set (r := B2R (fclamp_val q (b64_lit 0 1) (b64_lit 100 1))) in *.
  assert (R1 : rnd 0 <= rnd (r / 100) <= rnd 1) by (split; apply rnd_le; lra).
  rewrite rnd_0 in R1. rewrite (rnd_Z 1) in R1 by easy. unfold inr. rewrite D. pose proof lim_pos.
  assert (1 < lim). { unfold lim. apply (bpow_lt radix2 0 1024). lia. }
  rewrite fl_fin by (apply Rabs_def1; lra). exact R1.
Qed.
Lemma quantile_pos_in m k (q : f64) : (Z.of_nat k <= 2 ^ 53)%Z -> inr 0 (INR k) (Bmult mode_NE (@fofnat f64 (B64 m) k) (Bdiv mode_NE (@fclamp_val f64 (B64 m) q (b64_lit 0 1) (b64_lit 100 1)) (b64_lit 100 1))).
Proof.
  intros Hk. pose proof (clamp_unit m q) as C. apply inr_cases in C as [->|[F [C0 C1]]]; [rewrite nan_mult_r; easy|].
  pose proof (xval_nat m k Hk) as N. apply xval_fin_inv in N as [FN VN]. pose proof (rep_nat k Hk) as [RN RL].
  pose proof (xval_mul _ _ FN F) as M. rewrite VN in M. set (r := B2R _) in M at 1. fold r in C0, C1.
  pose proof (pos_INR k).
  assert (R1 : rnd 0 <= rnd (INR k * r) <= rnd (INR k)) by (split; apply rnd_le; nra).
  rewrite rnd_0, RN in R1. unfold inr. rewrite M. rewrite (Rabs_pos_eq (INR k)) in RL by easy. pose proof lim_pos.
  rewrite fl_fin by (apply Rabs_def1; lra). exact R1.
Qed.
Theorem quantile_f64_total m (data : list f64) w q : (0 < w)%nat -> (Z.of_nat w <= 2 ^ 53)%Z ->
  exists o, @quantile f64 (B64 m) data w q = Ok o /\ length o = (w - 1 + (length data + 1 - w))%nat.
Proof.
  intros Hw Hz. unfold quantile, usub. rewrite (proj2 (Nat.leb_le 1 w)) by lia. cbn [bind]. unfold rwindows. rewrite (proj2 (Nat.eqb_neq w 0)) by lia. cbn [bind].
  assert (T : forall l, In l (windows w data) -> exists v, @quantile_win f64 (B64 m) w q l = Ok v).
  { intros l Hl. apply windows_length in Hl; [|easy]. unfold quantile_win, usub. rewrite (proj2 (Nat.leb_le 1 w)) by lia. cbn [bind].
    pose proof (quantile_pos_in m (w - 1) q ltac:(lia)) as P.
    change (fmul (fofnat (w - 1)) (fdiv (fclamp_val q (flit 0 1) (flit 100 1)) (flit 100 1))) with
      (Bmult mode_NE (@fofnat f64 (B64 m) (w - 1)) (Bdiv mode_NE (@fclamp_val f64 (B64 m) q (b64_lit 0 1) (b64_lit 100 1)) (b64_lit 100 1))).
    set (pos := Bmult mode_NE _ _) in *. clearbody pos. destruct (feqb _ _).
    - pose proof (toN_le pos _ P) as K. change (ftoN pos) with (b64_toN pos).
      destruct (quickselect_total fltb l (N.to_nat (b64_toN pos))) as (d & v & E & _); [lia|]. rewrite E. cbn [bind]. now exists v.
    - change (ftoN (ffloor pos)) with (b64_toN (Bnearbyint mode_DN pos)). change (ftoN (fceil pos)) with (b64_toN (Bnearbyint mode_UP pos)).
      pose proof (toN_le _ _ (nearby_in mode_DN _ _ P)) as K. pose proof (toN_le _ _ (nearby_in mode_UP _ _ P)) as K2.
      destruct (quickselect_total fltb l (N.to_nat (b64_toN (Bnearbyint mode_DN pos)))) as (d & v & E & Pm & _); [lia|]. rewrite E. cbn [bind].
      apply Permutation.Permutation_length in Pm. unfold slice_from. rewrite (proj2 (Nat.leb_le _ _)) by lia. cbn [bind]. now eexists. }
  assert (G : forall ws, (forall l, In l ws -> exists v, @quantile_win f64 (B64 m) w q l = Ok v) -> exists vs, rmap (@quantile_win f64 (B64 m) w q) ws = Ok vs /\ length vs = length ws).
  { induction ws as [|l ws IH]; intros H; [now exists []|]. cbn [rmap]. destruct (H l ltac:(now left)) as (v & ->). cbn [bind].
    destruct IH as (vs & -> & L); [intros; apply H; now right|]. cbn [bind length]. exists (v :: vs). split; [easy|cbn; lia]. }
  destruct (G _ T) as (vs & -> & L). cbn [bind]. eexists. split; [reflexivity|]. rewrite app_length, length_pad, L, length_windows. lia.
Qed.
Corollary median_f64_total m (data : list f64) w : (0 < w)%nat -> (Z.of_nat w <= 2 ^ 53)%Z ->
  exists o, @median f64 (B64 m) data w = Ok o /\ length o = (w - 1 + (length data + 1 - w))%nat.
Proof. apply quantile_f64_total. Qed.
