(** * ReleaseBFacts: what a build without overflow checks returns for windows that are
    too small, or too large for the products of [kurtosis] (C90). *)

From Coq Require Import Reals Lra Lia.
From Verif Require Import Spec BaseFacts Tac DistShape XReal RSpec XRFacts Convex Bars DistReal RankCorr CorrReal Dcor Adaptive Warm Ranges VolatReal Entropy Flat.
From Verif Require Import Smooth Distribution Correlation Release ReleaseFacts ReleaseB.
Local Unset Implicit Arguments.

Section Same.
  Context {F : Type} {FO : FOps F}.

  Lemma wsub_one w k : (N.of_nat w < 2 ^ 64)%N -> usub w 1 = Ok k -> wsub (N.of_nat w) 1 = N.of_nat k.
  Proof.
    intros H E. apply wsub_ok; [exact H|]. unfold usub in E. destruct (Nat.leb_spec 1 w); [|easy]. apply Ok_inj in E. subst k.
    unfold usubN. destruct (N.leb_spec 1 (N.of_nat w)); [|lia]. f_equal. lia.
  Qed.

  Theorem ewma_release_same (data : list F) w o : (N.of_nat w < 2 ^ 64)%N -> ewma data w = Ok o -> ewma_release data w = Ok o.
  Proof.
    intros H. unfold ewma, ewma_release. destruct (slice_to data w); [|easy]. cbn [bind].
    destruct (usub w 1) as [k|] eqn:E; [|easy]. cbn [bind]. now rewrite (wsub_one w k H E), Nat2N.id.
  Qed.
  Theorem alma_release_same (data : list F) w sigma mu o : (N.of_nat w < 2 ^ 64)%N -> alma data w sigma mu = Ok o -> alma_release data w sigma mu = Ok o.
  Proof.
    intros H. unfold alma, alma_release. destruct (usub w 1) as [k|] eqn:E; [|easy]. cbn [bind]. now rewrite (wsub_one w k H E).
  Qed.
  Theorem kurtosis_release_same (data : list F) w o : kurtosis data w = Ok o -> kurtosis_release data w = Ok o.
  Proof.
    unfold kurtosis, kurtosis_release. cbv zeta. set (W := N.of_nat w).
    destruct (usubN W 1) as [w1|] eqn:E1; [|easy]. cbn [bind]. destruct (usubN W 2) as [w2|] eqn:E2; [|easy]. cbn [bind].
    destruct (usubN W 3) as [w3|] eqn:E3; [|easy]. cbn [bind]. destruct (umul (W + 1) W) as [a|] eqn:E4; [|easy]. cbn [bind].
    destruct (umul a w1) as [b|] eqn:E5; [|easy]. cbn [bind]. destruct (umul w2 w3) as [c|] eqn:E6; [|easy]. cbn [bind].
    destruct (umul w1 w1) as [d|] eqn:E7; [|easy]. cbn [bind].
    assert (L : (W < two64)%N). { unfold umul in E4. destruct (N.ltb_spec ((W + 1) * W) two64) as [Q|]; [|easy]. clear - Q. destruct (N.eq_dec W 0) as [->|]; [easy|]. nia. }
    rewrite (wsub_ok _ _ _ L E1), (wsub_ok _ _ _ L E2), (wsub_ok _ _ _ L E3), (wmul_ok _ _ _ E4), (wmul_ok _ _ _ E5), (wmul_ok _ _ _ E6), (wmul_ok _ _ _ E7).
    unfold usub. destruct (Nat.leb_spec 1 w); [|easy]. cbn [bind]. now destruct (rwindows w data).
  Qed.
  Lemma skew_win_same w (l : list F) v : skew_win w l = Ok v -> skew_win_release w l = v.
  Proof.
    unfold skew_win, skew_win_release. cbv zeta. set (W := N.of_nat w).
    destruct (usubN W 1) as [w1|] eqn:E1; [|easy]. cbn [bind]. destruct (umul W w1) as [p|] eqn:E2; [|easy]. cbn [bind].
    unfold usub. destruct (Nat.leb_spec 2 w); [|easy]. cbn [bind]. intros E. apply Ok_inj in E. subst v.
    assert (L : (W < two64)%N).
    { unfold usubN in E1. destruct (N.leb_spec 1 W); [|easy]. apply Ok_inj in E1. subst w1. unfold umul in E2. destruct (N.ltb_spec (W * (W - 1)) two64) as [Q|]; [|easy].
      assert (2 <= W)%N by (unfold W; lia). nia. }
    rewrite (wsub_ok _ _ _ L E1), (wmul_ok _ _ _ E2). rewrite (wsub_ok W 2 (N.of_nat (w - 2)) L); [reflexivity|].
    unfold usubN. destruct (N.leb_spec 2 W); [|unfold W in *; lia]. f_equal. unfold W. lia.
  Qed.
  Theorem skew_release_same (data : list F) w o : skew data w = Ok o -> skew_release data w = Ok o.
  Proof.
    unfold skew, skew_release. unfold usub. destruct (Nat.leb_spec 1 w); [|easy]. cbn [bind]. destruct (rwindows w data) as [ws|]; [|easy]. cbn [bind].
    destruct (rmap (skew_win w) ws) as [vs|] eqn:R; [|easy]. cbn [bind]. intros E. apply Ok_inj in E. subst o. do 2 f_equal.
    revert vs R. induction ws as [|l ws IH]; intros vs R; cbn [rmap] in R; [apply Ok_inj in R; now subst|].
    destruct (skew_win w l) as [v|] eqn:V; [|easy]. cbn [bind] in R. destruct (rmap (skew_win w) ws) as [vs'|]; [|easy]. cbn [bind] in R. apply Ok_inj in R. subst vs.
    cbn [map]. now rewrite (skew_win_same _ _ _ V), (IH _ eq_refl).
  Qed.

  (** ** A window of 0 *)
  (** The checked build panics.  Without the checks [ewma] yields nothing but NaN for
      [2^64 - 1] items. *)
  Theorem ewma_release_zero (data : list F) : exists o, ewma_release data 0 = Ok o /\
    (2 ^ 64 <= N.of_nat (length o))%N /\ forall i, (N.of_nat i < 2 ^ 64 - 1)%N -> nth_error o i = Some fnan.
  Proof.
    unfold ewma_release, slice_to, slice_from. cbn [Nat.leb bind N.of_nat]. eexists. split; [reflexivity|].
    replace (wsub 0 1) with (2 ^ 64 - 1)%N by (vm_compute; reflexivity). set (K := (2 ^ 64 - 1)%N). assert (HK : K = (2 ^ 64 - 1)%N) by reflexivity. clearbody K. split.
    - rewrite app_length, length_pad. cbn [length]. lia.
    - intros i Hi. rewrite nth_error_app1 by (rewrite length_pad; lia). apply nth_error_pad. lia.
  Qed.
End Same.
Local Open Scope R_scope.

(** [alma] prints NaN for every bar. *)
Theorem alma_release_zero l (sigma : xr) mu : alma_release (map Fin l) 0 sigma mu = Ok (map (fun _ => NaN) l).
Proof.
  unfold alma_release. rewrite map_length. cbn [pad repeat app]. f_equal. rewrite Nat.sub_0_r.
  rewrite (map_ext _ (fun _ => NaN)).
  - generalize 0%nat. induction l as [|x l IH]; intros k; cbn; [easy|]. now rewrite IH.
  - intros i. unfold weighted_mean, alma_weights. cbn [seq map combine fold_left]. rewrite !x_lit, x_quot. apply quot_0_0.
Qed.

(** ** Windows of one and two bars *)
(** Their higher moments are not defined: the checked build panics, the unchecked one
    prints NaN ([skew] of two bars: the checked build prints NaN too). *)
Lemma all_nan l w g : (0 < w)%nat -> (forall m, length m = w -> g (map Fin m) = NaN) ->
  exists o, (let* ws := rwindows w (map Fin l) in Ok (pad (w - 1) fnan ++ map g ws)) = Ok o /\ length o = Nat.max (w - 1) (length l) /\
  forall i, (i < length o)%nat -> nth_error o i = Some NaN.
Proof.
  intros Hw H. unfold rwindows. destruct (Nat.eqb_spec w 0); [lia|]. cbn [bind]. eexists. split; [reflexivity|].
  destruct (windowed_real l w g (fun _ => NaN) Hw H) as (A1 & A2 & A3). split; [exact A1|].
  intros i Hi. change (@fnan xr XR) with NaN in *. rewrite A1 in Hi. destruct (le_lt_dec (w - 1) i); [apply A3; lia|apply A2; lia].
Qed.
Theorem kurtosis_release_small l w : (1 <= w <= 2)%nat ->
  exists o, kurtosis_release (map Fin l) w = Ok o /\ length o = Nat.max (w - 1) (length l) /\ forall i, (i < length o)%nat -> nth_error o i = Some NaN.
Proof.
  intros Hw. unfold kurtosis_release. cbv zeta. apply all_nan; [lia|]. intros m Lm. unfold kurtosis_win.
  rewrite (x_dev 4 w m powi4 x_pow4) by (easy || lia). rewrite x_win_mean, x_sum_dev2 by (easy || lia). fold (dev 2 m).
  assert (C : w = 1%nat \/ w = 2%nat) by lia. destruct C as [-> | ->].
  - assert (Z : dev 2 m = 0) by (destruct m as [|a [|]]; try easy; unfold dev, mean; cbn; field). rewrite Z.
    replace (wmul (wsub (N.of_nat 1) 2) (wsub (N.of_nat 1) 3)) with 2%N by (vm_compute; reflexivity).
    replace (wmul (wmul (N.of_nat 1 + 1) (N.of_nat 1)) (wsub (N.of_nat 1) 1)) with 0%N by (vm_compute; reflexivity).
    rewrite !DistReal.x_ofN, x_div, x_mul, x_mul, x_quot by (cbn; lra). replace (IZR (Z.of_N 0) / IZR (Z.of_N 2) * dev 4 m) with 0 by (cbn; lra). rewrite Rmult_0_r, quot_0_0. apply x_sub_nan_l.
  - replace (wmul (wsub (N.of_nat 2) 2) (wsub (N.of_nat 2) 3)) with 0%N by (vm_compute; reflexivity).
    replace (wmul (wmul (N.of_nat 2 + 1) (N.of_nat 2)) (wsub (N.of_nat 2) 1)) with 6%N by (vm_compute; reflexivity).
    replace (wmul (wsub (N.of_nat 2) 1) (wsub (N.of_nat 2) 1)) with 1%N by (vm_compute; reflexivity).
    assert (Z : 0 <= dev 4 m). { unfold dev. apply Rsum_nonneg. intros x Hx. apply in_map_iff in Hx as (y & <- & _). replace ((y - mean m) ^ 4) with (((y - mean m) ^ 2) ^ 2) by ring. apply pow2_ge_0. }
    rewrite !DistReal.x_ofN, x_lit, !x_mul, !x_quot. unfold quot. cbn [Z.of_N]. rewrite !(proj2 (Req_true 0 0) eq_refl).
    rewrite (proj2 (Req_false 6 0)), (proj2 (Req_false (3 * 1) 0)), (proj2 (Rltb_false 6 0)), (proj2 (Rltb_false (3 * 1) 0)) by lra. cbn [fmul XR xmul].
    rcase; try easy; [lra|]. cbn. rewrite (proj2 (Rltb_false (dev 2 m * dev 2 m) 0)) by nra. easy.
Qed.
Theorem skew_release_small l w : (1 <= w <= 2)%nat ->
  exists o, skew_release (map Fin l) w = Ok o /\ length o = Nat.max (w - 1) (length l) /\ forall i, (i < length o)%nat -> nth_error o i = Some NaN.
Proof.
  intros Hw. unfold skew_release. apply all_nan; [lia|]. intros m Lm. unfold skew_win_release. cbv zeta.
  rewrite (x_dev 3 w m powi3 x_pow3) by (easy || lia). fold (variance_win w (map Fin m)). rewrite x_var by (easy || lia).
  assert (I : 1 <= INR w) by (replace 1 with (INR 1) by (cbn; lra); apply le_INR; lia).
  assert (D : dev 3 m = 0).
  { assert (C : w = 1%nat \/ w = 2%nat) by lia. destruct C as [-> | ->]; destruct m as [|a [|b [|]]]; try easy; unfold dev, mean; cbn; field. }
  rewrite D, x_nat, x_div by lra. replace (0 / INR w) with 0 by (field; lra).
  assert (C : w = 1%nat \/ w = 2%nat) by lia. destruct C as [-> | ->].
  - replace (var m) with 0 by (destruct m as [|a [|]]; try easy; unfold var, mean; cbn; field).
    replace (wmul (N.of_nat 1) (wsub (N.of_nat 1) 1)) with 0%N by (vm_compute; reflexivity).
    replace (wsub (N.of_nat 1) 2) with (2 ^ 64 - 1)%N by (vm_compute; reflexivity).
    rewrite !DistReal.x_ofN, x_sqrt, x_div, x_mul, !x_lit, x_div by (cbn; lra). cbn [fpow XR xpow].
    rewrite (proj2 (Rltb_false 0 0)), (proj2 (Req_true 0 0) eq_refl), (proj2 (Req_false (3 / 2) 0)), (proj2 (Rltb_false (3 / 2) 0)), Rmult_0_r, x_quot by lra. apply quot_0_0.
  - replace (wmul (N.of_nat 2) (wsub (N.of_nat 2) 1)) with 2%N by (vm_compute; reflexivity).
    replace (wsub (N.of_nat 2) 2) with 0%N by (vm_compute; reflexivity).
    rewrite !DistReal.x_ofN, x_sqrt, x_quot by (cbn; lra). unfold quot. cbn [Z.of_N]. rewrite (proj2 (Req_true 0 0) eq_refl).
    rewrite (proj2 (Req_false (sqrt 2) 0)) by (pose proof (sqrt_lt_R0 2); lra). cbn [fmul XR xmul]. rewrite (proj2 (Req_true 0 0) eq_refl). easy.
Qed.

(** ** A window of millions of bars *)
(** The factor [(n+1) n (n-1)] of the documented formula, as an integer. *)
Definition k_factor (w : nat) : N := ((N.of_nat w + 1) * N.of_nat w * (N.of_nat w - 1))%N.
(** The documented value, but with only the low 64 bits of that factor. *)
Definition wrapped_kurtosis (l : list R) : R :=
  let n := INR (length l) in
  IZR (Z.of_N (low_word (k_factor (length l)))) / ((n - 2) * (n - 3)) * dev 4 l / (dev 2 l * dev 2 l)
  - 3 * ((n - 1) * (n - 1)) / ((n - 2) * (n - 3)).

Theorem kurtosis_release_real l w : (4 <= w)%nat -> (N.of_nat w < 2 ^ 32)%N ->
  exists o, kurtosis_release (map Fin l) w = Ok o /\
  aligned o (length l) (w - 1) NaN (fun i => if Req (var (win w l i)) 0 then NaN else Fin (wrapped_kurtosis (win w l i))).
Proof.
  intros Hw H32. unfold kurtosis_release. cbv zeta. set (W := N.of_nat w). assert (HW : W = N.of_nat w) by reflexivity.
  change (2 ^ 32)%N with 4294967296%N in H32.
  assert (L : (W < two64)%N) by (change two64 with 18446744073709551616%N; lia).
  assert (S : forall k, (k <= 4)%N -> wsub W k = (W - k)%N).
  { intros k Hk. apply wsub_ok; [exact L|]. unfold usubN. destruct (N.leb_spec k W); [easy|lia]. }
  rewrite !S by lia.
  assert (M2 : wmul (W - 2) (W - 3) = ((W - 2) * (W - 3))%N) by (apply N.mod_small; change two64 with 18446744073709551616%N; nia).
  assert (M1 : wmul (W - 1) (W - 1) = ((W - 1) * (W - 1))%N) by (apply N.mod_small; change two64 with 18446744073709551616%N; nia).
  assert (M0 : wmul (wmul (W + 1) W) (W - 1) = low_word (k_factor w)).
  { change (wmul (W + 1) W) with (low_word ((W + 1) * W)). now rewrite wmul_low. }
  rewrite M2, M1, M0. clear M2 M1 M0 S L H32.
  unfold rwindows. destruct (Nat.eqb_spec w 0); [lia|]. cbn [bind]. eexists. split; [reflexivity|]. change (@fnan xr XR) with NaN.
  set (f := fun m => if Req (var m) 0 then NaN else Fin (wrapped_kurtosis m)).
  change (fun i => if Req (var (win w l i)) 0 then NaN else Fin (wrapped_kurtosis (win w l i))) with (fun i => f (win w l i)).
  apply windowed_real; [lia|intros m Lm]. unfold f.
  assert (I : 4 <= INR w) by (replace 4 with (INR 4) by (cbn; lra); now apply le_INR).
  unfold kurtosis_win. rewrite (x_dev 4 w m powi4 x_pow4) by (easy || lia). rewrite x_win_mean, x_sum_dev2 by (easy || lia). fold (dev 2 m).
  rewrite !DistReal.x_ofN, !N2Z.inj_mul, !mult_IZR. rewrite HW. change 1%N with (N.of_nat 1). change 2%N with (N.of_nat 2). change 3%N with (N.of_nat 3).
  rewrite !IZR_N_sub by lia. cbn [INR]. replace (1 + 1 + 1) with 3 by lra. replace (1 + 1) with 2 by lra.
  assert (D : (INR w - 2) * (INR w - 3) <> 0) by (apply Rmult_integral_contrapositive; lra).
  rewrite x_lit, x_mul, !x_div, x_mul, x_mul by easy. rewrite x_quot.
  rewrite var_dev, Lm. rcase.
  - assert (Z : dev 2 m = 0).
    { apply Rmult_eq_reg_r with (/ INR w); [unfold Rdiv in E; lra|apply Rinv_neq_0_compat; lra]. }
    assert (Z4 : dev 4 m = 0).
    { unfold dev. rewrite (map_ext_in _ (fun _ => 0)); [rewrite Rsum_const; lra|].
      intros x Hx. rewrite (proj1 (dev2_zero m) Z x Hx) at 1. ring. }
    rewrite Z, Z4, !Rmult_0_r, quot_0_0. now rewrite x_sub_nan_l.
  - assert (Z : dev 2 m <> 0) by (intros Z; apply E; rewrite Z; unfold Rdiv; lra).
    rewrite quot_ok by now apply Rmult_integral_contrapositive. rewrite x_div, x_sub by easy.
    f_equal. unfold wrapped_kurtosis. now rewrite Lm.
Qed.

Lemma sum_squares l : (forall x, In x l -> 0 <= x) -> Rsum (map (fun x => x ^ 2) l) <= Rsum l ^ 2.
Proof.
  induction l as [|x l IH]; intros H; [cbn; lra|]. cbn [map]. rewrite !Rsum_cons.
  specialize (IH (fun y Hy => H y (or_intror Hy))). pose proof (H x (or_introl eq_refl)).
  pose proof (Rsum_nonneg l (fun y Hy => H y (or_intror Hy))). nra.
Qed.
Lemma dev4_le l : dev 4 l <= dev 2 l ^ 2.
Proof.
  unfold dev. rewrite (map_ext _ (fun x => ((x - mean l) ^ 2) ^ 2)) by (intros; ring).
  rewrite <- (map_map (fun x => (x - mean l) ^ 2) (fun y => y ^ 2)). apply sum_squares.
  intros y Hy. apply in_map_iff in Hy as (x & <- & _). apply pow2_ge_0.
Qed.
Lemma dev4_ge l : dev 2 l ^ 2 <= INR (length l) * dev 4 l.
Proof.
  pose proof (cauchy_schwarz (fun _ : R => 1) (fun x => (x - mean l) ^ 2) l) as C. unfold dev.
  rewrite (map_ext (fun x => 1 * (x - mean l) ^ 2) (fun x => (x - mean l) ^ 2)) in C by (intros; ring).
  rewrite (map_ext (fun _ : R => 1 ^ 2) (fun _ => 1)) in C by (intros; ring). rewrite Rsum_const in C.
  rewrite (map_ext (fun x => (x - mean l) ^ 4) (fun x => ((x - mean l) ^ 2) ^ 2)) by (intros; ring). lra.
Qed.
(** The first window whose factor does not fit: the checked build panics.  Whatever the
    prices, the unchecked build prints less than -2.8, although no series has an excess
    kurtosis below -2.1. *)
Theorem kurtosis_release_wrong l w i : N.of_nat w = 2642246%N -> (w - 1 <= i < length l)%nat -> var (win w l i) <> 0 ->
  exists o x, kurtosis_release (map Fin l) w = Ok o /\ nth_error o i = Some (Fin x) /\ x < -2.8 /\ -2.1 < excess_kurtosis (win w l i).
Proof.
  intros Ew Hi V.
  destruct (kurtosis_release_real l w) as (o & E & A1 & A2 & A3); [lia|rewrite Ew; easy|]. exists o, (wrapped_kurtosis (win w l i)).
  split; [exact E|]. split. { rewrite A3 by lia. now rewrite (proj2 (Req_false _ _) V). }
  assert (Lm : length (win w l i) = w) by (apply length_win; lia). set (m := win w l i) in *.
  assert (In : INR w = 2642246) by (rewrite <- IZR_N, Ew; reflexivity).
  assert (Z : dev 2 m <> 0). { intros Z. apply V. rewrite var_dev, Z, Lm. unfold Rdiv. ring. }
  pose proof (dev4_le m) as U. pose proof (dev4_ge m) as B. rewrite Lm, In in B.
  assert (P : 0 < dev 2 m * dev 2 m) by nra.
  assert (r1 : dev 4 m / (dev 2 m * dev 2 m) <= 1). { apply Rmult_le_reg_r with (dev 2 m * dev 2 m); [easy|]. unfold Rdiv. rewrite Rmult_assoc, Rinv_l by lra. lra. }
  assert (r2 : / 2642246 <= dev 4 m / (dev 2 m * dev 2 m)). { apply Rmult_le_reg_r with (dev 2 m * dev 2 m); [easy|]. unfold Rdiv. rewrite Rmult_assoc, Rinv_l by lra. lra. }
  unfold wrapped_kurtosis, excess_kurtosis. rewrite Lm, In.
  assert (K : low_word (k_factor w) = 1054984509074%N) by (unfold k_factor; rewrite Ew; vm_compute; reflexivity). rewrite K. cbn [Z.of_N].
  set (r := dev 4 m / (dev 2 m * dev 2 m)) in *. split.
  - replace (_ * dev 4 m / (dev 2 m * dev 2 m)) with (1054984509074 / ((2642246 - 2) * (2642246 - 3)) * r) by (unfold r; field; repeat split; lra). lra.
  - replace (_ * dev 4 m / (dev 2 m * dev 2 m)) with ((2642246 + 1) * 2642246 * (2642246 - 1) / ((2642246 - 2) * (2642246 - 3)) * r) by (unfold r; field; repeat split; lra). lra.
Qed.
