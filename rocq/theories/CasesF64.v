(** * The hypotheses of the binary64 theorems can be met

    The companion of [Cases] for the theorems about IEEE floats: for each theorem
    [T] with hypotheses, [T_case] applies it to a small quoted series, whose
    low, close and high on bar [k] are the whole numbers [k], [k + 1], [k + 2]. *)
From Coq Require Import Reals Lra Lia ZArith List.
From Flocq Require Import Core IEEE754.BinarySingleNaN.
From Verif Require Import Spec BaseFacts XReal RSpec XRFacts Bars NaN Rank OrderStat RankCorr DistShape MomShape TrendShape SmoothShape VolShape B64 F64.
From Verif Require Import Correlation Volume Volatility Trend Momentum Distribution Smooth.
From Verif Require Import Dcor F64Facts F64Range F64Osc F64Err Refute Panics MamaF64 F64Rec Case Cases.
Import ListNotations.
Local Unset Implicit Arguments.
Local Open Scope R_scope.

(** ** The quoted bars *)
Lemma whole z : (Z.abs z <= 2 ^ 53)%Z -> fin (b64_of_Z z) /\ B2R (b64_of_Z z) = IZR z.
Proof. intros H. apply xval_fin_inv, xval_of_Z, H. Qed.
Definition hi (k : nat) : f64 := b64_of_Z (Z.of_nat k + 2).
Definition lo (k : nat) : f64 := b64_of_Z (Z.of_nat k).
Definition cl (k : nat) : f64 := b64_of_Z (Z.of_nat k + 1).
Lemma hi_val k : (k < 30)%nat -> fin (hi k) /\ B2R (hi k) = INR k + 2.
Proof. intros H. destruct (whole (Z.of_nat k + 2) ltac:(lia)) as [A B]. split; [exact A|]. unfold hi. rewrite B, plus_IZR, INR_IZR_INZ. reflexivity. Qed.
Lemma lo_val k : (k < 30)%nat -> fin (lo k) /\ B2R (lo k) = INR k.
Proof. intros H. destruct (whole (Z.of_nat k) ltac:(lia)) as [A B]. split; [exact A|]. unfold lo. rewrite B, INR_IZR_INZ. reflexivity. Qed.
Lemma cl_val k : (k < 30)%nat -> fin (cl k) /\ B2R (cl k) = INR k + 1.
Proof. intros H. destruct (whole (Z.of_nat k + 1) ltac:(lia)) as [A B]. split; [exact A|]. unfold cl. rewrite B, plus_IZR, INR_IZR_INZ. reflexivity. Qed.
Lemma quoted : fbars hi lo cl 20.
Proof. intros k Hk. destruct (hi_val k ltac:(lia)) as [A ->], (lo_val k ltac:(lia)) as [B ->], (cl_val k ltac:(lia)) as [C ->]. repeat split; auto; lra. Qed.
Lemma quoted_hl k : (k < 20)%nat -> Bltb (hi k) (lo k) = false.
Proof.
  intros Hk. destruct (hi_val k ltac:(lia)) as [A A'], (lo_val k ltac:(lia)) as [B B']. rewrite (Bltb_correct 53 1024 _ _ A B). apply Rlt_bool_false. rewrite A', B'. lra.
Qed.
Lemma small_index k : (k < 20)%nat -> 0 <= INR k < 20.
Proof. intros H. split; [apply pos_INR|]. replace 20 with (INR 20) by (cbn; lra). now apply lt_INR. Qed.
Lemma big_power e : (5 <= e)%Z -> 32 <= bpow radix2 e.
Proof. intros H. change 32 with (bpow radix2 5). now apply bpow_le. Qed.
Lemma hi_small k e : (k < 20)%nat -> (5 <= e)%Z -> Rabs (B2R (hi k)) < bpow radix2 e.
Proof. intros H He. rewrite (proj2 (hi_val k ltac:(lia))). pose proof (small_index k H). pose proof (big_power e He). rewrite Rabs_pos_eq; lra. Qed.
Lemma lo_small k e : (k < 20)%nat -> (5 <= e)%Z -> Rabs (B2R (lo k)) < bpow radix2 e.
Proof. intros H He. rewrite (proj2 (lo_val k ltac:(lia))). pose proof (small_index k H). pose proof (big_power e He). rewrite Rabs_pos_eq; lra. Qed.
Lemma cl_nn k : (k < 20)%nat -> nn (cl k).
Proof.
  intros Hk. destruct (cl_val k ltac:(lia)) as [A A']. unfold nn. rewrite (Bltb_correct 53 1024 _ (B754_zero false) A eq_refl). apply Rlt_bool_false. rewrite A'. cbn. pose proof (pos_INR k). lra.
Qed.
Lemma in_cl v : In v (series cl 20) -> exists k, (k < 20)%nat /\ v = cl k.
Proof. intros H. apply in_map_iff in H as (k & <- & Hk). apply in_seq in Hk. exists k. split; [lia|easy]. Qed.
Lemma cl_unit k : (k < 20)%nat -> inr 0 100 (cl k).
Proof. intros Hk. unfold inr, cl. rewrite xval_of_Z by lia. rewrite plus_IZR, <- INR_IZR_INZ. pose proof (small_index k Hk). lra. Qed.
Lemma got {A} (r : result (list A)) bad n (P : list A -> Prop) : outcome r bad n -> ~ bad -> (forall o, r = Ok o -> P o) -> exists o, r = Ok o /\ P o.
Proof. intros H Hb HP. destruct (ok_of_outcome _ _ _ H Hb) as [o E]. exists o. auto. Qed.

(** ** Signs and ordered bands *)
Section AnyLibm.
  Context (m : libm).
  Example variance_f64_nonneg_case := got _ _ _ _ (@variance_outcome f64 (B64 m) (series cl 20) 5) ltac:(lia) (fun o => variance_f64_nonneg m (series cl 20) 5 o).
  Example std_dev_f64_nonneg_case := got _ _ _ _ (@std_dev_outcome f64 (B64 m) (series cl 20) 5) ltac:(lia) (fun o => std_dev_f64_nonneg m (series cl 20) 5 o).
  Example mad_f64_nonneg_case := got _ _ _ _ (@mad_outcome f64 (B64 m) (series cl 20) 5) ltac:(lia) (fun o => mad_f64_nonneg m (series cl 20) 5 o).
  Example tr_bar_f64_case := tr_bar_f64 m (hi 3) (lo 3) (cl 9) (quoted_hl 3 ltac:(lia)).
  Example tr_f64_case := tr_f64 m hi lo cl 20 ltac:(lia) quoted_hl.
  Lemma closes_nn x : In x (series cl 20) -> nn x.
  Proof. intros H. destruct (in_cl x H) as (k & Hk & ->). now apply cl_nn. Qed.
  Example wilder_f64_nonneg_case := got _ _ _ _ (@wilder_outcome f64 (B64 m) (series cl 20) 5) ltac:(rewrite length_series; lia)
    (fun o E => wilder_f64_nonneg m (series cl 20) 5 o E closes_nn).
  Example ewma_f64_nonneg_case := got _ _ _ _ (@ewma_outcome f64 (B64 m) (series cl 20) 5) ltac:(rewrite length_series; lia)
    (fun o E => ewma_f64_nonneg m (series cl 20) 5 o E ltac:(lia) closes_nn).
  Lemma twenty : bars3 (series hi 20) (series lo 20) (series cl 20) = 20%nat.
  Proof. unfold bars3. rewrite !length_series. reflexivity. Qed.
  Example atr_f64_nonneg_case := got _ _ _ _ (@atr_outcome f64 (B64 m) (series hi 20) (series lo 20) (series cl 20) 5) ltac:(rewrite twenty; lia)
    (fun o => atr_f64_nonneg m hi lo cl 20 5 o quoted_hl).
  Example bbands_f64_ordered_case := got _ _ _ _ (@bbands_outcome f64 (B64 m) (series cl 20) 5 (Some (cl 1)) (Some SMA)) ltac:(cbn; lia)
    (fun o E => bbands_f64_ordered m (series cl 20) 5 (Some (cl 1)) (Some SMA) o E ltac:(intros d [= <-]; apply cl_nn; lia)).
  Example keltner_f64_ordered_case := got _ _ _ _ (@keltner_outcome f64 (B64 m) (series hi 20) (series lo 20) (series cl 20) 5) ltac:(rewrite twenty; lia)
    (fun o => keltner_f64_ordered m hi lo cl 20 5 o quoted_hl).
  Example starc_f64_ordered_case := got _ _ _ _ (@starc_outcome f64 (B64 m) (series hi 20) (series lo 20) (series cl 20) 5 3 None) ltac:(rewrite twenty; lia)
    (fun o => starc_f64_ordered m hi lo cl 20 5 3 None o quoted_hl ltac:(discriminate)).

  (** ** Ranges *)
  Example wpr_f64_range_case := wpr_f64_range m hi lo cl 20 5 ltac:(lia) ltac:(lia) quoted.
  Example psych_f64_range_case := psych_f64_range m cl 20 5 ltac:(lia) ltac:(lia).
  Example bal_power_f64_range_case := bal_power_f64_range m cl hi lo cl 20 5 ltac:(lia) ltac:(lia) quoted quoted.
  Example aroon_f64_range_case := aroon_f64_range m (series hi 20) (series lo 20) 5 ltac:(lia) ltac:(lia).
  Lemma rep_whole z : (Z.abs z <= 2 ^ 53)%Z -> rep (IZR z).
  Proof.
    intros H. destruct (whole z H) as [A B]. rewrite <- B. split.
    - apply round_generic; [apply valid_rnd_N|]. apply generic_format_B2R.
    - apply abs_B2R_lt_emax.
  Qed.
  Lemma rep_hundred k : (k <= 5)%nat -> rep (0 * INR k) /\ rep (100 * INR k).
  Proof.
    intros H. rewrite Rmult_0_l, INR_IZR_INZ. rewrite <- mult_IZR. split; apply rep_whole; lia.
  Qed.
  Example wilder_f64_within_case := got _ _ _ _ (@wilder_outcome f64 (B64 m) (series cl 20) 5) ltac:(rewrite length_series; lia)
    (fun o E => wilder_f64_within m 0 100 (series cl 20) 5 o E ltac:(lia) rep_hundred
       ltac:(intros x Hx; destruct (in_cl x Hx) as (k & Hk & ->); now apply cl_unit)).
  Lemma ones_unit x : In x (series (fun k => b64_of_Z (if Nat.even k then 1 else -1)) 20) -> inr (-1) 1 x.
  Proof.
    intros H. apply in_map_iff in H as (k & <- & _). unfold inr. rewrite xval_of_Z; destruct (Nat.even k); cbn; try lia; lra.
  Qed.
  Example ewma_f64_unit_case := got _ _ _ _ (@ewma_outcome f64 (B64 m) (series (fun k => b64_of_Z (if Nat.even k then 1 else -1)) 20) 5) ltac:(rewrite length_series; lia)
    (fun o E => ewma_f64_unit m (series (fun k => b64_of_Z (if Nat.even k then 1 else -1)) 20) 5 o E ltac:(lia) ones_unit).
  Example rsi_f64_range_case := got _ _ _ _ (@rsi_outcome f64 (B64 m) (series cl 20) 5) ltac:(rewrite length_series; lia) (fun o => rsi_f64_range m (series cl 20) 5 o).
  Lemma cl_950 k : (k < 20)%nat -> fin (cl k) /\ Rabs (B2R (cl k)) <= B950.
  Proof.
    intros H. destruct (cl_val k ltac:(lia)) as [A B]. split; [exact A|]. rewrite B. pose proof (small_index k H). pose proof (big_power 950 ltac:(lia)). unfold B950. rewrite Rabs_pos_eq; lra.
  Qed.
  Example rsi_f64_bounded_case := rsi_f64_bounded m cl 20 5 ltac:(lia) ltac:(lia) cl_950.
  Example ultimate_f64_range_case := ultimate_f64_range m hi lo cl 20 3 5 7 ltac:(lia) ltac:(lia) ltac:(lia) ltac:(lia) quoted.
  Example stochastic_f64_range_case := stochastic_f64_range m hi lo cl 20 5 ltac:(lia) ltac:(lia) quoted
    ltac:(intros k Hk; split; apply Rlt_le; [apply hi_small|apply lo_small]; lia).
  Example adx_f64_range_case := got _ _ _ _ (@adx_outcome f64 (B64 m) (series hi 20) (series lo 20) (series cl 20) 5 3) ltac:(rewrite twenty; lia)
    (fun o => adx_f64_range m hi lo cl 20 5 3 o ltac:(lia) ltac:(lia) ltac:(lia) quoted).
  Lemma hi_nn k : (k < 20)%nat -> nn (hi k).
  Proof. intros Hk. destruct (hi_val k ltac:(lia)) as [A A']. unfold nn. rewrite (Bltb_correct 53 1024 _ (B754_zero false) A eq_refl). apply Rlt_bool_false. rewrite A'. cbn. pose proof (pos_INR k). lra. Qed.
  Lemma lo_nn k : (k < 20)%nat -> nn (lo k).
  Proof. intros Hk. destruct (lo_val k ltac:(lia)) as [A A']. unfold nn. rewrite (Bltb_correct 53 1024 _ (B754_zero false) A eq_refl). apply Rlt_bool_false. rewrite A'. cbn. pose proof (pos_INR k). lra. Qed.
  Example wilder_f64_ordered_case : exists p q, @wilder f64 (B64 m) (map lo (seq 0 20)) 5 = Ok p /\ @wilder f64 (B64 m) (map hi (seq 0 20)) 5 = Ok q /\ forall x, In x (combine p q) -> lee (fst x) (snd x).
  Proof.
    apply both_ok.
    - eapply ok_of_outcome; [apply wilder_outcome|]. rewrite map_length, seq_length. lia.
    - eapply ok_of_outcome; [apply wilder_outcome|]. rewrite map_length, seq_length. lia.
    - intros p q E1 E2. apply (wilder_f64_ordered m lo hi (seq 0 20) 5 p q ltac:(lia) E1 E2). intros k Hk. apply in_seq in Hk.
      repeat split; [apply lo_nn|apply hi_nn|apply quoted_hl]; lia.
  Qed.

  (** ** Rounding and exactness *)
  Example donchian_f64_ordered_case := got _ _ _ _ (@donchian_outcome f64 (B64 m) (series hi 20) (series lo 20) 5) ltac:(lia)
    (fun o => donchian_f64_ordered m hi lo 20 5 o ltac:(lia)
      ltac:(intros k Hk; destruct (quoted k Hk) as (A & B & _ & C); repeat split; auto; [lra|apply hi_small; lia|apply lo_small; lia])).
  Lemma obv_steps (c : nat -> R) (z : nat -> Z) b i : (0 <= b)%Z -> (forall k, (k <= i)%nat -> Z.abs (z k) <= b)%Z -> (Z.abs (obv_int c z i) <= b * Z.of_nat i)%Z.
  Proof.
    intros Hb. induction i as [|i IH]; intros H; [cbn; lia|]. cbn [obv_int]. specialize (IH ltac:(intros k Hk; apply H; lia)). pose proof (H (S i) ltac:(lia)). destruct Rle_dec; nia.
  Qed.
  Example obv_f64_exact_case := obv_f64_exact m cl hi (fun k => Z.of_nat k + 2)%Z 20
    ltac:(intros k Hk; destruct (cl_val k ltac:(lia)) as [A ->]; pose proof (pos_INR k); split; [exact A|lra])
    ltac:(intros k Hk; destruct (whole (Z.of_nat k + 2) ltac:(lia)) as [A B]; repeat split; [exact A|exact B|lia])
    ltac:(intros i Hi; pose proof (obv_steps (fun k => B2R (cl k)) (fun k => Z.of_nat k + 2)%Z 22 i ltac:(lia) ltac:(intros k Hk; lia)); lia).
  Lemma three_asum : asum [cl 1; cl 2; cl 3] = 9.
  Proof. unfold asum. cbn [map Rsum]. rewrite !(fun k H => proj2 (cl_val k H)) by lia. rewrite !Rabs_pos_eq by (cbn; lra). cbn; lra. Qed.
  Lemma three_lim k : (k <= 3)%nat -> (1 + uu) ^ k * 9 < lim.
  Proof.
    intros Hk. assert (uu <= 1) by (apply (bpow_le radix2 (-53) 0); lia). pose proof uu_pos.
    apply Rle_lt_trans with ((1 + 1) ^ 3 * 9).
    - apply Rmult_le_compat_r; [lra|]. apply Rle_trans with ((1 + 1) ^ k); [apply pow_incr; lra|apply Rle_pow; [lra|lia]].
    - apply Rlt_le_trans with (bpow radix2 7); [cbn; lra|]. apply bpow_le. lia.
  Qed.
  Lemma three_fin x : In x [cl 1; cl 2; cl 3] -> fin x.
  Proof. intros [<-|[<-|[<-|[]]]]; apply cl_val; lia. Qed.
  Example fsum_err_case := fsum_err m [cl 1; cl 2; cl 3] three_fin ltac:(rewrite three_asum; apply three_lim; cbn; lia).
  Example sma_f64_error_case := got _ _ _ _ (@sma_outcome f64 (B64 m) (series cl 20) 3) ltac:(lia)
    (fun o E => sma_f64_error m (series cl 20) 3 o 3 E ltac:(lia) ltac:(lia) ltac:(rewrite length_series; lia) three_fin
      ltac:(change (win 3 (series cl 20) 3) with [cl 1; cl 2; cl 3]; rewrite three_asum; apply three_lim; lia)).
  Example quantile_f64_total_case := quantile_f64_total m (series cl 20) 5 (cl 30) ltac:(lia) ltac:(lia).
  Example quantile_f64_outcome_case := quantile_f64_outcome m (series cl 20) 5 (cl 30) ltac:(lia).
  Example median_f64_outcome_case := median_f64_outcome m (series cl 20) 5 ltac:(lia).
  Example rank_f64_outcome_case := rank_f64_outcome m (@stable_argsort f64 (B64 m)) (series cl 20) None (fun l H => @stable_argsort_sorts f64 (B64 m) l H)
    (fun x => eq_refl) eq_refl ltac:(discriminate).
  Example macd_f64_swap_case : exists o1 o2, @macd f64 (B64 m) (series cl 20) 3 7 = Ok o1 /\ @macd f64 (B64 m) (series cl 20) 7 3 = Ok o2 /\
    forall i x y, nth_error o1 i = Some x -> nth_error o2 i = Some y -> xval y = xneg (xval x).
  Proof.
    apply both_ok.
    - eapply ok_of_outcome; [apply macd_outcome|]. rewrite length_series. lia.
    - eapply ok_of_outcome; [apply macd_outcome|]. rewrite length_series. lia.
    - intros o1 o2 E1 E2 i x y. apply (macd_f64_swap m (series cl 20) 3 7 o1 o2 i x y E1 E2).
  Qed.
End AnyLibm.

(** ** A platform whose logarithm is correctly rounded where it matters *)
Definition ln_table (x : f64) : f64 :=
  if Beqb x (int 1) then int 0 else if Beqb x (dec 1 2) then dec (-6931471805599453) 10000000000000000
  else if Beqb x (dec 1 3) then dec (-10986122886681098) 10000000000000000 else x.
Definition platform : libm := Build_libm ln_table (fun x => x) (fun x => x) (fun x => x) (fun x => x) (fun x => x) (fun x _ => x) true.
Lemma ln_1 : ln_table (int 1) = int 0.
Proof. unfold ln_table. now replace (Beqb (int 1) (int 1)) with true by (vm_compute; reflexivity). Qed.
Lemma ln_2 : ln_table (dec 1 2) = dec (-6931471805599453) 10000000000000000.
Proof. unfold ln_table. replace (Beqb (dec 1 2) (int 1)) with false by (vm_compute; reflexivity). now replace (Beqb (dec 1 2) (dec 1 2)) with true by (vm_compute; reflexivity). Qed.
Lemma ln_3 : ln_table (dec 1 3) = dec (-10986122886681098) 10000000000000000.
Proof.
  unfold ln_table. replace (Beqb (dec 1 3) (int 1)) with false by (vm_compute; reflexivity). replace (Beqb (dec 1 3) (dec 1 2)) with false by (vm_compute; reflexivity).
  now replace (Beqb (dec 1 3) (dec 1 3)) with true by (vm_compute; reflexivity).
Qed.
Example sample_entropy_f64_repaints_case := sample_entropy_f64_repaints platform
  ltac:(change (ln_table (int 1) <> ln_table (dec 1 3)); rewrite ln_1, ln_3; intros E; apply (f_equal (fun x => Beqb x x && Beqb x (int 0))%bool) in E; vm_compute in E; discriminate).
Example approx_entropy_f64_repaints_case := approx_entropy_f64_repaints platform ln_1 ln_2 ln_3.

(** A NaN on bar 8 of twenty. *)
Example mama_f64_outcome_small_case := mama_f64_outcome_small platform (fun k => if Nat.eqb k 8 then B754_nan else cl k) 20 None None (fun x H => H) eq_refl
  ltac:(intros k Hk Fk; cbv beta in *; destruct (Nat.eqb k 8); [now apply Bool.diff_false_true in Fk|]; destruct (cl_val k ltac:(lia)) as [_ ->]; pose proof (small_index k Hk); pose proof (big_power 480 ltac:(lia)); rewrite Rabs_pos_eq; lra).
(** One price of 2^1023 on bar 8. *)
Definition huge : f64 := Bldexp mode_NE (b64_of_Z 1) 1023.
Lemma huge_val : fin huge /\ bpow radix2 1022 <= Rabs (B2R huge).
Proof.
  destruct (whole 1 ltac:(lia)) as [A B]. pose proof (Bldexp_correct 53 1024 _ _ mode_NE (b64_of_Z 1) 1023) as H. rewrite B, Rmult_1_l in H.
  rewrite round_generic in H; [|apply valid_rnd_N|apply generic_format_bpow; cbv; discriminate].
  rewrite Rlt_bool_true in H by (rewrite Rabs_pos_eq by apply bpow_ge_0; apply bpow_lt; lia). destruct H as (V & F & _). rewrite A in F. split; [exact F|].
  unfold huge. rewrite V, Rabs_pos_eq by apply bpow_ge_0. apply bpow_le. lia.
Qed.
Example mama_f64_huge_panics_case := mama_f64_huge_panics platform (fun k => if Nat.eqb k 8 then huge else cl k) 20 None None 8 eq_refl ltac:(lia) ltac:(lia) (proj1 huge_val) (proj2 huge_val).

(** ** Errors of the recursive averages: bars up to 32, windows 3 and 7 *)
Lemma sized_32 : sized 32 /\ 32 <= bpow radix2 890.
Proof.
  unfold sized. change 32 with (bpow radix2 5). repeat split; apply bpow_le; lia.
Qed.
Lemma cl_32 k : (k < 20)%nat -> fin (cl k) /\ Rabs (B2R (cl k)) <= 32.
Proof. intros H. destruct (cl_val k ltac:(lia)) as [A ->]. pose proof (small_index k H). split; [exact A|]. rewrite Rabs_pos_eq; lra. Qed.
Example wilder_f64_error_case m := wilder_f64_error m cl 20 7 32 ltac:(lia) ltac:(unfold small_window; lia) (proj1 sized_32) cl_32.
Example ewma_f64_error_case m := ewma_f64_error m cl 20 7 32 ltac:(lia) ltac:(unfold small_window; lia) (proj1 sized_32) cl_32.
Example macd_f64_error_case m := macd_f64_error m cl 20 3 7 32 ltac:(lia) ltac:(lia) ltac:(unfold small_window; lia) ltac:(unfold small_window; lia) (proj1 sized_32) cl_32.
Example dema_f64_error_case m := dema_f64_error m cl 20 7 32 ltac:(lia) ltac:(lia) ltac:(unfold small_window; lia) (proj1 sized_32) (proj2 sized_32) cl_32.
Example tema_f64_error_case m := tema_f64_error m cl 20 7 32 ltac:(lia) ltac:(lia) ltac:(unfold small_window; lia) (proj1 sized_32) (proj2 sized_32) cl_32.
Example atr_f64_error_case m := atr_f64_error m hi lo cl 20 7 32 ltac:(lia) ltac:(unfold small_window; lia) (proj1 sized_32) (proj2 sized_32)
  ltac:(intros k Hk; destruct (hi_val k ltac:(lia)) as [A ->], (lo_val k ltac:(lia)) as [B ->], (cl_val k ltac:(lia)) as [C ->]; pose proof (small_index k Hk); rewrite !Rabs_pos_eq by lra; repeat split; auto; lra).
