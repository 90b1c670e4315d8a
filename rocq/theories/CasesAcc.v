(** * CasesAcc: a market that meets the hypotheses of F64Acc, F64AccB, F64AccC and F64AccD. *)

From Coq Require Import Reals Lra Lia ZArith Sorted.
From Flocq Require Import Core IEEE754.BinarySingleNaN.
From Verif Require Import Base Num Spec BaseFacts XReal XRFacts Scale Bars B64 F64 F64Range F64Err.
From Verif Require Import Distribution Regression Correlation Smooth Volatility Trend Momentum Volume.
From Verif Require Import SmoothShape SmoothVals F64Rel F64Acc F64AccB F64AccC F64AccD.
Local Unset Implicit Arguments.
Local Open Scope R_scope.

Lemma sane_int z : (-2 ^ 20 <= z <= 2 ^ 20)%Z -> sane (b64_of_Z z) /\ B2R (b64_of_Z z) = IZR z.
Proof.
  intros H. destruct (xval_fin_inv _ _ (xval_of_Z z ltac:(lia))) as [F V]. split; [|easy]. split; [easy|]. rewrite V. destruct (Z.eq_dec z 0) as [->|N]; [now left|right].
  rewrite <- abs_IZR. split.
  - apply Rle_trans with (p2 0); [apply bpow_le; lia|]. change (p2 0) with (IZR 1). apply IZR_le. lia.
  - apply Rle_trans with (p2 20); [|apply bpow_le; lia]. change (p2 20) with (IZR (2 ^ 20)). apply IZR_le. lia.
Qed.
(** Highs of 10 to 12, lows of 7 and 8, closes of 8 to 10, volumes of 100 to 104, 40 bars. *)
Definition hi3 (k : nat) : f64 := b64_of_Z (10 + Z.of_nat k mod 3).
Definition lo2 (k : nat) : f64 := b64_of_Z (7 + Z.of_nat k mod 2).
Definition cl3 (k : nat) : f64 := b64_of_Z (8 + Z.of_nat (k + 1) mod 3).
Definition vol5 (k : nat) : f64 := b64_of_Z (100 + Z.of_nat k mod 5).
(** A forecast that is off in both directions. *)
Definition guess (k : nat) : f64 := b64_of_Z (5 + Z.of_nat k mod 7).

Lemma hi3_ok k : sane (hi3 k) /\ 10 <= B2R (hi3 k).
Proof. unfold hi3. pose proof (Z.mod_pos_bound (Z.of_nat k) 3 ltac:(lia)). destruct (sane_int (10 + Z.of_nat k mod 3) ltac:(lia)) as [S ->]. split; [easy|]. apply IZR_le. lia. Qed.
Lemma lo2_ok k : sane (lo2 k) /\ 7 <= B2R (lo2 k) <= 8.
Proof. unfold lo2. pose proof (Z.mod_pos_bound (Z.of_nat k) 2 ltac:(lia)). destruct (sane_int (7 + Z.of_nat k mod 2) ltac:(lia)) as [S ->]. split; [easy|]. split; apply IZR_le; lia. Qed.
Lemma cl3_ok k : sane (cl3 k) /\ 8 <= B2R (cl3 k) <= 10.
Proof. unfold cl3. pose proof (Z.mod_pos_bound (Z.of_nat (k + 1)) 3 ltac:(lia)). destruct (sane_int (8 + Z.of_nat (k + 1) mod 3) ltac:(lia)) as [S ->]. split; [easy|]. split; apply IZR_le; lia. Qed.
Lemma vol5_ok k : sane (vol5 k) /\ 100 <= B2R (vol5 k).
Proof. unfold vol5. pose proof (Z.mod_pos_bound (Z.of_nat k) 5 ltac:(lia)). destruct (sane_int (100 + Z.of_nat k mod 5) ltac:(lia)) as [S ->]. split; [easy|]. apply IZR_le. lia. Qed.
Lemma guess_ok k : sane (guess k) /\ 5 <= B2R (guess k).
Proof. unfold guess. pose proof (Z.mod_pos_bound (Z.of_nat k) 7 ltac:(lia)). destruct (sane_int (5 + Z.of_nat k mod 7) ltac:(lia)) as [S ->]. split; [easy|]. apply IZR_le. lia. Qed.

Lemma good_hi n : good hi3 n. Proof. intros k _. pose proof (hi3_ok k). split; [easy|lra]. Qed.
Lemma good_lo n : good lo2 n. Proof. intros k _. pose proof (lo2_ok k). split; [easy|lra]. Qed.
Lemma good_cl n : good cl3 n. Proof. intros k _. pose proof (cl3_ok k). split; [easy|lra]. Qed.
Lemma good_vol n : good vol5 n. Proof. intros k _. pose proof (vol5_ok k). split; [easy|lra]. Qed.
Lemma good_guess n : good guess n. Proof. intros k _. pose proof (guess_ok k). split; [easy|lra]. Qed.
Lemma market n : bars_ok hi3 lo2 cl3 n.
Proof. intros k _. destruct (hi3_ok k), (lo2_ok k), (cl3_ok k). split; [easy|]. split; [easy|]. split; [easy|]. lra. Qed.
Lemma ranges n : forall j, (j < n)%nat -> sane (hi3 j) /\ sane (lo2 j) /\ sane (cl3 j) /\ B2R (lo2 j) <= B2R (hi3 j).
Proof. intros k _. destruct (hi3_ok k), (lo2_ok k), (cl3_ok k). split; [easy|]. split; [easy|]. split; [easy|]. lra. Qed.
Lemma forecast n : both_sane cl3 guess n. Proof. intros k _. split; [apply cl3_ok|apply guess_ok]. Qed.

Section Cases.
  Context (m : libm).
  Notation B := (B64 m).
  Notation H := (series hi3 40). Notation L := (series lo2 40). Notation C := (series cl3 40). Notation V := (series vol5 40). Notation G := (series guess 40).
  Notation XH := (series (exactly hi3) 40). Notation XL := (series (exactly lo2) 40). Notation XC := (series (exactly cl3) 40). Notation XV := (series (exactly vol5) 40). Notation XG := (series (exactly guess) 40).
  Example sma_case : accurate 6 (@sma f64 B C 5) (@sma xr XR XC 5).
  Proof. apply (sma_f64_accurate m cl3 40 5); try lia. apply good_cl. Qed.
  Example vwma_case : accurate 12 (@vwma f64 B C V 5) (@vwma xr XR XC XV 5).
  Proof. apply (vwma_f64_accurate m cl3 vol5 40 5); try lia; [apply good_cl|apply good_vol]. Qed.
  Example wcp_case : Forall2 (close 3) (@wcp f64 B H L C) (@wcp xr XR XH XL XC).
  Proof. apply wcp_f64_accurate; [apply good_hi|apply good_lo|apply good_cl]. Qed.
  Example typical_case : accurate 9 (@typical f64 B H L C 5) (@typical xr XR XH XL XC 5).
  Proof. apply (typical_f64_accurate m hi3 lo2 cl3 40 5); try lia; [apply good_hi|apply good_lo|apply good_cl]. Qed.
  Example bw_mfi_case : Forall2 (close 3) (@bw_mfi f64 B H L V) (@bw_mfi xr XR XH XL XV).
  Proof. apply bw_mfi_f64_accurate; [|apply good_vol]. intros k Hk. destruct (ranges 40 k Hk) as (? & ? & ? & ?). easy. Qed.
  Example tr_case : accurate 1 (@tr f64 B H L C) (@tr xr XR XH XL XC).
  Proof. apply tr_f64_accurate; [lia|apply ranges]. Qed.
  Example wpr_case : accurate 4 (@wpr f64 B H L C 7) (@wpr xr XR XH XL XC 7).
  Proof. apply wpr_f64_accurate; try lia. apply market. Qed.
  Example vhf_case : accurate 10 (@vhf f64 B H L C 7) (@vhf xr XR XH XL XC 7).
  Proof. apply (vhf_f64_accurate m hi3 lo2 cl3 40 7); try lia. apply ranges. Qed.
  Example cog_case : accurate 16 (@cog f64 B C 7) (@cog xr XR XC 7).
  Proof. apply (cog_f64_accurate m cl3 40 7); try lia; [apply good_cl|]. intros k _. pose proof (cl3_ok k). lra. Qed.
  Example vwap_case : accurate 85 (@vwap f64 B H L C V (Some [10; 25; 40]%nat)) (@vwap xr XR XH XL XC XV (Some [10; 25; 40]%nat)).
  Proof.
    apply (vwap_f64_accurate m hi3 lo2 cl3 vol5 40); [easy| |lia|apply good_hi|apply good_lo|apply good_cl|apply good_vol]. cbn. repeat constructor.
  Qed.
  Example stochastic_case : accurate2 8 12 (@stochastic f64 B H L C 7) (@stochastic xr XR XH XL XC 7).
  Proof. apply stochastic_f64_accurate; try lia. apply market. Qed.
  Example kdj_case kf df kf' df' : accurate2 9 14 (res_map (map fst) (@kdj f64 B H L C 7 4 kf df)) (res_map (map fst) (@kdj xr XR XH XL XC 7 4 kf' df')).
  Proof. apply (kdj_f64_accurate m hi3 lo2 cl3 40 7 4); try lia. apply market. Qed.
  Example ultimate_case : accurate 38 (@ultimate f64 B H L C 4 7 14) (@ultimate xr XR XH XL XC 4 7 14).
  Proof. apply (ultimate_f64_accurate m hi3 lo2 cl3 40 4 7 14); try lia. apply market. Qed.
  Example vortex_case : accurate2 15 15 (@vortex f64 B H L C 7) (@vortex xr XR XH XL XC 7).
  Proof. apply (vortex_f64_accurate m hi3 lo2 cl3 40 7); try lia. apply ranges. Qed.
  Example ulcer_case : accurate 16 (@ulcer f64 B C 7) (@ulcer xr XR XC 7).
  Proof. apply (ulcer_f64_accurate m cl3 40 7); try lia. intros k _. apply cl3_ok. Qed.
  Example mse_case : Forall2 (close 44) (@mse f64 B C G) (@mse xr XR XC XG).
  Proof. apply (mse_f64_accurate m cl3 guess 40); try lia. apply forecast. Qed.
  Example rmse_case : Forall2 (close 45) (@rmse f64 B C G) (@rmse xr XR XC XG).
  Proof. apply (rmse_f64_accurate m cl3 guess 40); try lia. apply forecast. Qed.
  Example mae_case : Forall2 (close 42) (@mae f64 B C G) (@mae xr XR XC XG).
  Proof. apply (mae_f64_accurate m cl3 guess 40); try lia. apply forecast. Qed.
  Example mape_case : Forall2 (close 44) (@mape f64 B C G) (@mape xr XR XC XG).
  Proof. apply (mape_f64_accurate m cl3 guess 40); try lia. apply forecast. Qed.
  Example smape_case : Forall2 (close 46) (@smape f64 B C G) (@smape xr XR XC XG).
  Proof. apply (smape_f64_accurate m cl3 guess 40); try lia. apply forecast. Qed.
  Example rsc_case : Forall2 (close 1) (@rsc f64 B C G) (@rsc xr XR XC XG).
  Proof. apply rsc_f64_accurate; [apply good_cl|apply good_guess]. Qed.
  Example emae_case : accurate 84 (@emae f64 B C G) (@emae xr XR XC XG).
  Proof. apply (emae_f64_accurate m cl3 guess 40); try lia; [apply good_cl|apply good_guess]. Qed.
  (** The exact results compared with are numbers, not NaN: here is one. *)
  Example sma_case_exact : exists o, @sma xr XR XC 5 = Ok o /\ nth_error o 4 = Some (Fin (46 / 5)).
  Proof.
    destruct (@sma_values xr XR XC 5 ltac:(lia)) as (o & E & A & _ & W). rewrite length_series in W. exists o. split; [exact E|]. rewrite W by lia. rewrite last_bars_win by lia.
    unfold last_bars, exactly, fsum. change (seq (4 + 1 - 5) 5) with [0; 1; 2; 3; 4]%nat. cbn [map fold_left fadd XR xadd fsum0]. rewrite x_nat.
    assert (I : forall k z, (8 + Z.of_nat (k + 1) mod 3 = z)%Z -> (-2 ^ 20 <= z <= 2 ^ 20)%Z -> B2R (cl3 k) = IZR z) by (intros k z <- Hz; now apply sane_int).
    rewrite (I 0%nat 9%Z), (I 1%nat 10%Z), (I 2%nat 8%Z), (I 3%nat 9%Z), (I 4%nat 10%Z) by (reflexivity || lia). rewrite x_div by (cbn; lra). do 2 f_equal. cbn. lra.
  Qed.
End Cases.
