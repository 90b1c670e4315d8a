(** * The theorems of [Stable] applied to twenty bars of prices that rise and fall,
      of which the second run sees each close a hundredth higher or lower. *)
From Coq Require Import Reals Lra Lia List.
From Verif Require Import Base Num XReal Spec RSpec Bars Smooth Volume Volatility Momentum Trend Distribution Forget CasesForget Stable.
Import ListNotations.
Local Unset Implicit Arguments.
Local Open Scope R_scope.

Definition sway' (k : nat) : R := if up k then 10 - 1 / 100 else 12 + 1 / 100.
Definition first' (k : nat) : R := if up k then 12 + 1 / 100 else 10.
Definition top' (k : nat) : R := if up k then 14 else 14 - 1 / 100.
Definition low' (k : nat) : R := 8 + 1 / 100.
Lemma near : close (1 / 100) 20 sway sway'.
Proof. intros k _. unfold sway, sway'. destruct (up k); unfold Rabs; destruct Rcase_abs; lra. Qed.
Lemma near_first : close (1 / 100) 20 first first'.
Proof. intros k _. unfold first, first'. destruct (up k); unfold Rabs; destruct Rcase_abs; lra. Qed.
Lemma near_top : close (1 / 100) 20 top top'.
Proof. intros k _. unfold top, top'. destruct (up k); unfold Rabs; destruct Rcase_abs; lra. Qed.
Lemma near_low : close (1 / 100) 20 low low'.
Proof. intros k _. unfold low, low'. unfold Rabs; destruct Rcase_abs; lra. Qed.
Lemma bar k : (k < 20)%nat -> low k <= top k.
Proof. sway. Qed.
Lemma bar' k : (k < 20)%nat -> low' k <= top' k.
Proof. intros. unfold low', top'. destruct (up k); lra. Qed.

Example sma_stable_case := sma_stable (1 / 100) 20 sway sway' 3 ltac:(lia) near.
Example wma_stable_case := wma_stable (1 / 100) 20 sway sway' 3 ltac:(lia) ltac:(vm_compute; easy) near.
Example pwma_stable_case := pwma_stable (1 / 100) 20 sway sway' 3 ltac:(lia) near.
Example fwma_stable_case := fwma_stable (1 / 100) 20 sway sway' 3 ltac:(lia) near.
Example trima_stable_case := trima_stable (1 / 100) 20 sway sway' 3 ltac:(lia) near.
Example hull_stable_case := hull_stable (1 / 100) 20 sway sway' 4 ltac:(lia) ltac:(vm_compute; easy) ltac:(vm_compute; lia) near.
Example ewma_stable_case := ewma_stable (1 / 100) 20 sway sway' 3 ltac:(lia) near.
Example wilder_stable_case := wilder_stable (1 / 100) 20 sway sway' 3 ltac:(lia) near.
Example dema_stable_case := dema_stable (1 / 100) 20 sway sway' 3 ltac:(lia) ltac:(lia) near.
Example tema_stable_case := tema_stable (1 / 100) 20 sway sway' 3 ltac:(lia) ltac:(lia) near.
Example t3_stable_case := t3_stable (1 / 100) 20 sway sway' 3 (Some (1 / 2)) ltac:(lia) ltac:(lia) near.
Example zlma_stable_case := zlma_stable (1 / 100) 20 sway sway' 3 ltac:(lia) ltac:(vm_compute; lia) near.
Example vwma_stable_case := vwma_stable (1 / 100) 20 sway sway' traded 3 ltac:(lia) near ltac:(sway).
Example macd_stable_case := macd_stable (1 / 100) 20 sway sway' 3 5 ltac:(lia) ltac:(lia) near.
Example qstick_stable_case := qstick_stable (1 / 100) 20 first sway first' sway' 3 ltac:(lia) near_first near.
Example atr_stable_case := atr_stable (1 / 100) 20 top low sway top' low' sway' near_top near_low near bar bar' 3 ltac:(lia).
Example keltner_stable_case := keltner_stable (1 / 100) 20 top low sway top' low' sway' near_top near_low near bar bar' 3 ltac:(lia).
Example donchian_stable_case := donchian_stable (1 / 100) 20 top low top' low' 3 ltac:(lia) near_top near_low.
Example std_dev_stable_case := std_dev_stable (1 / 100) 20 sway sway' 3 ltac:(lia) near.
Example bbands_stable_case := bbands_stable (1 / 100) 20 sway sway' 3 (Some 2) ltac:(lia) near.
Example mad_stable_case := mad_stable (1 / 100) 20 sway sway' 3 ltac:(lia) near.
Example median_stable_case := median_stable (1 / 100) 20 sway sway' 3 ltac:(lia) ltac:(vm_compute; easy) near.
Example quantile_stable_case := quantile_stable (1 / 100) 20 sway sway' 3 90 ltac:(lia) ltac:(vm_compute; easy) near.
Example typical_stable_case := typical_stable (1 / 100) 20 top low sway top' low' sway' 3 ltac:(lia) near_top near_low near.
Example elder_ray_stable_case := elder_ray_stable (1 / 100) 20 top low sway top' low' sway' 3 ltac:(lia) near_top near_low near.
Example dpo_stable_case := dpo_stable (1 / 100) 20 sway sway' 3 ltac:(lia) near.
Example chandelier_stable_case := chandelier_stable (1 / 100) 20 top low sway top' low' sway' near_top near_low near bar bar' 3 None ltac:(lia).
Example starc_stable_case := starc_stable (1 / 100) 20 top low sway top' low' sway' near_top near_low near bar bar' 3 5 None ltac:(lia) ltac:(lia).
Example rsi_jumps_case := rsi_jumps 20 3 ltac:(lia) (1 / 100) ltac:(lra).
Example cmo_jumps_case := cmo_jumps 20 3 ltac:(lia) (1 / 100) ltac:(lra).
Example psych_jumps_case := psych_jumps 20 3 ltac:(lia) (1 / 100) ltac:(lra).
Example wpr_jumps_case := wpr_jumps 20 3 ltac:(lia) (1 / 100) ltac:(lra).
Example aroon_jumps_case := aroon_jumps 20 3 ltac:(lia) (1 / 100) ltac:(lra).
Example obv_jumps_case := obv_jumps 20 traded (1 / 100) ltac:(lra).
