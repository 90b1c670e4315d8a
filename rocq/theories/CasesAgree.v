(** * The identities of [Agree] and [AgreeReal] applied to a rising market. *)
From Coq Require Import Reals Lra Lia.
From Verif Require Import Base Num XReal NaN Spec RSpec XRFacts Bars VolatReal MomReal Case Agree AgreeReal.
From Verif Require Import Smooth Volatility Volume Trend Momentum Distribution.
Local Unset Implicit Arguments.
Local Open Scope R_scope.

Ltac hyp := first [reflexivity | cbn; lia | lra].
Example zscore_agrees_case := @zscore_agrees xr XR _ (ramp 9) 4%nat ltac:(hyp).
Example cci_agrees_case := @cci_agrees xr XR _ (ramp 9) (ramp 9) (ramp 9) 4%nat ltac:(hyp).
Example donchian_agrees_case : exists o, ichimoku (xseries highs 9) (xseries lows 9) (xseries closes 9) 3 4 5 2 = Ok o /\ nth_error o 6 <> None.
Proof. eexists. split; [reflexivity|]. discriminate. Qed.
Example lrf_agrees_case := lrf_agrees (quotes 9) 4 5 ltac:(hyp) ltac:(easy) ltac:(hyp).
Example quantile_agrees_case := quantile_agrees highs lows 9 4 5 ltac:(lia) ltac:(easy) ltac:(lia).
Lemma high_low w i : (0 < w <= i + 1)%nat -> highest w highs i - lowest w lows i <> 0.
Proof.
  intros H. pose proof (proj2 (highest_spec w highs i H) i ltac:(lia) ltac:(lia)). pose proof (proj2 (lowest_spec w lows i H) i ltac:(lia) ltac:(lia)).
  unfold highs, lows in *. lra.
Qed.
Example wpr_agrees_case := wpr_agrees highs lows closes 9 4 5 ltac:(lia) ltac:(lia) ltac:(intros; unfold highs, lows; lra) ltac:(intros; apply high_low; lia).
Example ppo_agrees_case : exists x y, at_bar (macd (xseries closes 9) 2 4) 5 x /\ at_bar (ewma (xseries closes 9) 4) 5 y /\ at_bar (ppo (xseries closes 9) 2 4) 5 (100 * x / y).
Proof.
  apply ppo_agrees; try lia. intros i Hi. assert (10 <= ewma_from 4 0 closes i <= 22); [|lra].
  apply ewma_from_bounds; try lia. intros j Hj. split; [apply closes_ge|]. pose proof (closes_le j 9 ltac:(lia)). cbn in *. lra.
Qed.
Example vwma_agrees_case := vwma_agrees closes 9 4 5 5 ltac:(lia) ltac:(lra) ltac:(lia).
Example t3_agrees_case := t3_agrees (quotes 9) 2 7 ltac:(lia) ltac:(hyp).
Lemma some_bound (f : nat -> R) i : exists m, forall j, (j <= i)%nat -> f j <= m.
Proof.
  induction i as [|i [m H]]; [exists (f 0%nat); intros [|]; [lra|lia]|]. exists (Rmax m (f (S i))). intros j Hj.
  destruct (Nat.eq_dec j (S i)) as [->|]; [apply Rmax_r|]. eapply Rle_trans; [apply H; lia|apply Rmax_l].
Qed.
Lemma ewma_from_ge w k f i lo : (0 < w)%nat -> (forall j, lo <= f j) -> lo <= ewma_from w k f i.
Proof.
  intros Hw H. set (m := Nat.max i (k + w - 1)). replace (ewma_from w k f i) with (ewma_from w k f m).
  - destruct (some_bound f m) as [hi B]. apply (ewma_from_bounds w k f m lo hi); [easy|lia|]. intros j Hj. split; [apply H|apply B; lia].
  - unfold ewma_from. f_equal. f_equal. f_equal. lia.
Qed.
Example trix_agrees_case : exists x y, at_bar (t3 (xseries closes 9) 2 (Some (Fin 0))) (8 - 1) x /\ at_bar (t3 (xseries closes 9) 2 (Some (Fin 0))) 8 y /\
  at_bar (trix (xseries closes 9) 2) 8 (100 * (y - x) / x).
Proof.
  apply trix_agrees; try lia. intros i Hi. apply Rgt_not_eq. apply Rlt_le_trans with 10; [lra|].
  do 3 (apply ewma_from_ge; [lia|intros]). apply closes_ge.
Qed.
Example pvi_agrees_case := pvi_agrees closes volumes 9 5 ltac:(intros k _; pose proof (closes_ge k); lra)
  ltac:(intros k _; unfold volumes; rewrite S_INR; lra) ltac:(lia).
Example tvi_agrees_case := tvi_agrees closes volumes 9 ltac:(lia) ltac:(intros k _; apply closes_ne).
Example ewma_one_case := ewma_one (quotes 9) ltac:(discriminate).
Example dema_one_case := dema_one (quotes 9) ltac:(discriminate).
Example tema_one_case := tema_one (quotes 9) ltac:(discriminate).
Example t3_one_case := t3_one (quotes 9) ltac:(discriminate) None.
Example zlma_one_case := zlma_one (quotes 9) ltac:(discriminate).
