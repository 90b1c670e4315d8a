(** * The theorems of [ForgetC] applied to the bars of [CasesForget]. *)
From Coq Require Import Reals Lra Lia List.
From Verif Require Import Base Num XReal Spec RSpec Bars Smooth Volatility Momentum Trend VolatReal TrendReal CasesForget CasesForgetB ForgetC.
Import ListNotations.
Local Unset Implicit Arguments.
Local Open Scope R_scope.

Example pgo_forgets_case := pgo_forgets top low sway 20 7 3 8 14 6 ltac:(lia) ltac:(lia) ltac:(lra) ltac:(sway).
Example tsi_forgets_case := tsi_forgets sway 20 7 3 5 2 2 ltac:(lia) ltac:(lia) ltac:(lia) ltac:(lra) sway_steps.
(** Bars that go up and down by 2. *)
Definition crest (k : nat) : R := sway k + 1.
Definition trough (k : nat) : R := sway k - 1.
Lemma sway_turns k : (0 < k)%nat -> (sway k = 10 /\ sway (k - 1) = 12) \/ (sway k = 12 /\ sway (k - 1) = 10).
Proof.
  intros Hk. destruct k as [|j]; [lia|]. replace (S j - 1)%nat with j by lia. unfold sway, up. rewrite Nat.even_succ, <- Nat.negb_even.
  destruct (Nat.even j); cbn [negb]; auto.
Qed.
Lemma sway_moves k : (0 < k < 20)%nat -> 2 <= plus_dm crest trough k + minus_dm crest trough k.
Proof.
  intros Hk. unfold plus_dm, minus_dm, crest, trough. destruct (sway_turns k ltac:(lia)) as [[-> ->]|[-> ->]].
  - rewrite (proj2 (Rltb_false _ _)), (proj2 (Rltb_true _ _)) by lra. unfold Rmax. destruct Rle_dec; lra.
  - rewrite (proj2 (Rltb_true _ _)), (proj2 (Rltb_false _ _)) by lra. unfold Rmax. destruct Rle_dec; lra.
Qed.
Example adx_forgets_case := adx_forgets crest trough sway 20 7 3 4 9 13 2 ltac:(lia) ltac:(lia) ltac:(lia) ltac:(lra)
  ltac:(intros; unfold crest, trough, sway; destruct (up _); lra) sway_moves.
Lemma sway_deviates k : (2 - 1 <= k < 20)%nat -> 1 <= sqrt (var (last_bars 2 sway k)) <= 1.
Proof.
  intros Hk. replace (var (last_bars 2 sway k)) with 1; [rewrite sqrt_1; lra|]. unfold last_bars. replace (k + 1 - 2)%nat with (k - 1)%nat by lia. cbn [seq map]. replace (S (k - 1)) with k by lia.
  destruct (sway_turns k ltac:(lia)) as [[-> ->]|[-> ->]]; unfold var, dev, mean, Rsum; cbn; lra.
Qed.
Example relative_vol_forgets_case := relative_vol_forgets sway 20 7 2 3 1 1 ltac:(lia) ltac:(lia) ltac:(lia) ltac:(lra) sway_deviates.
Example psar_forgets_never_case := psar_forgets_never None None ltac:(cbn; lra).
Example atr_stop_forgets_never_case := atr_stop_forgets_never 3 (Some 2) ltac:(lia) ltac:(cbn; lra).
