(** * The theorems of [ForgetB] applied to the bars of [CasesForget]. *)
From Coq Require Import Reals Lra Lia List.
From Verif Require Import Base Num XReal Spec RSpec Bars Smooth Volatility Momentum Trend CasesForget ForgetB.
Import ListNotations.
Local Unset Implicit Arguments.
Local Open Scope R_scope.

Example t3_forgets_case := t3_forgets sway 40 7 3 None 10 12 ltac:(lia) ltac:(lia) ltac:(sway).
Example keltner_forgets_case := keltner_forgets top low sway 20 7 3 8 14 ltac:(lia) ltac:(lia) ltac:(sway).
Example chandelier_forgets_case := chandelier_forgets top low sway 20 7 3 None 8 14 ltac:(lia) ltac:(lia) ltac:(sway).
Example ppo_forgets_case := ppo_forgets sway 20 7 3 5 10 12 ltac:(lia) ltac:(lia) ltac:(lra) ltac:(sway).
Example trix_forgets_case := trix_forgets sway 30 7 3 10 12 ltac:(lia) ltac:(lia) ltac:(lra) ltac:(sway).
(** Every bar moves by 2. *)
Lemma sway_steps k : (0 < k < 20)%nat -> 2 <= Rabs (sway k - sway (k - 1)) <= 2.
Proof.
  intros Hk. destruct k as [|j]; [lia|]. replace (S j - 1)%nat with j by lia. unfold sway, up. rewrite Nat.even_succ, <- Nat.negb_even.
  destruct (Nat.even j); cbn [negb]; unfold Rabs; destruct Rcase_abs; lra.
Qed.
Example rsi_forgets_case := rsi_forgets sway 20 7 3 2 2 ltac:(lia) ltac:(lia) ltac:(lra) sway_steps.
Example supertrend_forgets_never_case := supertrend_forgets_never 3 2 ltac:(lia) ltac:(lra).
