(** * The theorems of [LimitsB] applied to the bars of [CasesForget]. *)
From Coq Require Import Reals Lra Lia List.
From Verif Require Import Base Num XReal Spec RSpec Bars Smooth Volatility Momentum Trend Distribution SmoothReal MomReal VolatReal TrendReal Ranges Case Cases CasesForget Limits CasesLimits LimitsB.
Import ListNotations.
Local Unset Implicit Arguments.
Local Open Scope R_scope.

Example std_dev_limits_case := std_dev_limits (map sway (seq 0 20)) 4 10 12 _ ltac:(lia) sway_listed eq_refl.
Example mad_limits_case := mad_limits (map sway (seq 0 20)) 4 10 12 _ ltac:(lia) sway_listed eq_refl.
Example bbands_limits_case := bbands_limits sway 40 4 None 10 12 _ ltac:(lia) ltac:(cbn; lra) sway_between eq_refl.
Example donchian_limits_case := donchian_limits top low 40 4 8 14 _ ltac:(lia) ltac:(in_sway) ltac:(in_sway) eq_refl.
Example alligator_limits_case := alligator_limits sway 40 13 8 8 5 5 3 10 12 _ ltac:(lia) ltac:(lia) ltac:(lia) sway_between eq_refl.
Example gator_limits_case := gator_limits sway 40 13 8 8 5 5 3 10 12 _ ltac:(lia) ltac:(lia) ltac:(lia) sway_between eq_refl.
Example ichimoku_limits_case := ichimoku_limits top low sway 40 9 26 30 26 8 14 _ ltac:(lia) ltac:(lia) ltac:(lia) ltac:(lia) ltac:(in_sway) ltac:(in_sway) ltac:(in_sway) eq_refl.
Example ulcer_limits_case := ulcer_limits sway 40 4 10 12 _ ltac:(lia) ltac:(lia) ltac:(lra) sway_between eq_refl.
Lemma sway_open k : (k < 40)%nat -> low k <= top k.
Proof. revert k. in_sway. Qed.
Lemma top_between : between 8 14 40 top. Proof. in_sway. Qed.
Lemma low_between : between 8 14 40 low. Proof. in_sway. Qed.
Lemma mid_between : between 8 14 40 sway. Proof. in_sway. Qed.
Example atr_limits_case : exists o, atr (xseries top 40) (xseries low 40) (xseries sway 40) 4 = Ok o /\ ranged o 0 (14 - 8).
Proof.
  destruct (atr_real top low sway 40 4 ltac:(lia) sway_open) as (o & Q & _). exists o. split; [exact Q|].
  exact (atr_limits top low sway 40 4 8 14 o ltac:(lia) top_between low_between mid_between sway_open Q).
Qed.
Example keltner_limits_case := fun o => keltner_limits top low sway 40 4 8 14 o ltac:(lia) top_between low_between mid_between sway_open.
Example chandelier_limits_case := fun o => chandelier_limits top low sway 40 4 (Some 2) 8 14 o ltac:(lia) ltac:(cbn; lra) top_between low_between mid_between sway_open.
Example supertrend_limits_case := fun o => supertrend_limits top low sway 40 4 3 8 14 o ltac:(lia) ltac:(lra) top_between low_between mid_between sway_open.
Example cks_limits_case := fun o => cks_limits top low sway 40 4 3 None 8 14 o ltac:(lia) ltac:(lia) ltac:(cbn; lra) top_between low_between mid_between ltac:(pose proof max_f64_large; lra) sway_open.
Lemma closes_move i : (3 <= i < 20)%nat -> moved 3 closes i.
Proof. intros Hi. apply closes_moved. lia. Qed.
Example derivative_limits_case := derivative_limits closes 20 3 2 4 _ ltac:(lia) ltac:(lia) ltac:(lia) ltac:(lia) ltac:(lia) closes_move eq_refl.
Example qqe_limits_case : exists o, qqe (xseries closes 20) 3 2 = Ok o /\ ranged o (- 423.6) 523.6.
Proof.
  destruct (qqe_real closes 20 3 2 ltac:(lia) ltac:(lia) ltac:(lia) closes_move) as (o & t & Q & _). exists o. split; [exact Q|].
  apply (qqe_limits closes 20 3 2 o); [lia|lia|lia|exact closes_move|exact Q].
Qed.
