(** * The theorems of [Limits] applied to the bars of [CasesForget]. *)
From Coq Require Import Reals Lra Lia List.
From Verif Require Import Base Num XReal Spec RSpec Bars Smooth Volatility Momentum Trend SmoothReal Ranges CasesForget Limits.
Import ListNotations.
Local Unset Implicit Arguments.
Local Open Scope R_scope.

Ltac in_sway := intros k Hk; unfold sway, first, top, low; destruct (up k); lra.
Lemma sway_between : between 10 12 40 sway.
Proof. in_sway. Qed.
Lemma sway_listed x : In x (map sway (seq 0 20)) -> 10 <= x <= 12.
Proof. intros H. apply in_map_iff in H. destruct H as (k & <- & _). unfold sway. destruct (up k); lra. Qed.
Example roc_limits_case := roc_limits sway 40 3 10 12 _ ltac:(lia) ltac:(lra) sway_between eq_refl.
Example ppo_limits_case := ppo_limits sway 40 3 5 10 12 _ ltac:(lia) ltac:(lia) ltac:(lra) sway_between eq_refl.
Example disparity_limits_case := disparity_limits sway 40 3 10 12 _ ltac:(lia) ltac:(lra) sway_between eq_refl.
Example coppock_limits_case := coppock_limits sway 40 3 4 6 10 12 _ ltac:(lia) ltac:(lia) ltac:(lia) ltac:(lra) sway_between eq_refl.
Example pmo_limits_case := pmo_limits sway 40 3 5 10 12 _ ltac:(lia) ltac:(lia) ltac:(lia) ltac:(lra) sway_between eq_refl.
Example cvi_limits_case := cvi_limits top low 40 3 5 6 6 _ ltac:(lia) ltac:(lia) ltac:(lra) ltac:(in_sway) eq_refl.
Example trix_limits_case := trix_limits sway 20 3 10 12 _ ltac:(lia) ltac:(lia) ltac:(lra) ltac:(in_sway) eq_refl.
Example kst_limits_case := kst_limits sway 40 10 12 _ ltac:(lia) ltac:(lra) sway_between eq_refl.
Example special_k_limits_case := special_k_limits sway 40 10 12 _ ltac:(lia) ltac:(lra) sway_between eq_refl.
Example macd_limits_case := macd_limits sway 40 3 5 10 12 _ ltac:(lia) ltac:(lia) sway_between eq_refl.
Example dpo_limits_case := dpo_limits sway 40 5 10 12 _ ltac:(lia) sway_between eq_refl.
Example qstick_limits_case := qstick_limits first sway 40 5 10 12 _ ltac:(lia) ltac:(in_sway) sway_between eq_refl.
Example elder_ray_limits_case := elder_ray_limits top low sway 40 5 8 14 _ ltac:(lia) ltac:(in_sway) ltac:(in_sway) ltac:(in_sway) eq_refl.
Example deli_limits_case := deli_limits top low 40 5 8 14 _ ltac:(lia) ltac:(lia) ltac:(in_sway) ltac:(in_sway) eq_refl.
Example dema_limits_case := dema_limits (map sway (seq 0 20)) 3 10 12 _ ltac:(lia) ltac:(cbn; lia) sway_listed eq_refl.
Example tema_limits_case := tema_limits (map sway (seq 0 20)) 3 10 12 _ ltac:(lia) ltac:(cbn; lia) sway_listed eq_refl.
Example zlma_limits_case := zlma_limits (map sway (seq 0 20)) 3 10 12 _ ltac:(lia) ltac:(cbn; lia) sway_listed eq_refl.
Example hull_limits_case : exists o, hull (map Fin (map sway (seq 0 20))) 4 = Ok o /\ Ranges.ranged o 8 14.
Proof.
  destruct (SmoothReal.hull_real (map sway (seq 0 20)) 4 ltac:(lia) ltac:(lia) ltac:(cbn; lia)) as (o & E & _). exists o. split; [exact E|].
  pose proof (hull_limits (map sway (seq 0 20)) 4 10 12 o ltac:(lia) ltac:(lia) ltac:(cbn; lia) sway_listed E) as R. replace (10 - (12 - 10)) with 8 in R by ring. replace (12 + (12 - 10)) with 14 in R by ring. exact R.
Qed.
Example heikin_ashi_limits_case := heikin_ashi_limits first top low sway 40 8 14 _ ltac:(lia) ltac:(in_sway) ltac:(in_sway) ltac:(in_sway) ltac:(in_sway) eq_refl.
