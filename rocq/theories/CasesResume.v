(** * The theorems of [Resume] applied to five bars followed by four, and to the bars of
      [CasesForget]. *)
From Coq Require Import Reals Lra Lia List.
From Verif Require Import Base Num XReal Spec RSpec Bars RegReal Regression Volume CasesForget Resume.
Import ListNotations.
Local Unset Implicit Arguments.
Local Open Scope R_scope.

Definition seen1 : list R := [1; 2; 4; 8; 5].
Definition guess1 : list R := [2; 2; 3; 9; 4].
Definition seen2 : list R := [6; 7; 3; 1].
Definition guess2 : list R := [5; 9; 3; 2].
Example mse_resume_case := mse_resume seen1 guess1 seen2 guess2 2%nat ltac:(discriminate) eq_refl ltac:(cbn; lia) ltac:(easy).
Example mae_resume_case := mae_resume seen1 guess1 seen2 guess2 2%nat ltac:(discriminate) eq_refl ltac:(cbn; lia) ltac:(easy).
Example smape_resume_case := smape_resume seen1 guess1 seen2 guess2 2%nat ltac:(discriminate) eq_refl ltac:(cbn; lia) ltac:(easy).
Example rmse_resume_case := rmse_resume seen1 guess1 seen2 guess2 2%nat ltac:(discriminate) eq_refl ltac:(cbn; lia) ltac:(easy).
Lemma none_zero x y : In (x, y) (combine seen1 guess1) \/ In (x, y) (combine seen2 guess2) -> x <> 0.
Proof. intros H. cbn in H. intuition (match goal with E : (_, _) = (_, _) |- _ => inversion E end; lra). Qed.
Example mape_resume_case := mape_resume seen1 guess1 seen2 guess2 2%nat ltac:(discriminate) eq_refl ltac:(cbn; lia) none_zero.
Example vwap_resume_case := vwap_resume top low sway traded 20%nat 7%nat 5%nat ltac:(lia) ltac:(lia) ltac:(sway).
Example pooled_dilutes_case := pooled_dilutes 5%nat 3%nat 2 1 7 ltac:(lia).
