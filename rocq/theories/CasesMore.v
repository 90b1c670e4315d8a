(** * The hypotheses of the theorems of [F64Win] and [F64Var] can be met. *)
From Coq Require Import Reals Lra Lia ZArith List.
From Flocq Require Import Core IEEE754.BinarySingleNaN.
From Verif Require Import Spec BaseFacts XReal RSpec Bars B64 F64 F64Err F64Rec F64Win F64Var CasesF64.
Import ListNotations.
Local Unset Implicit Arguments.
Local Open Scope R_scope.

Lemma closes_32 x : In x (series cl 20) -> fin x /\ Rabs (B2R x) <= 32.
Proof. unfold series. intros H. apply in_map_iff in H as (k & <- & Hk). apply in_seq in Hk. apply cl_32. lia. Qed.
Lemma sized_1024 : sized (32 * 32).
Proof. replace (32 * 32) with (bpow radix2 10) by (simpl; lra). split; apply bpow_le; lia. Qed.
Lemma below_440 : 32 <= bpow radix2 440. Proof. change 32 with (bpow radix2 5). apply bpow_le. lia. Qed.
Example wma_f64_error_case m := wma_f64_error m (series cl 20) 7 32 ltac:(lia) ltac:(cbn; lia) (proj1 sized_32) closes_32.
Example pwma_f64_error_case m := pwma_f64_error m (series cl 20) 7 32 ltac:(lia) (proj1 sized_32) closes_32.
Example fwma_f64_error_case m := fwma_f64_error m (series cl 20) 7 32 ltac:(lia) (proj1 sized_32) closes_32.
Example sma_f64_near_case m := sma_f64_near m (series cl 20) 7 32 ltac:(lia) ltac:(unfold small_window; lia) (proj1 sized_32).
Example trima_f64_error_case m := trima_f64_error m (series cl 20) 7 32 ltac:(lia) ltac:(unfold small_window; lia) (proj1 sized_32) (proj2 sized_32) closes_32.
Example variance_f64_error_case m := variance_f64_error m (series cl 20) 7 32 ltac:(lia) ltac:(unfold small_window; lia) (proj1 sized_32) sized_1024 below_440 closes_32.
Example std_dev_f64_error_case m := std_dev_f64_error m (series cl 20) 7 32 ltac:(lia) ltac:(unfold small_window; lia) (proj1 sized_32) sized_1024 below_440 closes_32.
