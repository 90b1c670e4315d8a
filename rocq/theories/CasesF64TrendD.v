(** * The theorems of [F64TrendD] applied to the prices of [CasesF64Trend]. *)
From Coq Require Import Reals Lra Lia List ZArith.
From Flocq Require Import IEEE754.BinarySingleNaN.
From Verif Require Import Base Num XReal B64 F64 Spec Bars Trend TrendShape Volume F64Trend CasesF64Trend F64TrendB F64TrendC CasesF64TrendC F64TrendD.
Import ListNotations.
Local Unset Implicit Arguments.

Example obv_f64_trend_case m : exists o, @obv f64 (B64 m) (series stair 8) (series slide 8) = Ok o /\
  aligned o 8 1 B754_nan (fun i => fold_left (Bplus mode_NE) (map slide (seq 1 i)) (B754_zero false)).
Proof. destruct (obv_f64_trend m stair slide 8) as (o & E & A). exists o. split; [exact E|]. exact (A stair_up). Qed.
Lemma stair_fin k : (k < 8)%nat -> is_finite (stair k) = true.
Proof. intros Hk. do 8 (destruct k as [|k]; [vm_compute; reflexivity|]). lia. Qed.
Example ulcer_f64_trend_case m : exists o, @ulcer f64 (B64 m) (series stair 8) 3 = Ok o /\ Forall zero_or_nan o.
Proof.
  destruct (@ulcer_outcome f64 (B64 m) (series stair 8) 3) as [[Z _]|(_ & o & E & _)]; [exfalso; rewrite ?length_series in Z; lia|].
  exists o. split; [exact E|]. exact (ulcer_f64_trend m stair 8 3 o stair_fin stair_climbing E).
Qed.
Example ulcer_stair_prints m : match @ulcer f64 (B64 m) (series stair 8) 3 with Ok o => is_finite (nth 6 o B754_nan) = true | Panic => False end.
Proof. destruct m as [? ? ? ? ? ? ? ns]. destruct ns; vm_compute; reflexivity. Qed.
