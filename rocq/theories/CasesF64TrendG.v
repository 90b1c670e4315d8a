(** * The theorems of [F64TrendG] applied to prices that climb by one on every bar. *)
From Coq Require Import Reals Lra Lia List ZArith.
From Flocq Require Import IEEE754.BinarySingleNaN.
From Verif Require Import Base Num XReal B64 F64 Spec Bars Volume F64Sign F64Trend CasesF64Trend F64TrendB F64TrendC F64TrendD F64TrendE F64TrendF CasesF64TrendF F64TrendG.
Import ListNotations.
Local Unset Implicit Arguments.

Example tvi_f64_trend_case m : exists o, @tvi f64 (B64 m) (series stair 8) (series slide 8) (b64_of_Z 2) = Ok o /\
  aligned o 8 1 B754_nan (fun i => fold_left (Bplus mode_NE) (map slide (seq 1 i)) (B754_zero false)).
Proof. exact (tvi_f64_trend m stair slide (b64_of_Z 2) 8 ltac:(lia) (un_of_Z 2 ltac:(lia)) stair_no_dip). Qed.
Example pvi_f64_trend_case m := pvi_f64_trend m stair stair 50 3 40 (stair_rising 50 ltac:(lia)) ltac:(lia) ltac:(lia).
Example nvi_f64_trend_case m := nvi_f64_trend m stair slide 50 3 40 (stair_rising 50 ltac:(lia)) ltac:(lia) ltac:(lia).
