(** * The theorems of [F64TrendB] applied to the prices of [CasesF64Trend]. *)
From Coq Require Import Reals Lra Lia List ZArith.
From Flocq Require Import IEEE754.BinarySingleNaN.
From Verif Require Import Base Num B64 F64 Spec Bars Momentum Volatility MomShape VolShape F64Trend CasesF64Trend F64TrendB.
Import ListNotations.
Local Unset Implicit Arguments.
Local Open Scope R_scope.

Ltac runs out H := destruct out as [[Z _]|(_ & o & E & _)]; [exfalso; rewrite ?length_series in Z; lia|]; exists o; split; [exact E|exact (H o E)].
Example rsi_f64_trend_case m : exists o, @rsi f64 (B64 m) (series stair 8) 3 = Ok o /\ Forall (near_or_nan 100 false) o.
Proof. runs (@rsi_outcome f64 (B64 m) (series stair 8) 3) (fun o E => proj1 (rsi_f64_trend m stair 8 3 o E) stair_no_dip). Qed.
Example rsi_f64_trend_down_case m : exists o, @rsi f64 (B64 m) (series slide 8) 3 = Ok o /\ Forall zero_or_nan o.
Proof. runs (@rsi_outcome f64 (B64 m) (series slide 8) 3) (fun o E => proj2 (rsi_f64_trend m slide 8 3 o E) slide_no_gain). Qed.
Example tsi_f64_trend_case m : exists o, @tsi f64 (B64 m) (series stair 8) 2 3 = Ok o /\ Forall (near_or_nan 100 false) o.
Proof. runs (@tsi_outcome f64 (B64 m) (series stair 8) 2 3) (fun o E => proj1 (tsi_f64_trend m stair 8 2 3 o E) stair_up). Qed.
Example tsi_f64_trend_down_case m : exists o, @tsi f64 (B64 m) (series slide 8) 2 3 = Ok o /\ Forall (near_or_nan (-100) true) o.
Proof. runs (@tsi_outcome f64 (B64 m) (series slide 8) 2 3) (fun o E => proj2 (tsi_f64_trend m slide 8 2 3 o E) slide_down). Qed.
Example relative_vol_f64_trend_case m : exists o, @relative_vol f64 (B64 m) (series stair 8) 3 2 = Ok o /\ Forall (near_or_nan 100 false) o.
Proof. runs (@relative_vol_outcome f64 (B64 m) (series stair 8) 3 2) (fun o E => proj1 (relative_vol_f64_trend m stair 8 3 2 o E) stair_up). Qed.
Example relative_vol_f64_trend_down_case m : exists o, @relative_vol f64 (B64 m) (series slide 8) 3 2 = Ok o /\ Forall zero_or_nan o.
Proof. runs (@relative_vol_outcome f64 (B64 m) (series slide 8) 3 2) (fun o E => proj2 (relative_vol_f64_trend m slide 8 3 2 o E) slide_down). Qed.

(** On these prices the printed values are numbers. *)
Example rsi_stair_prints m : match @rsi f64 (B64 m) (series stair 8) 3 with Ok o => B2SF (nth 5 o B754_nan) = B2SF (b64_of_Z 100) | Panic => False end.
Proof. destruct m as [? ? ? ? ? ? ? ns]. destruct ns; vm_compute; reflexivity. Qed.
Example tsi_slide_prints m : match @tsi f64 (B64 m) (series slide 8) 2 3 with Ok o => is_finite (nth 6 o B754_nan) = true | Panic => False end.
Proof. destruct m as [? ? ? ? ? ? ? ns]. destruct ns; vm_compute; reflexivity. Qed.
