(** * The theorems of [F64TrendE] applied to the prices of [CasesF64Trend]. *)
From Coq Require Import Reals Lra Lia List ZArith.
From Flocq Require Import IEEE754.BinarySingleNaN.
From Verif Require Import Base Num XReal B64 F64 Spec Bars Momentum Volume VolShape F64Sign F64Trend CasesF64Trend F64TrendB F64TrendC CasesF64TrendC F64TrendD CasesF64TrendD F64TrendE.
Import ListNotations.
Local Unset Implicit Arguments.

Lemma stair_pos k : (k < 8)%nat -> is_finite (stair k) = true /\ (0 < B2R (stair k))%R.
Proof.
  intros Hk. split; [now apply stair_fin|]. pose proof (xval_of_Z (Z.of_nat k + 1) ltac:(lia)) as W. apply xval_fin_inv in W as [_ W]. unfold stair. rewrite W. apply IZR_lt. lia.
Qed.
Example roc_f64_trend_case m : exists o, @roc f64 (B64 m) (series stair 8) 3 = Ok o /\ length o = 8%nat /\ forall i, (2 <= i < 8)%nat -> Bleb (B754_zero false) (nth i o B754_nan) = true.
Proof. destruct (roc_f64_trend m stair 8 3 ltac:(lia) stair_pos) as (o & E & L & A). exists o. split; [exact E|]. split; [exact L|]. intros i Hi. exact (proj1 (A i Hi) stair_climbing). Qed.
Lemma stair_unsigned k : (k < 8)%nat -> unsigned (stair k) /\ unsigned (stair k).
Proof. intros _. split; apply un_of_Z; lia. Qed.
Example vpt_f64_trend_case m : exists o, @vpt f64 (B64 m) (series stair 8) (series stair 8) = Ok o /\ forall i, (i < 8)%nat -> unsigned (nth i o B754_nan).
Proof. destruct (VolumeReal.vpt_values (FO := B64 m) stair stair 8 ltac:(lia)) as (o & E & _). exists o. split; [exact E|]. exact (vpt_f64_trend m stair stair 8 o stair_unsigned stair_no_dip E). Qed.
Example elder_force_stair_prints m : match @elder_force f64 (B64 m) (series stair 8) (series stair 8) 3 with Ok o => is_finite (nth 6 o B754_nan) = true | Panic => False end.
Proof. destruct m as [? ? ? ? ? ? ? ns]. destruct ns; vm_compute; reflexivity. Qed.
Example elder_force_f64_trend_case m : exists o, @elder_force f64 (B64 m) (series stair 8) (series stair 8) 3 = Ok o /\ is_finite (nth 6 o B754_nan) = true /\ forall x, In x o -> unsigned x.
Proof.
  pose proof (elder_force_stair_prints m) as P. destruct (@elder_force f64 (B64 m) (series stair 8) (series stair 8) 3) as [o|] eqn:E; [|easy].
  exists o. split; [reflexivity|]. split; [exact P|]. exact (elder_force_f64_trend m stair stair 8 3 o stair_unsigned stair_no_dip E).
Qed.
