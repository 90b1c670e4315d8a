(** * The theorems of [F64TrendF] applied to prices that climb by one on every bar. *)
From Coq Require Import Reals Lra Lia List ZArith.
From Flocq Require Import IEEE754.BinarySingleNaN.
From Verif Require Import Base Num XReal B64 F64 Spec Bars Momentum MomShape Prings F64Sign F64Trend CasesF64Trend F64TrendB F64TrendC F64TrendD F64TrendE F64TrendF.
Import ListNotations.
Local Unset Implicit Arguments.

Lemma stair_rising n : (Z.of_nat n <= 2 ^ 53)%Z -> rising n stair.
Proof.
  intros Hn. assert (V : forall k, (k < n)%nat -> is_finite (stair k) = true /\ B2R (stair k) = IZR (Z.of_nat k + 1)).
  { intros k Hk. pose proof (xval_of_Z (Z.of_nat k + 1) ltac:(lia)) as W. now apply xval_fin_inv in W. }
  split; intros k Hk.
  - destruct (V k Hk) as [F1 V1]. split; [exact F1|]. rewrite V1. apply IZR_lt. lia.
  - destruct (V k ltac:(lia)) as [F1 V1]. destruct (V (S k) Hk) as [F2 V2]. rewrite leb_xval, !xval_fin by assumption. rewrite V1, V2. cbn [xleb]. apply Rleb_t. apply IZR_le. lia.
Qed.
Example special_k_f64_trend_case m : exists o, @special_k f64 (B64 m) (series stair 800) = Ok o /\ forall x, In x o -> unsigned x.
Proof.
  destruct (@special_k_spec f64 (B64 m) (series stair 800)) as [[Z _]|(_ & o & E & _)]; [exfalso; rewrite length_series in Z; lia|].
  exists o. split; [exact E|]. exact (special_k_f64_trend m stair 800 o (stair_rising 800 ltac:(lia)) E).
Qed.
Example kst_f64_trend_case m : exists o, @kst f64 (B64 m) (series stair 60) None None = Ok o /\ forall x, In x o -> unsigned x.
Proof.
  destruct (@kst_default_outcome f64 (B64 m) (series stair 60)) as [[Z _]|(_ & o & E & _)]; [exfalso; rewrite length_series in Z; lia|].
  exists o. split; [exact E|]. exact (kst_f64_trend m stair 60 None None o (stair_rising 60 ltac:(lia)) E).
Qed.
Example pmo_stair_prints m : match @pmo f64 (B64 m) (series stair 8) 2 3 with Ok o => is_finite (nth 6 o B754_nan) = true | Panic => False end.
Proof. destruct m as [? ? ? ? ? ? ? ns]. destruct ns; vm_compute; reflexivity. Qed.
Example pmo_f64_trend_case m : exists o, @pmo f64 (B64 m) (series stair 8) 2 3 = Ok o /\ is_finite (nth 6 o B754_nan) = true /\ forall x, In x o -> unsigned x.
Proof.
  pose proof (pmo_stair_prints m) as P. destruct (@pmo f64 (B64 m) (series stair 8) 2 3) as [o|] eqn:E; [|easy].
  exists o. split; [reflexivity|]. split; [exact P|]. exact (pmo_f64_trend m stair 8 2 3 o (stair_rising 8 ltac:(lia)) E).
Qed.
Example coppock_stair_prints m : match @coppock f64 (B64 m) (series stair 8) 2 1 3 with Ok o => is_finite (nth 6 o B754_nan) = true | Panic => False end.
Proof. destruct m as [? ? ? ? ? ? ? ns]. destruct ns; vm_compute; reflexivity. Qed.
Example coppock_f64_trend_case m : exists o, @coppock f64 (B64 m) (series stair 8) 2 1 3 = Ok o /\ is_finite (nth 6 o B754_nan) = true /\ forall x, In x o -> unsigned x.
Proof.
  pose proof (coppock_stair_prints m) as P. destruct (@coppock f64 (B64 m) (series stair 8) 2 1 3) as [o|] eqn:E; [|easy].
  exists o. split; [reflexivity|]. split; [exact P|]. exact (coppock_f64_trend m stair 8 2 1 3 o (stair_rising 8 ltac:(lia)) E).
Qed.
