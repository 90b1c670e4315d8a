(** * The theorems of [F64TrendC] applied to bars built from the prices of [CasesF64Trend]. *)
From Coq Require Import Reals Lra Lia List ZArith.
From Flocq Require Import IEEE754.BinarySingleNaN.
From Verif Require Import Base Num XReal B64 F64 Spec Bars Trend TrendShape F64Range F64Osc F64Trend CasesF64Trend F64TrendB F64TrendC.
Import ListNotations.
Local Unset Implicit Arguments.
Local Open Scope R_scope.

Lemma stair_climbing : climbing 8 stair.
Proof. intros k Hk. do 7 (destruct k as [|k]; [vm_compute; reflexivity|]). lia. Qed.
Lemma slide_sinking : sinking 8 slide.
Proof. intros k Hk. do 7 (destruct k as [|k]; [vm_compute; reflexivity|]). lia. Qed.
Example aroon_f64_trend_case m : exists o, @aroon f64 (B64 m) (series stair 8) (series stair 8) 3 = Ok o /\
  aligned (map fst o) 8 3 B754_nan (fun _ => b64_of_Z 100) /\ aligned (map snd o) 8 3 B754_nan (fun _ => B754_zero false).
Proof. destruct (aroon_f64_trend m stair stair 8 3 ltac:(lia) ltac:(lia)) as (o & E & A & _ & B & _). exists o. split; [exact E|]. split; [exact (A stair_climbing)|exact (B stair_up)]. Qed.
Example aroon_f64_trend_down_case m : exists o, @aroon f64 (B64 m) (series slide 8) (series slide 8) 3 = Ok o /\
  aligned (map fst o) 8 3 B754_nan (fun _ => B754_zero false) /\ aligned (map snd o) 8 3 B754_nan (fun _ => b64_of_Z 100).
Proof. destruct (aroon_f64_trend m slide slide 8 3 ltac:(lia) ltac:(lia)) as (o & E & _ & A & _ & B). exists o. split; [exact E|]. split; [exact (A slide_down)|exact (B slide_sinking)]. Qed.

Definition tops (k : nat) : f64 := b64_of_Z (Z.of_nat k + 3).
Definition ends (k : nat) : f64 := b64_of_Z (Z.of_nat k + 2).
Lemma stair_bars : fbars tops stair ends 8.
Proof.
  assert (V : forall z, (Z.abs z <= 2 ^ 53)%Z -> is_finite (b64_of_Z z) = true /\ B2R (b64_of_Z z) = IZR z) by (intros z Hz; apply xval_fin_inv; now apply xval_of_Z).
  intros k Hk. unfold tops, stair, ends. destruct (V (Z.of_nat k + 3)%Z ltac:(lia)) as [F1 V1], (V (Z.of_nat k + 1)%Z ltac:(lia)) as [F2 V2], (V (Z.of_nat k + 2)%Z ltac:(lia)) as [F3 V3].
  rewrite V1, V2, V3. repeat split; try assumption; apply IZR_le; lia.
Qed.
Example adx_f64_trend_case m : exists o, @adx f64 (B64 m) (series tops 8) (series stair 8) (series ends 8) 3 2 = Ok o /\ forall p q a, In (p, q, a) o -> zero_or_nan q /\ exact_or_nan 100 a.
Proof.
  destruct (@adx_outcome f64 (B64 m) (series tops 8) (series stair 8) (series ends 8) 3 2) as [[Z _]|(_ & o & E & _)]; [exfalso; unfold bars3 in Z; rewrite ?length_series in Z; cbn in Z; lia|].
  exists o. split; [exact E|]. exact (proj1 (adx_f64_trend m tops stair ends 8 3 2 o ltac:(lia) ltac:(lia) ltac:(lia) stair_bars E) stair_no_dip).
Qed.
Example adx_stair_prints m : match @adx f64 (B64 m) (series tops 8) (series stair 8) (series ends 8) 3 2 with Ok o => B2SF (snd (nth 6 o (B754_nan, B754_nan, B754_nan))) = B2SF (b64_of_Z 100) | Panic => False end.
Proof. destruct m as [? ? ? ? ? ? ? ns]. destruct ns; vm_compute; reflexivity. Qed.
