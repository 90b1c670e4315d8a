(** * The theorems of [F64Trend] applied to prices 1, 2, 3, ... and their reverse. *)
From Coq Require Import Reals Lra Lia List ZArith.
From Flocq Require Import IEEE754.BinarySingleNaN.
From Verif Require Import Base Num B64 F64 Spec Bars Momentum Volume F64Trend.
Import ListNotations.
Local Unset Implicit Arguments.

Definition stair (k : nat) : f64 := b64_of_Z (Z.of_nat k + 1).
Definition slide (k : nat) : f64 := b64_of_Z (20 - Z.of_nat k).
Lemma stair_up : all_up 8 stair.
Proof. intros k Hk. do 7 (destruct k as [|k]; [vm_compute; reflexivity|]). lia. Qed.
Lemma slide_down : all_down 8 slide.
Proof. intros k Hk. do 7 (destruct k as [|k]; [vm_compute; reflexivity|]). lia. Qed.
Lemma stair_no_dip : no_dip 8 stair.
Proof. intros k Hk. do 7 (destruct k as [|k]; [vm_compute; reflexivity|]). lia. Qed.
Lemma slide_no_gain : no_gain 8 slide.
Proof. intros k Hk. do 7 (destruct k as [|k]; [vm_compute; reflexivity|]). lia. Qed.

Example cmo_f64_trend_case m : exists o, @cmo f64 (B64 m) (series stair 8) 3 = Ok o /\ Forall (exact_or_nan 100) o.
Proof. destruct (cmo_f64_trend m stair 8 3) as (o & E & U & _). exists o. split; [exact E|]. exact (U stair_no_dip). Qed.
Example cmo_f64_trend_down_case m : exists o, @cmo f64 (B64 m) (series slide 8) 3 = Ok o /\ Forall (exact_or_nan (-100)) o.
Proof. destruct (cmo_f64_trend m slide 8 3) as (o & E & _ & D). exists o. split; [exact E|]. exact (D slide_no_gain). Qed.
Example psych_f64_trend_case m : exists o, @psych f64 (B64 m) (series stair 8) 3 = Ok o /\ aligned o 8 3 B754_nan (fun _ => b64_of_Z 100).
Proof. destruct (psych_f64_trend m stair 8 3 ltac:(lia) ltac:(lia)) as (o & E & U & _). exists o. split; [exact E|]. exact (U stair_up). Qed.
Example psych_f64_trend_down_case m : exists o, @psych f64 (B64 m) (series slide 8) 3 = Ok o /\ aligned o 8 3 B754_nan (fun _ => B754_zero false).
Proof. destruct (psych_f64_trend m slide 8 3 ltac:(lia) ltac:(lia)) as (o & E & _ & D). exists o. split; [exact E|]. exact (D slide_down). Qed.
Example mfi_f64_trend_case m : exists o, @mfi f64 (B64 m) (series stair 8) (series stair 8) (series stair 8) (series slide 8) 3 = Ok o /\ Forall (exact_or_nan 100) o.
Proof. destruct (mfi_f64_trend m stair stair stair slide 8 3 ltac:(lia) ltac:(lia)) as (o & E & U & _). exists o. split; [exact E|]. exact (U stair_no_dip stair_no_dip stair_no_dip). Qed.
Example mfi_f64_trend_down_case m : exists o, @mfi f64 (B64 m) (series slide 8) (series slide 8) (series slide 8) (series stair 8) 3 = Ok o /\ Forall (exact_or_nan 0) o.
Proof. destruct (mfi_f64_trend m slide slide slide stair 8 3 ltac:(lia) ltac:(lia)) as (o & E & _ & D). exists o. split; [exact E|]. exact (D slide_no_gain slide_no_gain slide_no_gain). Qed.

(** On these prices the printed value is the number, not NaN. *)
Example cmo_stair_prints m : match @cmo f64 (B64 m) (series stair 8) 3 with Ok o => B2SF (nth 5 o B754_nan) = B2SF (b64_of_Z 100) | Panic => False end.
Proof. vm_compute. reflexivity. Qed.
Example mfi_stair_prints m : match @mfi f64 (B64 m) (series stair 8) (series stair 8) (series stair 8) (series slide 8) 3 with Ok o => B2SF (nth 5 o B754_nan) = B2SF (b64_of_Z 100) | Panic => False end.
Proof. destruct m as [? ? ? ? ? ? ? ns]. destruct ns; vm_compute; reflexivity. Qed.
