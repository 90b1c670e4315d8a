(** * The hypotheses of the theorems of [F64RecB] can be met: bars up to 32, windows 3 and 7. *)
From Coq Require Import Reals Lra Lia ZArith List.
From Flocq Require Import Core IEEE754.BinarySingleNaN.
From Verif Require Import Num Spec BaseFacts XReal RSpec Bars B64 F64 F64Err F64Rec F64Win F64Var F64RecB MamaF64 CasesF64 CasesMore.
Import ListNotations.
Local Unset Implicit Arguments.
Local Open Scope R_scope.

Lemma hlc_32 k : (k < 20)%nat -> (fin (hi k) /\ Rabs (B2R (hi k)) <= 32) /\ (fin (lo k) /\ Rabs (B2R (lo k)) <= 32) /\ (fin (cl k) /\ Rabs (B2R (cl k)) <= 32) /\ B2R (lo k) <= B2R (hi k).
Proof.
  intros Hk. destruct (hi_val k ltac:(lia)) as [A ->], (lo_val k ltac:(lia)) as [B ->], (cl_val k ltac:(lia)) as [C ->].
  pose proof (small_index k Hk). rewrite !Rabs_pos_eq by lra. repeat split; auto; lra.
Qed.
Lemma default_weight : fin (b64_lit 7 10) /\ 0 <= B2R (b64_lit 7 10) <= 1.
Proof.
  destruct (lit_bp 7 10 0) as [A B]; [vm_compute; reflexivity|lia|]. split; [exact A|]. split.
  - assert (H : Bleb (b64_of_Z 0) (b64_lit 7 10) = true) by (vm_compute; reflexivity). rewrite leb_xval, (xval_fin _ A), xval_of_Z in H by easy.
    cbn [xleb] in H. now apply Rleb_t in H.
  - change (bpow radix2 0) with 1 in B. apply abs_le in B. lra.
Qed.
Example zlma_f64_error_case m := zlma_f64_error m cl 20 7 32 ltac:(lia) ltac:(cbn; lia) ltac:(unfold small_window; lia) (proj1 sized_32) (proj2 sized_32) cl_32.
Example qstick_f64_error_case m := qstick_f64_error m lo cl 20 7 32 ltac:(lia) ltac:(unfold small_window; lia) (proj1 sized_32) (proj2 sized_32)
  ltac:(intros k Hk; pose proof (hlc_32 k Hk); tauto).
Example elder_ray_f64_error_case m := elder_ray_f64_error m hi lo cl 20 7 32 ltac:(lia) ltac:(unfold small_window; lia) (proj1 sized_32) (proj2 sized_32)
  ltac:(intros k Hk; pose proof (hlc_32 k Hk); tauto).
Example keltner_f64_error_case m := keltner_f64_error m hi lo cl 20 7 32 ltac:(lia) ltac:(unfold small_window; lia) (proj1 sized_32) (proj2 sized_32)
  ltac:(intros k Hk; pose proof (hlc_32 k Hk); tauto).
Example dpo_f64_error_case m := dpo_f64_error m cl 20 7 32 ltac:(lia) ltac:(unfold small_window; lia) (proj1 sized_32) (proj2 sized_32) cl_32.
Example bbands_f64_error_case m := bbands_f64_error m cl 20 7 32 ltac:(lia) ltac:(unfold small_window; lia) (proj1 sized_32) sized_1024 below_440 cl_32.
Example t3_f64_error_case m := t3_f64_error m cl 20 3 None 32 ltac:(lia) ltac:(lia) ltac:(unfold small_window; lia) (proj1 sized_32) (proj2 sized_32) cl_32
  (proj1 default_weight) (proj2 default_weight).
