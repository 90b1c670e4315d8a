(** * The theorems of [ReleaseFacts] applied to concrete series and windows. *)
From Coq Require Import Reals Lra Lia List NArith.
From Verif Require Import Base Num XReal Spec BaseFacts Tac RSpec XRFacts Bars RankCorr DistShape Entropy Smooth Distribution Correlation Release ReleaseFacts.
Import ListNotations.
Local Unset Implicit Arguments.
Local Open Scope R_scope.

Definition still (n : nat) : list R := repeat 5 n.
Lemma still_win w n i : (w <= i + 1)%nat -> (i < n)%nat -> win w (still n) i = repeat 5 w.
Proof.
  intros H1 H2. unfold win, still. apply nth_error_ext. intros k. destruct (le_lt_dec w k) as [K|K].
  - rewrite !(proj2 (nth_error_None _ _)); [easy| |]; rewrite ?firstn_length, ?skipn_length, ?repeat_length; lia.
  - rewrite nth_error_firstn, nth_error_skipn by easy. rewrite !nth_error_repeat by lia. easy.
Qed.
Lemma length_still n : length (still n) = n. Proof. apply repeat_length. Qed.

Example sample_entropy_release_negative_case := sample_entropy_release_negative (still 40) 36 5
  ltac:(rewrite length_still; lia) (still_win 34 40 36 ltac:(lia) ltac:(lia)).
Example approx_entropy_release_infinite_case := approx_entropy_release_infinite (still 300) 257 None 0 280 5
  ltac:(cbn; lia) ltac:(lra) eq_refl ltac:(rewrite length_still; lia) (still_win 257 300 280 ltac:(lia) ltac:(lia)).
Example pwma_release_outside_case := pwma_release_outside (still 200) 150 5
  ltac:(rewrite length_still; lia) (still_win 128 200 150 ltac:(lia) ltac:(lia)) ltac:(lra).
Example sample_entropy_release_real_case := sample_entropy_release_real [1; 2; 4; 3; 5; 7] 4 None None ltac:(easy) ltac:(cbn; lia).
Example approx_entropy_release_real_case := approx_entropy_release_real [1; 2; 4; 3; 5; 7] 4 None None ltac:(easy) ltac:(cbn; lia).
(** A window of 8000 bars has a divisor past [2^64] whose low word is not 0. *)
Example hoeffd_release_real_case srt (Sr : forall l : list R, sorts (srt (map Fin l)) (map Fin l)) a b :=
  hoeffd_release_real srt a b (N.to_nat 8000) ltac:(lia) ltac:(rewrite N2Nat.id; easy) ltac:(vm_compute; easy) Sr.
Example hoeffd_release_overflow_case : low_word (d_divisor (N.to_nat 8000)) <> d_divisor (N.to_nat 8000).
Proof. vm_compute. easy. Qed.
Example hoeffd_release_small_case srt (Sr : forall l : list R, sorts (srt (map Fin l)) (map Fin l)) :=
  hoeffd_release_small srt [1; 2; 4; 3] [3; 1; 2; 5] 2 ltac:(lia) Sr.
(** The checked build returns for these, so [_same] applies. *)
Example pwma_release_same_case : exists o, pwma (map Fin [1; 2; 4; 3; 5; 7]) 4 = Ok o /\ pwma_release (map Fin [1; 2; 4; 3; 5; 7]) 4 = Ok o.
Proof. eexists. split; [|apply pwma_release_same]; reflexivity. Qed.
Example sample_entropy_release_same_case : exists o, sample_entropy (map Fin [1; 2; 4; 3]) 20 None None = Ok o /\ sample_entropy_release (map Fin [1; 2; 4; 3]) 20 None None = Ok o.
Proof. destruct (sample_entropy_domain [1; 2; 4; 3] ltac:(easy)) as [o E]. exists o. split; [easy|]. now apply sample_entropy_release_same. Qed.
Example approx_entropy_release_same_case : exists o, approx_entropy (map Fin [1; 2; 4; 3]) 20 None None = Ok o /\ approx_entropy_release (map Fin [1; 2; 4; 3]) 20 None None = Ok o.
Proof. destruct (approx_entropy_domain [1; 2; 4; 3] ltac:(easy)) as [o E]. exists o. split; [easy|]. now apply approx_entropy_release_same. Qed.
Example hoeffd_release_same_case srt (Sr : forall l : list R, sorts (srt (map Fin l)) (map Fin l)) :
  exists o, hoeffd srt (map Fin [1; 2; 4; 3; 5; 7]) (map Fin [3; 1; 2; 5; 6; 4]) 5 = Ok o /\ hoeffd_release srt (map Fin [1; 2; 4; 3; 5; 7]) (map Fin [3; 1; 2; 5; 6; 4]) 5 = Ok o.
Proof. destruct (hoeffd_real srt [1; 2; 4; 3; 5; 7] [3; 1; 2; 5; 6; 4] 5 ltac:(lia) ltac:(easy) Sr) as (o & E & _). exists o. split; [easy|]. now apply hoeffd_release_same. Qed.
