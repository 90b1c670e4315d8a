(** * The theorems of [ReleaseBFacts] applied to concrete series and windows. *)
From Coq Require Import Reals Lra Lia List NArith.
From Verif Require Import Base Num XReal Spec BaseFacts Tac RSpec XRFacts Bars DistReal Smooth Distribution Release ReleaseFacts ReleaseB ReleaseBFacts.
Import ListNotations.
Local Unset Implicit Arguments.
Local Open Scope R_scope.

Example kurtosis_release_small_case := kurtosis_release_small [1; 2; 4; 3] 2 ltac:(lia).
Example skew_release_small_case := skew_release_small [1; 2; 4; 3] 1 ltac:(lia).
Example kurtosis_release_real_case := kurtosis_release_real [1; 2; 4; 3; 5; 7] 4 ltac:(lia) ltac:(vm_compute; reflexivity).
(** Rising prices, one window of them. *)
Example kurtosis_release_wrong_case : exists (w : nat) (l : list R) (i : nat), N.of_nat w = 2642246%N /\ (w - 1 <= i < length l)%nat /\ var (win w l i) <> 0.
Proof.
  exists (N.to_nat 2642246). pose proof (N2Nat.id 2642246) as Ew. set (w := N.to_nat 2642246) in *. clearbody w.
  exists (map INR (seq 0 w)), (w - 1)%nat. split; [exact Ew|]. split; [rewrite map_length, seq_length; lia|]. intros V.
  assert (E : win w (map INR (seq 0 w)) (w - 1) = map INR (seq 0 w)).
  { unfold win. replace (w - 1 + 1 - w)%nat with 0%nat by lia. cbn [skipn]. apply firstn_all2. rewrite map_length, seq_length. lia. }
  rewrite E in V. assert (Ne : map INR (seq 0 w) <> []) by (destruct w as [|w]; [lia|easy]).
  apply var_zero in V; [|exact Ne]. destruct V as [c Hc].
  assert (I : forall k, (k < w)%nat -> In (INR k) (map INR (seq 0 w))) by (intros k Hk; apply in_map, in_seq; lia).
  pose proof (Hc _ (I 0%nat ltac:(lia))) as C0. pose proof (Hc _ (I 1%nat ltac:(lia))) as C1. cbn in C0, C1. lra.
Qed.
(** The checked build returns for these, so [_same] applies. *)
Example ewma_release_same_case : exists o, ewma (map Fin [1; 2; 4; 3]) 2 = Ok o /\ ewma_release (map Fin [1; 2; 4; 3]) 2 = Ok o.
Proof. eexists. split; [|apply ewma_release_same; [vm_compute; reflexivity|]]; reflexivity. Qed.
Example alma_release_same_case sigma : exists o, alma (map Fin [1; 2; 4; 3]) 2 sigma None = Ok o /\ alma_release (map Fin [1; 2; 4; 3]) 2 sigma None = Ok o.
Proof. eexists. split; [|apply alma_release_same; [vm_compute; reflexivity|]]; reflexivity. Qed.
Example kurtosis_release_same_case : exists o, kurtosis (map Fin [1; 2; 4; 3; 5; 7]) 4 = Ok o /\ kurtosis_release (map Fin [1; 2; 4; 3; 5; 7]) 4 = Ok o.
Proof.
  destruct (kurtosis_real [1; 2; 4; 3; 5; 7] 4 ltac:(lia) ltac:(vm_compute; reflexivity)) as (o & E & _). exists o. split; [exact E|]. now apply kurtosis_release_same.
Qed.
Example skew_release_same_case : exists o, skew (map Fin [1; 2; 4; 3; 5; 7]) 4 = Ok o /\ skew_release (map Fin [1; 2; 4; 3; 5; 7]) 4 = Ok o.
Proof.
  destruct (skew_real [1; 2; 4; 3; 5; 7] 4 ltac:(lia) ltac:(vm_compute; reflexivity)) as (o & E & _). exists o. split; [exact E|]. now apply skew_release_same.
Qed.
