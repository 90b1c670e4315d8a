(** * The hypotheses of the theorems of [Mono] can be met. *)
From Coq Require Import Reals Lra Lia ZArith List.
From Flocq Require Import Core IEEE754.BinarySingleNaN.
From Verif Require Import Spec BaseFacts XReal RSpec Bars B64 F64 MamaF64 MamaExact Smooth SmoothShape Pascal Volatility VolShape F64Err F64Rec Mono Cases CasesF64.
Import ListNotations.
Local Unset Implicit Arguments.
Local Open Scope R_scope.

(** Closes 1, 2, 3, ... and closes 4, 5, 6, ... *)
Notation under := (series cl 20).
Notation over := (series (fun k => cl (k + 3)) 20).
Lemma under_over : below under over.
Proof.
  unfold series. apply below_map. intros k Hk. apply in_seq in Hk. destruct (cl_val k ltac:(lia)) as [F V]. destruct (cl_val (k + 3) ltac:(lia)) as [F' V'].
  unfold le64. rewrite ltb_xval, !xval_fin by easy. cbn. apply Rltb_f. rewrite V, V', plus_INR. cbn. lra.
Qed.
(** The order is strict: the other direction fails at each bar. *)
Lemma under_over_strict : ~ below over under.
Proof.
  intros H. unfold series in H. cbn [seq map] in H. inversion H as [|x y l l' G]. clear - G. unfold le64 in G. now vm_compute in G.
Qed.
Lemma two_runs (r r' : result (list f64)) bad bad' n n' : outcome r bad n -> outcome r' bad' n' -> ~ bad -> ~ bad' ->
  (forall o o', r = Ok o -> r' = Ok o' -> below o o') -> exists o o', r = Ok o /\ r' = Ok o' /\ below o o'.
Proof.
  intros O O' B B' H. destruct (ok_of_outcome _ _ _ O B) as [o E]. destruct (ok_of_outcome _ _ _ O' B') as [o' E']. exists o, o'. auto.
Qed.
Section C.
  Variable m : libm.
  Local Instance CB : FOps f64 := B64 m.
  Example sma_f64_monotone_case := two_runs _ _ _ _ _ _ (sma_outcome under 5) (sma_outcome over 5) ltac:(lia) ltac:(lia) (fun o o' => sma_f64_monotone m under over 5 o o' under_over).
  Example wma_f64_monotone_case := two_runs _ _ _ _ _ _ (wma_outcome under 5) (wma_outcome over 5) ltac:(lia) ltac:(lia) (fun o o' => wma_f64_monotone m under over 5 o o' under_over).
  Example pwma_f64_monotone_case := two_runs _ _ _ _ _ _ (pwma_outcome under 5) (pwma_outcome over 5) ltac:(lia) ltac:(lia) (fun o o' => pwma_f64_monotone m under over 5 o o' under_over).
  Example fwma_f64_monotone_case := two_runs _ _ _ _ _ _ (fwma_outcome under 5) (fwma_outcome over 5) ltac:(lia) ltac:(lia) (fun o o' => fwma_f64_monotone m under over 5 o o' under_over).
  Example trima_f64_monotone_case := two_runs _ _ _ _ _ _ (trima_outcome under 5) (trima_outcome over 5) ltac:(lia) ltac:(lia) (fun o o' => trima_f64_monotone m under over 5 o o' under_over).
  Example wilder_f64_monotone_case := two_runs _ _ _ _ _ _ (wilder_outcome under 5) (wilder_outcome over 5) ltac:(rewrite length_series; lia) ltac:(rewrite length_series; lia) (fun o o' => wilder_f64_monotone m under over 5 o o' under_over).
  Example ewma_f64_monotone_case := two_runs _ _ _ _ _ _ (ewma_outcome under 5) (ewma_outcome over 5) ltac:(rewrite length_series; lia) ltac:(rewrite length_series; lia) (fun o o' => ewma_f64_monotone m under over 5 o o' ltac:(lia) under_over).
  Example hlc3_f64_monotone_case : below (hlc3 under under under) (hlc3 under over over) := hlc3_f64_monotone m _ _ _ _ _ _ (below_refl _) under_over under_over.
  Example typical_f64_monotone_case := two_runs _ _ _ _ _ _ (typical_outcome under under under 5) (typical_outcome under over over 5) ltac:(lia) ltac:(lia) (fun o o' => typical_f64_monotone m _ _ _ _ _ _ 5 o o' (below_refl under) under_over under_over).
End C.

(** ** mama: one price of 2^520 among small ones makes it panic, one of 2^510 does not. *)
Definition spike (e : Z) (k : nat) : f64 := if Nat.eqb k 8 then b64_of_Z (2 ^ e) else cl k.
Definition angleless (c : @cycle f64) : bool :=
  (@fneb f64 (B64 platform) (im_part c) (b64_of_Z 0) && @fneb f64 (B64 platform) (re_part c) (b64_of_Z 0) && is_nan (Bdiv mode_NE (im_part c) (re_part c)))%bool.
Lemma angleless_spec c : angleless c = true <-> no_angle platform c.
Proof. unfold angleless, no_angle. rewrite !Bool.andb_true_iff. tauto. Qed.
Example mama_f64_outcome_case : @mama f64 (B64 platform) (series (spike 520) 14) None None = Panic /\
  exists o, @mama f64 (B64 platform) (series (spike 510) 14) None None = Ok o /\ length o = 14%nat.
Proof.
  split.
  - destruct (mama_f64_outcome platform (fun x H => H) eq_refl (spike 520) 14 None None) as [[_ E]|[N _]]; [exact E|]. exfalso. apply N. exists 11%nat. split; [lia|split; [lia|]].
    apply angleless_spec. change (11 - 5)%nat with 6%nat. vm_compute. reflexivity.
  - destruct (mama_f64_outcome platform (fun x H => H) eq_refl (spike 510) 14 None None) as [[(q & H1 & H2 & H3) _]|[_ E]]; [|exact E]. exfalso. apply angleless_spec in H3.
    assert (C : forallb (fun k => negb (angleless (@ago f64 (B64 platform) 0 (@cycles f64 (B64 platform) (spike 510) k)))) (seq 1 7) = true) by (vm_compute; reflexivity).
    rewrite forallb_forall in C. specialize (C (q - 5)%nat ltac:(apply in_seq; lia)). now rewrite H3 in C.
Qed.
