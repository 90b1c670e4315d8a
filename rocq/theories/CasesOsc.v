(** * The hypotheses of the theorems of [F64OscB] and [F64Leaves] can be met *)
From Coq Require Import Reals Lra Lia ZArith List.
From Flocq Require Import Core IEEE754.BinarySingleNaN.
From Verif Require Import Spec BaseFacts XReal Bars Rank RankCorr DistShape MomShape TrendShape SmoothShape VolShape B64 F64.
From Verif Require Import Correlation Volume Volatility Trend Momentum Distribution Smooth Regression.
From Verif Require Import F64Facts F64Range F64Osc F64OscB F64Leaves Refute CasesF64.
Import ListNotations.
Local Unset Implicit Arguments.
Local Open Scope R_scope.

Section Cases.
  Variable m : libm.
  Notation B := (B64 m).
  Lemma priced k : (k < 20)%nat -> nn (cl k).
  Proof. intros H. destruct (cl_val k ltac:(lia)) as [A V]. apply nn_fin; [exact A|]. rewrite V. pose proof (pos_INR k). lra. Qed.
  Example tii_f64_range_case := got _ _ _ _ (@tii_outcome f64 B (series cl 20) 5) ltac:(lia) (fun o => tii_f64_range m (series cl 20) 5 o).
  Example relative_vol_f64_range_case := got _ _ _ _ (@relative_vol_outcome f64 B (series cl 20) 5 3) ltac:(rewrite length_series; lia) (fun o => relative_vol_f64_range m (series cl 20) 5 3 o).
  Lemma quotes_nn x : In x (series hi 20) \/ In x (series lo 20) \/ In x (series cl 20) \/ In x (series cl 20) -> nn x.
  Proof. intros [H|[H|[H|H]]]; apply in_map_iff in H as (k & <- & Hk); apply in_seq in Hk; [apply hi_nn|apply lo_nn|apply priced|apply priced]; lia. Qed.
  Example mfi_f64_range_case := got _ _ _ _ (@mfi_outcome f64 B (series hi 20) (series lo 20) (series cl 20) (series cl 20) 5) ltac:(unfold bars4; rewrite !length_series; cbn; lia)
    (fun o E => mfi_f64_range m (series hi 20) (series lo 20) (series cl 20) (series cl 20) 5 o E quotes_nn).
  Example tsi_f64_range_case := got _ _ _ _ (@tsi_outcome f64 B (series cl 20) 3 5) ltac:(rewrite length_series; lia) (fun o => tsi_f64_range m (series cl 20) 3 5 o ltac:(lia) ltac:(lia)).
  Lemma moves (l : list f64) a : In a l -> dom a (Babs a).
  Proof. intros _. split; [apply nn_abs|]. split; [apply nn_abs|]. apply ltb_irrefl. Qed.
  Example ewma_f64_dominated_case : exists p q, @ewma f64 B (map (fun x => x) (series cl 20)) 5 = Ok p /\ @ewma f64 B (map Babs (series cl 20)) 5 = Ok q /\ forall x, In x (combine p q) -> dom (fst x) (snd x).
  Proof.
    destruct (@ewma_outcome f64 B (map (fun x => x) (series cl 20)) 5) as [[Z _]|(_ & p & E1 & _)]; [exfalso; rewrite map_length, length_series in Z; lia|].
    destruct (@ewma_outcome f64 B (map Babs (series cl 20)) 5) as [[Z _]|(_ & q & E2 & _)]; [exfalso; rewrite map_length, length_series in Z; lia|].
    exists p, q. split; [exact E1|]. split; [exact E2|]. apply (ewma_f64_dominated m (fun x => x) Babs (series cl 20) 5 p q ltac:(lia) E1 E2). apply moves.
  Qed.
  Example mda_f64_range_case := got _ _ _ _ (@mda_outcome f64 B (series cl 20) (series hi 20)) ltac:(now intros [|]) (fun o => mda_f64_range m (series cl 20) (series hi 20) o ltac:(rewrite length_series; lia)).
  Lemma ordinary p : In p (combine (series cl 20) (series hi 20)) -> tiny_free p.
  Proof.
    intros H. unfold series in H. rewrite combine_bars, Nat.min_id in H. apply in_map_iff in H as (k & <- & Hk). apply in_seq in Hk. intros _ _. right. cbn [fst snd]. destruct (cl_val k ltac:(lia)) as [_ ->]. destruct (hi_val k ltac:(lia)) as [_ ->].
    pose proof (pos_INR k). rewrite !Rabs_pos_eq by lra. apply Rle_trans with (bpow radix2 0); [apply bpow_le; lia|]. cbn. lra.
  Qed.
  Example smape_f64_range_case := smape_f64_range m (series cl 20) (series hi 20) ltac:(rewrite length_series; lia) ordinary.
  Lemma cl_list x : In x (series cl 20) -> fin x /\ Rabs (B2R x) <= B950.
  Proof. intros H. apply in_map_iff in H as (k & <- & Hk). apply in_seq in Hk. apply cl_950. lia. Qed.
  Example crsi_f64_range_case := got _ _ _ _ (@crsi_outcome f64 B (series cl 20) 3 2 5) ltac:(rewrite length_series; lia)
    (fun o => crsi_f64_range m (series cl 20) 3 2 5 o ltac:(rewrite length_series; lia) ltac:(lia) ltac:(lia) ltac:(lia) ltac:(lia) cl_list).
  Example srcc_f64_above_1_case := srcc_f64_above_1 m (@stable_argsort f64 B) (@stable_argsort_sorts f64 B).
End Cases.
