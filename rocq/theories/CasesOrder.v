(** * The theorems of [Order] applied to seven bars and the same bars turned round. *)
From Coq Require Import Reals Lra Lia List Permutation.
From Verif Require Import Base Num XReal Spec RSpec Bars Count Mic RankCorr Smooth Distribution Correlation Regression Volume Cases Order.
Import ListNotations.
Local Unset Implicit Arguments.
Local Open Scope R_scope.

Definition px : list R := [1; 2; 4; 8; 5; 3; 7].
Definition py : list R := [2; 2; 9; 8; 6; 4; 5].
Definition px' : list R := [7; 3; 5; 8; 4; 2; 1].
Definition py' : list R := [5; 4; 6; 8; 9; 2; 2].
Lemma turned : Permutation (win 7 px 6) (win 7 px' 6).
Proof. exact (Permutation_rev px). Qed.
Lemma turned2 : Permutation (combine (win 7 px 6) (win 7 py 6)) (combine (win 7 px' 6) (win 7 py' 6)).
Proof. exact (Permutation_rev (combine px py)). Qed.
Lemma here : (7 - 1 <= 6 < length px)%nat.
Proof. cbn. lia. Qed.
Lemma here' : (7 - 1 <= 6 < length px')%nat.
Proof. cbn. lia. Qed.
Lemma here2 : (7 - 1 <= 6 < bars2 px py)%nat.
Proof. cbn. lia. Qed.
Lemma here2' : (7 - 1 <= 6 < bars2 px' py')%nat.
Proof. cbn. lia. Qed.

Example sma_order_case := sma_order_free 7 ltac:(lia) px px' 6%nat 6%nat here here' turned.
Example variance_order_case := variance_order_free 7 ltac:(lia) px px' 6%nat 6%nat here here' turned.
Example std_dev_order_case := std_dev_order_free 7 ltac:(lia) px px' 6%nat 6%nat here here' turned.
Example mad_order_case := mad_order_free 7 ltac:(lia) px px' 6%nat 6%nat here here' turned.
Example cv_order_case := cv_order_free 7 ltac:(lia) px px' 6%nat 6%nat here here' turned.
Example skew_order_case := skew_order_free 7 ltac:(lia) ltac:(reflexivity) px px' 6%nat 6%nat here here' turned.
Example kurtosis_order_case := kurtosis_order_free 7 ltac:(lia) ltac:(reflexivity) px px' 6%nat 6%nat here here' turned.
Example median_order_case := median_order_free 7 ltac:(lia) ltac:(vm_compute; discriminate) px px' 6%nat 6%nat here here' turned.
Example quantile_order_case := quantile_order_free 7 30 ltac:(lia) ltac:(vm_compute; discriminate) px px' 6%nat 6%nat here here' turned.
Example pcc_order_case := pcc_order_free 7 ltac:(lia) px py px' py' 6%nat 6%nat here2 here2' turned2.
Example srcc_order_case := srcc_order_free stable_argsort 7 ltac:(lia) argsort_R px py px' py' 6%nat 6%nat here2 here2' turned2.
Example hoeffd_order_case := hoeffd_order_free stable_argsort 7 ltac:(lia) ltac:(reflexivity) argsort_R px py px' py' 6%nat 6%nat here2 here2' turned2.
Example dcor_order_case := dcor_order_free 7 ltac:(lia) px py px' py' 6%nat 6%nat here2 here2' turned2.
Lemma small_prices v : In v px \/ In v py \/ In v px' \/ In v py' -> - f64_max <= v <= f64_max.
Proof. pose proof f64_max_large. cbn. intros H'. assert (1 <= v <= 9) by (repeat destruct H' as [H'|H']; lra || tauto). lra. Qed.
Example mic_order_case := mic_order_free (fun l => l) px py px' py' 7 6%nat 6%nat (fun l => Permutation_refl l) ltac:(lia) ltac:(reflexivity) small_prices here2 here2' turned2.
(** The first two bars are tied in both prices, so [krcc] may be turned round. *)
Definition pz : list R := [2; 2; 4; 8; 5; 3; 7].
Definition pz' : list R := [7; 3; 5; 8; 4; 2; 2].
Ltac ties := split; [reflexivity|]; intros i j H E; unfold pz, py, pz', py' in *; cbn [length] in H;
  do 7 (destruct i as [|i]; [do 7 (destruct j as [|j]; [cbn in *; lra || lia|]); lia|]); lia.
Lemma ties_ok : ties_shared pz py.
Proof. ties. Qed.
Lemma ties_ok' : ties_shared pz' py'.
Proof. ties. Qed.
Example krcc_order_case := krcc_order_free pz py pz' py' 7 6%nat 6%nat ltac:(lia) ltac:(vm_compute; discriminate) ties_ok ties_ok' ltac:(cbn; lia) ltac:(cbn; lia) (Permutation_rev (combine pz py)).

Lemma from : (6 < bars2 px py)%nat.
Proof. cbn. lia. Qed.
Lemma from' : (6 < bars2 px' py')%nat.
Proof. cbn. lia. Qed.
Example mse_order_case := mse_order_free px py px' py' 6%nat 6%nat from from' turned2.
Example rmse_order_case := rmse_order_free px py px' py' 6%nat 6%nat from from' turned2.
Example mae_order_case := mae_order_free px py px' py' 6%nat 6%nat from from' turned2.
Example smape_order_case := smape_order_free px py px' py' 6%nat 6%nat from from' turned2.
Example mape_order_case := mape_order_free px py px' py' 6%nat 6%nat from from' ltac:(cbn; lra) turned2.
Definition at_ (l : list R) (k : nat) : R := nth k l 0.
Ltac traded := intros k H; assert (k = 6)%nat by lia; subst k; cbv; lra.
Example vwma_order_case := vwma_order_free (at_ px) (at_ py) (at_ px') (at_ py') 7 7 7 6%nat 6%nat ltac:(lia) ltac:(traded) ltac:(traded) ltac:(lia) ltac:(lia) turned2.
