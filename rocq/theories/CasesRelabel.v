(** * The theorems of [Relabel] applied to prices and their exponentials. *)
From Coq Require Import Reals Lra Lia List.
From Flocq Require Import Core IEEE754.BinarySingleNaN.
From Verif Require Import Base Num B64 XReal Spec RSpec Bars Rank Count RankCorr Smooth Distribution Correlation Regression Volume Volatility Momentum Trend CasesForget Cases Relabel.
Import ListNotations.
Local Unset Implicit Arguments.
Local Open Scope R_scope.

Definition grow : increasing exp := exp_increasing.
Lemma odd_scale : increasing (fun x => 3 * x - 100).
Proof. intros x y H. lra. Qed.
Definition seven : list R := [1; 2; 4; 8; 5; 3; 7].
Definition ties7 : list R := [2; 2; 9; 8; 6; 4; 5].

Example obv_relabel_case := obv_relabel exp sway traded 20 grow.
Example psych_relabel_case := psych_relabel exp sway 20 3 grow ltac:(lia).
Lemma sway_priced k : (k < 20)%nat -> sway k <> 0.
Proof. intros _. unfold sway. destruct (up k); lra. Qed.
Example pvi_relabel_case := pvi_relabel exp sway traded 20 grow sway_priced.
Example nvi_relabel_case := nvi_relabel exp sway traded 20 grow sway_priced.
Example mda_relabel_case := mda_relabel exp seven ties7 grow ltac:(discriminate) ltac:(discriminate).
Example aroon_relabel_case := aroon_relabel exp (fun x => 3 * x - 100) sway first 20 3 grow odd_scale ltac:(lia).
Example donchian_relabel_case := donchian_relabel exp (fun x => 3 * x - 100) sway first 20 3 grow odd_scale ltac:(lia).
Example median_relabel_case := median_relabel exp seven 3 grow ltac:(lia) eq_refl.
Example srcc_relabel_case := srcc_relabel exp (fun x => 3 * x - 100) stable_argsort seven ties7 5 grow odd_scale ltac:(lia) argsort_R.
Example hoeffd_relabel_case := hoeffd_relabel exp (fun x => 3 * x - 100) stable_argsort seven ties7 5 grow odd_scale ltac:(lia) ltac:(reflexivity) argsort_R.
Example krcc_relabel_case := krcc_relabel exp (fun x => 3 * x - 100) seven ties7 5 grow odd_scale ltac:(lia) ltac:(easy).
Lemma exp_keeps : keeps_order (fun x => match x with Fin r => Fin (exp r) | x => x end) (map Fin seven).
Proof. intros x y Hx Hy. apply in_map_iff in Hx as (a & <- & _). apply in_map_iff in Hy as (b & <- & _). exact (inc_ltb exp a b grow). Qed.
Example rank_relabel_case : rank stable_argsort (map Fin (map exp seven)) (Some RAverage) = rank stable_argsort (map Fin seven) (Some RAverage).
Proof.
  assert (E : map Fin (map exp seven) = map (fun x => match x with Fin r => Fin (exp r) | x => x end) (map Fin seven)) by (now rewrite !map_map).
  rewrite E. apply rank_relabel; [exact exp_keeps|apply comparable_R|rewrite <- E; apply comparable_R|apply argsort_R|rewrite <- E; apply argsort_R|discriminate|cbn; tauto].
Qed.
(** In binary64: twice the prices. *)
Definition three : list f64 := map b64_of_Z [5; 9; 7; 9; 8]%Z.
Lemma twice_keeps (better : f64 -> f64 -> bool) (phi : f64 -> f64) : forallb (fun x => forallb (fun y => Bool.eqb (better (phi x) (phi y)) (better x y)) three) three = true -> keeps_ge better phi three.
Proof. intros H x y Hx Hy. apply Bool.eqb_prop. exact (proj1 (forallb_forall _ _) (proj1 (forallb_forall _ _) H x Hx) y Hy). Qed.
Lemma twice_ge m : keeps_ge (@fgeb f64 (B64 m)) (@fmul f64 (B64 m) (b64_of_Z 2)) three.
Proof. apply twice_keeps. vm_cast_no_check (eq_refl true). Qed.
Lemma twice_le m : keeps_ge (@fleb f64 (B64 m)) (@fmul f64 (B64 m) (b64_of_Z 2)) three.
Proof. apply twice_keeps. vm_cast_no_check (eq_refl true). Qed.
Example aroon_any_relabel_case m := @aroon_any_relabel f64 (B64 m) (@fmul f64 (B64 m) (b64_of_Z 2)) (@fmul f64 (B64 m) (b64_of_Z 2)) three three 2 (twice_ge m) (twice_le m).
