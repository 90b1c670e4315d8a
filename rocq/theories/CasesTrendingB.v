(** * The theorems of [TrendingB] applied to the prices of [CasesTrending]. *)
From Coq Require Import Reals Lra Lia List.
From Verif Require Import Base Num XReal Spec RSpec Bars Smooth Volatility Momentum Trend Volume Ranges Trending CasesTrending TrendingB.
Import ListNotations.
Local Unset Implicit Arguments.
Local Open Scope R_scope.

Lemma ascent_rises n : rises n ascent.
Proof. apply climbs_rises, ascent_climbs. Qed.
Lemma descent_falls n : falls n descent.
Proof. apply drops_falls, descent_drops. Qed.
Example roc_trend_case := proj1 (roc_trend ascent 20 4 _ ltac:(lia) (fun k _ => ascent_pos k) eq_refl) (ascent_rises 20).
Example roc_trend_case' := proj2 (roc_trend descent 20 4 _ ltac:(lia) (fun k _ => descent_pos k) eq_refl) (descent_falls 20).
Example pmo_trend_case := proj1 (pmo_trend ascent 20 4 3 _ ltac:(lia) ltac:(lia) ltac:(lia) (fun k _ => ascent_pos k) eq_refl) (ascent_rises 20).
Example elder_force_trend_case := proj1 (elder_force_trend ascent trade 20 4 _ ltac:(lia) (fun k _ => Rlt_le _ _ (trade_pos k)) eq_refl) (ascent_rises 20).
Example kst_trend_case := proj1 (kst_trend ascent 40 _ ltac:(lia) (fun k _ => ascent_pos k) eq_refl) (ascent_rises 40).
Example special_k_trend_case := proj2 (special_k_trend descent 40 _ ltac:(lia) (fun k _ => descent_pos k) eq_refl) (descent_falls 40).
Example vpt_follow_case := vpt_follow ascent trade 20 ltac:(lia) (fun k _ => conj (ascent_pos k) (Rlt_le _ _ (trade_pos k))) (ascent_rises 20).
Example pvi_follow_case := pvi_follow ascent trade 20 (fun k _ => ascent_pos k) (ascent_rises 20).
Example nvi_follow_case := nvi_follow ascent trade 20 (fun k _ => ascent_pos k) (ascent_rises 20).
Example relative_vol_trend_case := proj1 (relative_vol_trend ascent 20 4 3 ltac:(lia) ltac:(lia) ltac:(lia)) (ascent_climbs 20).
Example relative_vol_trend_case' := proj2 (relative_vol_trend descent 20 4 3 ltac:(lia) ltac:(lia) ltac:(lia)) (descent_drops 20).
Example sma_follow_case := sma_follow ascent 20 4 ltac:(lia) (ascent_rises 20).
