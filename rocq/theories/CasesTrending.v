(** * The theorems of [Trending] applied to a price that climbs faster and faster and one
    that drops ever more slowly. *)
From Coq Require Import Reals Lra Lia List.
From Verif Require Import Base Num XReal Spec RSpec Bars Smooth Volatility Momentum Trend Volume Trending.
Import ListNotations.
Local Unset Implicit Arguments.
Local Open Scope R_scope.

Definition ascent (k : nat) : R := (INR k + 1) ^ 2.
Definition descent (k : nat) : R := / (INR k + 1).
Definition trade (k : nat) : R := if Nat.even k then 5 else 3.
Lemma ascent_climbs n : climbs n ascent.
Proof. intros k Hk. unfold ascent. rewrite S_INR. pose proof (pos_INR k). nra. Qed.
Lemma descent_drops n : drops n descent.
Proof. intros k Hk. unfold descent. rewrite S_INR. pose proof (pos_INR k). apply Rinv_lt_contravar; nra. Qed.
Lemma ascent_pos k : 0 < ascent k.
Proof. unfold ascent. pose proof (pos_INR k). nra. Qed.
Lemma descent_pos k : 0 < descent k.
Proof. unfold descent. pose proof (pos_INR k). apply Rinv_0_lt_compat. lra. Qed.
Lemma trade_pos k : 0 < trade k.
Proof. unfold trade. destruct (Nat.even k); lra. Qed.
Definition peak (k : nat) : R := ascent k + 1.
Definition base (k : nat) : R := ascent k / 2.
Lemma peak_climbs n : climbs n peak.
Proof. intros k Hk. pose proof (ascent_climbs n k Hk). unfold peak. lra. Qed.
Lemma base_climbs n : climbs n base.
Proof. intros k Hk. pose proof (ascent_climbs n k Hk). unfold base. lra. Qed.
Lemma inside k : base k <= ascent k <= peak k.
Proof. pose proof (ascent_pos k). unfold base, peak. lra. Qed.

Example rsi_trend_case := proj1 (rsi_trend ascent 20 5 ltac:(lia)) (ascent_climbs 20).
Example rsi_trend_case' := proj2 (rsi_trend descent 20 5 ltac:(lia)) (descent_drops 20).
Example cmo_trend_case := proj1 (cmo_trend ascent 20 5 ltac:(lia)) (ascent_climbs 20).
Example cmo_trend_case' := proj2 (cmo_trend descent 20 5 ltac:(lia)) (descent_drops 20).
Example psych_trend_case := proj1 (psych_trend ascent 20 5 ltac:(lia)) (climbs_rises _ _ (ascent_climbs 20)).
Example psych_trend_case' := proj2 (psych_trend descent 20 5 ltac:(lia)) (descent_drops 20).
Example tsi_trend_case := proj1 (tsi_trend ascent 20 5 4 ltac:(lia) ltac:(lia) ltac:(lia)) (ascent_climbs 20).
Example tsi_trend_case' := proj2 (tsi_trend descent 20 5 4 ltac:(lia) ltac:(lia) ltac:(lia)) (descent_drops 20).
Example aroon_trend_case : exists o, aroon (xseries peak 20) (xseries base 20) 5 = Ok o /\ stays (map fst o) 20 5 100 /\ stays (map snd o) 20 5 0.
Proof.
  destruct (aroon_trend peak base 20 5 ltac:(lia)) as (o & Q & A1 & _ & A3 & _). exists o. split; [exact Q|]. split; [apply A1, climbs_rises, peak_climbs|apply A3, base_climbs].
Qed.
Example aroon_trend_case' : exists o, aroon (xseries descent 20) (xseries descent 20) 5 = Ok o /\ stays (map fst o) 20 5 0 /\ stays (map snd o) 20 5 100.
Proof.
  destruct (aroon_trend descent descent 20 5 ltac:(lia)) as (o & Q & _ & A2 & _ & A4). exists o. split; [exact Q|]. split; [apply A2, descent_drops|apply A4, drops_falls, descent_drops].
Qed.
Example mfi_trend_case := proj1 (mfi_trend ascent ascent ascent trade 20 5 ltac:(lia) ltac:(intros; repeat split; apply ascent_pos || apply trade_pos)) ltac:(intros k Hk; pose proof (ascent_climbs 20 k Hk); lra).
Example mfi_trend_case' := proj2 (mfi_trend descent descent descent trade 20 5 ltac:(lia) ltac:(intros; repeat split; apply descent_pos || apply trade_pos)) ltac:(intros k Hk; pose proof (descent_drops 20 k Hk); lra).
Example ulcer_trend_case := ulcer_trend ascent 20 5 ltac:(lia) ltac:(lia) (fun k _ => ascent_pos k) (climbs_rises _ _ (ascent_climbs 20)).
Example obv_trend_case := obv_trend ascent trade 20 (climbs_rises _ _ (ascent_climbs 20)).
Example adx_trend_case := adx_trend peak base ascent 20 4 5 ltac:(lia) ltac:(lia) ltac:(lia) (fun k _ => inside k) (peak_climbs 20) (climbs_rises _ _ (base_climbs 20)).
Example ewma_follow_case := ewma_follow ascent 20 5 ltac:(lia) (climbs_rises _ _ (ascent_climbs 20)).
Example wilder_follow_case := wilder_follow ascent 20 5 ltac:(lia) (climbs_rises _ _ (ascent_climbs 20)).
Example macd_trend_case : exists o y, macd (xseries ascent 20) 3 6 = Ok o /\ aligned o 20 5 NaN (fun i => Fin (y i)) /\ forall i, (5 <= i < 20)%nat -> 0 <= y i.
Proof. destruct (macd_trend ascent 20 3 6 ltac:(lia) ltac:(lia)) as (o & y & Q & A & R & _). exists o, y. split; [exact Q|]. split; [exact A|]. apply R, climbs_rises, ascent_climbs. Qed.
Example ppo_trend_case : exists o y, ppo (xseries descent 20) 3 6 = Ok o /\ aligned o 20 5 NaN (fun i => Fin (y i)) /\ forall i, (5 <= i < 20)%nat -> y i <= 0.
Proof. destruct (ppo_trend descent 20 3 6 ltac:(lia) ltac:(lia) (fun k _ => descent_pos k)) as (o & y & Q & A & _ & R). exists o, y. split; [exact Q|]. split; [exact A|]. apply R, drops_falls, descent_drops. Qed.
Example atr_stop_follow_case := atr_stop_follow peak base ascent 20 4 (Some 2) ltac:(lia) ltac:(intros k _; pose proof (inside k); lra) ltac:(cbn; lra) (fun k _ => Rlt_le _ _ (ascent_pos k)) (climbs_rises _ _ (ascent_climbs 20)).
