(** * The theorems of [Forget] applied to twenty bars of prices that rise and fall,
      of which the second run sees the last thirteen. *)
From Coq Require Import Reals Lra Lia List.
From Flocq Require Import Core IEEE754.BinarySingleNaN.
From Verif Require Import Base Num B64 XReal Spec RSpec Bars Smooth Volume Volatility Momentum Adaptive F64 F64Err F64Rec Refute Forget.
Import ListNotations.
Local Unset Implicit Arguments.
Local Open Scope R_scope.

(** 10, 12, 10, 12, ...: closes, and around them opens, highs and lows. *)
Definition up (k : nat) : bool := Nat.even k.
Definition sway (k : nat) : R := if up k then 10 else 12.
Definition first (k : nat) : R := if up k then 12 else 10.
Definition top (k : nat) : R := 14.
Definition low (k : nat) : R := 8.
Definition traded (k : nat) : R := if up k then 3 else 5.
Ltac sway := intros; unfold sway, first, top, low, traded, late; repeat destruct (up _); repeat split; lra.

Example ewma_forgets_case := ewma_forgets sway 20 7 3 10 12 ltac:(lia) ltac:(lia) ltac:(sway).
Example wilder_forgets_case := wilder_forgets sway 20 7 3 10 12 ltac:(lia) ltac:(lia) ltac:(sway).
Example dema_forgets_case := dema_forgets sway 20 7 3 10 12 ltac:(lia) ltac:(lia) ltac:(sway).
Example tema_forgets_case := tema_forgets sway 20 7 3 10 12 ltac:(lia) ltac:(lia) ltac:(sway).
Example zlma_forgets_case := zlma_forgets sway 20 7 3 10 12 ltac:(lia) ltac:(vm_compute; lia) ltac:(sway).
Example macd_forgets_case := macd_forgets sway 20 7 3 5 10 12 ltac:(lia) ltac:(lia) ltac:(sway).
Example atr_forgets_case := atr_forgets top low sway 20 7 3 8 14 ltac:(lia) ltac:(lia) ltac:(sway).
Example qstick_forgets_case := qstick_forgets first sway 20 7 3 10 12 ltac:(lia) ltac:(lia) ltac:(sway).
Example bal_power_forgets_case := bal_power_forgets first top low sway 20 7 3 ltac:(lia) ltac:(lia) ltac:(sway).
Example elder_ray_forgets_case := elder_ray_forgets top low sway 20 7 3 10 12 ltac:(lia) ltac:(lia) ltac:(sway).
Example elder_force_forgets_case := elder_force_forgets sway traded 20 7 3 10 ltac:(lia) ltac:(lia)
  ltac:(intros; unfold sway, traded; repeat destruct (up _); unfold Rabs; destruct Rcase_abs; lra).
Example kvo_forgets_case := kvo_forgets top low sway traded 20 7 3 5 None 5 eq_refl ltac:(lia) ltac:(lia) ltac:(sway).
Lemma sway_path i : (2 <= i)%nat -> path 3 sway i <> 0.
Proof.
  intros Hi. assert (T : Rabs (sway i - sway (i - 1)) = 2).
  { destruct i as [|j]; [lia|]. replace (S j - 1)%nat with j by lia. unfold sway, up. rewrite Nat.even_succ, <- Nat.negb_even. destruct (Nat.even j); cbn [negb]; unfold Rabs; destruct Rcase_abs; lra. }
  unfold path. replace (i + 2 - 3)%nat with (i - 1)%nat by lia. change (seq (i - 1) (3 - 1)) with [(i - 1)%nat; S (i - 1)]. replace (S (i - 1)) with i by lia. cbn [map]. rewrite !Rsum_cons, Rsum_nil, T.
  pose proof (Rabs_pos (sway (i - 1) - sway (i - 1 - 1))). lra.
Qed.
Example kama_forgets_case := kama_forgets sway 20 7 3 None None 0 12 ltac:(lia) ltac:(cbn; lia) ltac:(lia) ltac:(lra) ltac:(sway) ltac:(intros; apply sway_path; lia).
Example heikin_ashi_forgets_case := heikin_ashi_forgets first top low sway 20 7 8 14 ltac:(lia) ltac:(sway).
Example obv_forgets_never_case := obv_forgets_never sway traded 20 7 ltac:(lia).
Example vpt_forgets_never_case := vpt_forgets_never sway traded 20 7 ltac:(lia) ltac:(intros; unfold sway; destruct (up _); lra).
Example ad_forgets_never_case := ad_forgets_never top low sway traded 20 7 None eq_refl ltac:(lia) ltac:(intros; unfold top, low; lra).
Example pvi_forgets_never_case := pvi_forgets_never sway traded 20 7 ltac:(lia) ltac:(intros; unfold sway; destruct (up _); lra).
Example nvi_forgets_never_case := nvi_forgets_never sway traded 20 7 ltac:(lia) ltac:(intros; unfold sway; destruct (up _); lra).
Example ewma_remembers_case := ewma_remembers sway 20 7 3 ltac:(lia) ltac:(lia).
Example wilder_remembers_case := wilder_remembers sway 20 7 3 ltac:(lia) ltac:(lia).
(** At the last bar of the twenty, ten bars after the short run printed its first
    average, the two averages are within 2/1024 of one another. *)
Example ewma_forgets_last : exists o o' x y, ewma (xseries sway 20) 3 = Ok o /\ ewma (xseries (late 7 sway) 13) 3 = Ok o' /\
  nth_error o 19 = Some (Fin x) /\ nth_error o' 12 = Some (Fin y) /\ Rabs (x - y) <= 2 / 1024.
Proof.
  destruct ewma_forgets_case as (o & o' & E & E' & F). destruct (F 12%nat ltac:(lia) ltac:(lia)) as (x & y & Hx & Hy & D). exists o, o', x, y. do 4 (split; [assumption|]).
  eapply Rle_trans; [exact D|]. unfold ewma_rest. cbn [minus INR]. simpl pow. lra.
Qed.
(** The same twenty prices in f64. *)
Definition fsway (k : nat) : f64 := if up k then int 10 else int 12.
Lemma fsway_ok k : fin (fsway k) /\ Rabs (B2R (fsway k)) <= 16 /\ 10 <= B2R (fsway k) <= 12.
Proof.
  unfold fsway. destruct (up k); (split; [reflexivity|]); unfold B2R, int; cbn -[IZR]; unfold F2R; cbn [Fnum Fexp]; cbn -[IZR]; (assert (A : forall x y, x = y -> 10 <= y <= 12 -> Rabs x <= 16 /\ 10 <= x <= 12) by (intros; subst; unfold Rabs; destruct Rcase_abs; lra)).
  - eapply A; [|instantiate (1 := 10); lra]. simpl. lra.
  - eapply A; [|instantiate (1 := 12); lra]. simpl. lra.
Qed.
Lemma sized16 : sized 16.
Proof. split; [apply (bpow_le radix2 (-900) 4); easy|apply (bpow_le radix2 4 900); easy]. Qed.
Example ewma_f64_forgets_case m := ewma_f64_forgets m fsway 20 7 3 16 10 12 ltac:(lia) ltac:(lia) ltac:(easy) sized16 ltac:(intros; apply fsway_ok).
Example wilder_f64_forgets_case m := wilder_f64_forgets m fsway 20 7 3 16 10 12 ltac:(lia) ltac:(lia) ltac:(easy) sized16 ltac:(intros; apply fsway_ok).
