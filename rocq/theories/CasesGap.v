(** * The theorems about missing bars applied to twenty-four bars of f64, the
      fifteenth of which (counting from 0) is missing: before it there are
      numbers, from it on there are none. *)
From Coq Require Import Reals Lra Lia List Bool ZArith.
From Flocq Require Import Core IEEE754.BinarySingleNaN.
From Verif Require Import Base Num B64 XReal Spec Bars Refute NaN Smooth Volume Trend Momentum Volatility Regression Gap GapMore GapSkip.
Import ListNotations.
Local Unset Implicit Arguments.

Local Notation is_nan := BinarySingleNaN.is_nan.
Definition zig : list Z := [100; 103; 101; 106; 104; 109; 105; 111; 108; 107; 112; 110; 115; 113; 118; 117; 114; 119; 121; 116; 122; 120; 125; 123]%Z.
Definition whole (k : Z) : list f64 := map (fun z => int (z + k)) zig.
Definition torn (k : Z) : list f64 := firstn 15 (whole k) ++ B754_nan :: skipn 16 (whole k).
Definition number_at (j : nat) (o : list f64) : bool := match nth_error o j with Some x => negb (is_nan x) | None => false end.
Definition ok_at (j : nat) (r : result (list f64)) : bool := match r with Ok o => number_at j o | Panic => false end.
(** Numbers at bar [j], nothing from bar [p] on. *)
Definition silenced_from (p j : nat) (o : list f64) : Prop := (exists x, nth_error o j = Some x /\ is_nan x = false) /\ (forall i x, (p <= i)%nat -> nth_error o i = Some x -> is_nan x = true).
Lemma silenced_at m p j o : number_at j o = true -> lost_from (FO := B64 m) p o -> silenced_from p j o.
Proof.
  unfold number_at. intros H L. split; [destruct (nth_error o j) as [x|]; [|easy]; exists x; split; [easy|]; now destruct (is_nan x)|].
  intros i x Hi E. now rewrite (L i x Hi E).
Qed.
Lemma gap_at m p j (r : result (list f64)) : ok_at j r = true -> (forall o, r = Ok o -> lost_from (FO := B64 m) p o) -> exists o, r = Ok o /\ silenced_from p j o.
Proof. destruct r as [o|]; [|easy]. intros H L. exists o. split; [easy|]. now apply (silenced_at m), L. Qed.
Definition silenced_by m := silenced_at m 15.
Definition gap_case m := gap_at m 15.
Ltac runs m := destruct m as [? ? ? ? ? ? ? []]; vm_compute; reflexivity.
Notation sooner x := (ex_intro _ x (conj (or_introl eq_refl) eq_refl)).
Notation later x := (ex_intro _ x (conj (or_intror (or_introl eq_refl)) eq_refl)).

Section Cases.
  Context (m : libm).
  Local Notation D := (torn 0).
  Local Notation H := (whole 2).
  Local Notation L := (whole (-1)).
  Local Notation O := (whole 1).
  Local Notation V := (whole 900).
  Local Notation B := (B64 m).
  Example ewma_gap_case := gap_case m 8 (@ewma f64 B D 3) ltac:(runs m) (fun o => ewma_gap D 3 o 15 eq_refl).
  Example wilder_gap_case := gap_case m 8 (@wilder f64 B D 3) ltac:(runs m) (fun o => wilder_gap D 3 o 15 ltac:(discriminate) eq_refl).
  Example dema_gap_case := gap_case m 8 (@dema f64 B D 3) ltac:(runs m) (fun o => dema_gap D 3 o 15 eq_refl).
  Example tema_gap_case := gap_case m 8 (@tema f64 B D 3) ltac:(runs m) (fun o => tema_gap D 3 o 15 eq_refl).
  Example t3_gap_case := gap_case m 13 (@t3 f64 B D 3 None) ltac:(runs m) (fun o => t3_gap D 3 None o 15 eq_refl).
  Example zlma_gap_case := gap_case m 8 (@zlma f64 B D 3) ltac:(runs m) (fun o => zlma_gap D 3 o 15 eq_refl).
  Example hwma_gap_case := gap_case m 8 (@hwma f64 B D None None None) ltac:(runs m) (fun o => hwma_gap D None None None o 15 eq_refl).
  Example mdma_gap_case := gap_case m 8 (@mdma f64 B D 3) ltac:(runs m) (fun o => mdma_gap D 3 o 15 eq_refl).
  Example kama_gap_case := gap_case m 8 (@kama f64 B D 3 None None) ltac:(runs m) (fun o => kama_gap D 3 None None o 15 eq_refl).
  Example vma_gap_case := gap_case m 13 (@vma f64 B D 3) ltac:(runs m) (fun o => vma_gap D 3 o 15 ltac:(lia) eq_refl).
  Example vidya_gap_case := gap_at m 39 28 (@vidya f64 B (O ++ D) 3) ltac:(runs m) (fun o => vidya_gap (O ++ D) 3 o 39 eq_refl).
  (** [ssf] and [frama] go through [libm], about whose values nothing is known
      here, so only the silence is shown. *)
  Example ssf_gap_case : exists o, @ssf f64 B D 3 None = Ok o /\ lost_from (FO := B) 15 o.
  Proof. eexists. split; [reflexivity|]. exact (ssf_gap D 3 None _ 15 eq_refl eq_refl). Qed.
  Example frama_gap_case : exists o, @frama f64 B D 4 = Ok (Some o) /\ lost_from (FO := B) 15 o.
  Proof. eexists. split; [reflexivity|]. exact (frama_gap D 4 _ 15 ltac:(lia) eq_refl eq_refl). Qed.
  Example macd_gap_case := gap_case m 8 (@macd f64 B D 3 5) ltac:(runs m) (fun o => macd_gap D 3 5 o 15 eq_refl).
  Example ppo_gap_case := gap_case m 8 (@ppo f64 B D 3 5) ltac:(runs m) (fun o => ppo_gap D 3 5 o 15 eq_refl).
  Example apo_gap_case := gap_case m 8 (@apo f64 B D 3 5) ltac:(runs m) (fun o => apo_gap D 3 5 o 15 eq_refl).
  Example disparity_gap_case := gap_case m 8 (@disparity f64 B D 3) ltac:(runs m) (fun o => disparity_gap D 3 o 15 eq_refl).
  Example trix_gap_case := gap_case m 11 (@trix f64 B D 3) ltac:(runs m) (fun o => trix_gap D 3 o 15 eq_refl).
  Example tsi_gap_case := gap_case m 11 (@tsi f64 B D 3 5) ltac:(runs m) (fun o => tsi_gap D 3 5 o 15 eq_refl).
  Example pmo_gap_case := gap_case m 11 (@pmo f64 B D 3 5) ltac:(runs m) (fun o => pmo_gap D 3 5 o 15 eq_refl).
  Example qstick_gap_case := gap_case m 8 (@qstick f64 B O D 3) ltac:(runs m) (fun o => qstick_gap O D 3 o 15 (later D)).
  Example bal_power_gap_case := gap_case m 8 (@bal_power f64 B D H L O 3) ltac:(runs m) (fun o => bal_power_gap D H L O 3 o 15 (sooner D)).
  Example stc_gap_case := gap_case m 13 (@stc f64 B D 3 3 5) ltac:(runs m) (fun o => stc_gap D 3 3 5 o 15 eq_refl).
  Example atr_gap_case := gap_case m 8 (@atr f64 B (torn 2) (torn (-1)) O 3) ltac:(runs m) (fun o => atr_gap (torn 2) (torn (-1)) O 3 o 15 ltac:(discriminate) ltac:(lia) eq_refl eq_refl).
  Example elder_force_gap_case := gap_case m 8 (@elder_force f64 B D V 3) ltac:(runs m) (fun o => elder_force_gap D V 3 o 15 ltac:(lia) (sooner D)).
  Example vpt_gap_case := gap_case m 8 (@vpt f64 B D V) ltac:(runs m) (fun o => vpt_gap D V o 15 ltac:(lia) (sooner D)).
  Example tvi_gap_case := gap_case m 8 (@tvi f64 B O (torn 900) (dec 1 2)) ltac:(runs m) (fun o => tvi_gap O (torn 900) (dec 1 2) o 15 ltac:(lia) eq_refl).
  Example ad_gap_case := gap_case m 8 (@ad f64 B D L O V None) ltac:(runs m) (fun o => ad_gap D L O V o 15 (sooner D)).
  Example ad_alt_gap_case := gap_case m 8 (@ad f64 B H L D V (Some true)) ltac:(runs m) (fun o => ad_alt_gap H L D V o 15 ltac:(lia) (sooner D)).
  Example kvo_gap_case := gap_case m 8 (@kvo f64 B D L O V 3 5 None) ltac:(runs m) (fun o => kvo_gap D L O V 3 5 None o 15 ltac:(lia) (sooner D)).
  Example obv_gap_case := gap_case m 8 (@obv f64 B D V) ltac:(runs m) (fun o => obv_gap D V o 15 ltac:(lia) (sooner D)).
  Example vwap_gap_case := gap_case m 8 (@vwap f64 B D L O V None) ltac:(runs m) (fun o => vwap_gap D L O V o 15 (sooner D)).
  Example mse_gap_case := silenced_by m 8 (@mse f64 B D O) ltac:(runs m) (mse_gap D O 15 (sooner D)).
  Example rmse_gap_case := silenced_by m 8 (@rmse f64 B D O) ltac:(runs m) (rmse_gap D O 15 (sooner D)).
  Example mae_gap_case := silenced_by m 8 (@mae f64 B D O) ltac:(runs m) (mae_gap D O 15 (sooner D)).
  Example mape_gap_case := silenced_by m 8 (@mape f64 B D O) ltac:(runs m) (mape_gap D O 15 (sooner D)).
  Example mase_gap_case := gap_case m 8 (@mase f64 B D O) ltac:(runs m) (fun o => mase_gap D O o 15 (sooner D)).
  Example emae_gap_case := gap_case m 8 (@emae f64 B D O) ltac:(runs m) (fun o => emae_gap D O o 15 (sooner D)).
  Example elder_ray_gap_case : exists o, @elder_ray f64 B H L D 3 = Ok o /\ lost_from (FO := B) 15 (map fst o) /\ number_at 8 (map fst o) = true.
  Proof. eexists. split; [reflexivity|]. split; [exact (proj1 (elder_ray_gap H L D 3 _ 15 eq_refl eq_refl))|runs m]. Qed.
  Example keltner_gap_case : exists o, @keltner f64 B H L D 3 = Ok o /\ lost_from (FO := B) 15 (map (fun x => fst (fst x)) o) /\ number_at 8 (map (fun x => fst (fst x)) o) = true.
  Proof. eexists. split; [reflexivity|]. split; [exact (proj1 (keltner_gap H L D 3 _ 15 eq_refl eq_refl))|runs m]. Qed.

  (** Those that go on: bar 15 is missing, bar 16 has its value. *)
  Local Notation at' l := (fun k => nth k l B754_nan).
  Example tr_holed_case : exists o, @tr f64 B (series (at' H) 24) (series (at' L) 24) (series (at' D) 24) = Ok o /\ nth_error o 16 = Some (fsub (at' H 16) (at' L 16)).
  Proof. eexists. split; [reflexivity|]. refine (proj1 (tr_holed (at' H) (at' L) (at' D) 24 _ 16 eq_refl ltac:(lia)) eq_refl). Qed.
  Example pvi_holed_case := pvi_holed (FO := B) (at' O) (at' (torn 900)) 24 16 ltac:(lia) (or_intror eq_refl).
  Example nvi_holed_case := nvi_holed (FO := B) (at' O) (at' (torn 900)) 24 15 ltac:(lia) (or_introl eq_refl).
  Example psych_holed_case := psych_holed (FO := B) (at' D) 24 3 ltac:(lia).
  Example rsi_holed_case : ok_at 23 (@rsi f64 B D 3) = true.
  Proof. runs m. Qed.
  Example aroon_holed_case : exists o, @aroon f64 B (series (at' D) 24) (series (at' L) 24) 4 = Ok o /\
    exists up down, nth_error o 19 = Some (up, down) /\ up = fmul (fdiv (fofnat 0) (fofnat 4)) (flit 100 1).
  Proof.
    eexists. split; [reflexivity|]. destruct (aroon_holed (FO := B) (at' D) (at' L) 24 4 _ 19 eq_refl ltac:(lia)) as (u & d & E & H1 & _). exists u, d. split; [exact E|]. now apply H1.
  Qed.
  Example donchian_f64_holed_case : exists o, @donchian f64 B (series (at' D) 24) (series (at' L) 24) 3 = Ok o /\
    exists u mid d, nth_error o 16 = Some (u, mid, d) /\ is_nan u = false /\ Bltb u (at' D 14%nat) = false.
  Proof.
    eexists. split; [reflexivity|]. destruct (donchian_f64_holed m (at' D) (at' L) 24 3 _ 16 ltac:(lia) eq_refl ltac:(lia)) as (u & mid & d & E & H1 & _).
    exists u, mid, d. split; [exact E|]. destruct (H1 14%nat ltac:(lia) eq_refl) as (P1 & P2 & _). split; [exact P1|exact P2].
  Qed.
  Example fbands_f64_holed_case := fbands_f64_holed m (at' D) (at' (torn (-1))) 24.
  (** A missing bar just before the centre of five does not stop a top from
      being seen; as the oldest of the five it does. *)
  Example fbands_top_case : top (at' [int 5; B754_nan; int 9; int 8; int 7]) 4 = true /\ top (at' [B754_nan; int 5; int 9; int 8; int 7]) 4 = false.
  Proof. split; vm_compute; reflexivity. Qed.
  Example smape_f64_holed_case := smape_f64_holed m (at' D) (at' O) 24.
End Cases.
