(** * Mama: the MESA adaptive average (smooth.rs:781-878 [mama]) computes the
    published recurrences, in exact arithmetic. *)

From Coq Require Import Reals Lra Lia.
From Verif Require Import NaN RSpec XRFacts Bars DistReal VolatReal MomReal Adaptive Warm.
Local Unset Implicit Arguments.
Local Open Scope R_scope.

(** ** The specification *)

(** The price smoothed over four bars (0 before the fourth bar). *)
Definition smooth4 (f : nat -> R) (i : nat) : R :=
  if (i <? 3)%nat then 0 else (4 * f i + 3 * f (i - 1)%nat + 2 * f (i - 2)%nat + f (i - 3)%nat) / 10.

(** The Hilbert transformer at bar [i] of a sequence, with its period correction. *)
Definition transform (x : nat -> R) (period : R) (i : nat) : R :=
  (0.0962 * x i + 0.5769 * x (i - 2)%nat - 0.5769 * x (i - 4)%nat - 0.0962 * x (i - 6)%nat) * (0.075 * period + 0.54).

(** Ehlers' equations for the bars [6 <= i < n]: detrender [dt], in-phase and
    quadrature components [i1] and [q1], their phasor averages [i2] and [q2],
    the homodyne discriminator [re] and [im], the smoothed period [pe], the phase
    [ph], the gain [al], and the two averages [ma] and [fa].  Everything is 0
    before bar 6. *)
Record ehlers (f : nat -> R) (n : nat) (fast slow : R)
  (dt i1 q1 i2 q2 re im pe ph al ma fa : nat -> R) : Prop := {
  eh_start : forall i, (i < 6)%nat -> dt i = 0 /\ i1 i = 0 /\ q1 i = 0 /\ i2 i = 0 /\ q2 i = 0 /\ re i = 0 /\ im i = 0 /\
    pe i = 0 /\ ph i = 0 /\ ma i = 0 /\ fa i = 0;
  eh_dt : forall i, (6 <= i < n)%nat -> dt i = transform (smooth4 f) (pe (i - 1)%nat) i;
  eh_q1 : forall i, (6 <= i < n)%nat -> q1 i = transform dt (pe (i - 1)%nat) i;
  eh_i1 : forall i, (6 <= i < n)%nat -> i1 i = dt (i - 3)%nat;
  eh_i2 : forall i, (6 <= i < n)%nat -> i2 i = 0.2 * (i1 i - transform q1 (pe (i - 1)%nat) i) + 0.8 * i2 (i - 1)%nat;
  eh_q2 : forall i, (6 <= i < n)%nat -> q2 i = 0.2 * (q1 i + transform i1 (pe (i - 1)%nat) i) + 0.8 * q2 (i - 1)%nat;
  eh_re : forall i, (6 <= i < n)%nat -> re i = 0.2 * (i2 i * i2 (i - 1)%nat + q2 i * q2 (i - 1)%nat) + 0.8 * re (i - 1)%nat;
  eh_im : forall i, (6 <= i < n)%nat -> im i = 0.2 * (i2 i * q2 (i - 1)%nat - q2 i * i2 (i - 1)%nat) + 0.8 * im (i - 1)%nat;
  (** the period: at most half as long again as the last one and at least two
      thirds of it, between 6 and 50 bars, then smoothed *)
  eh_pe : forall i, (6 <= i < n)%nat -> exists p, (im i <> 0 -> re i <> 0 -> p = 360 / atan (im i / re i)) /\ (im i = 0 \/ re i = 0 -> p = 0) /\
    pe i = 0.2 * clamp 6 50 (clamp (0.67 * pe (i - 1)%nat) (1.5 * pe (i - 1)%nat) p) + 0.8 * pe (i - 1)%nat;
  eh_ph : forall i, (6 <= i < n)%nat -> (i1 i <> 0 -> ph i = atan (q1 i / i1 i)) /\ (i1 i = 0 -> ph i = 0);
  eh_al : forall i, (6 <= i < n)%nat -> al i = Rmax (fast / Rmax (ph (i - 1)%nat - ph i) 1) slow;
  eh_ma : forall i, (6 <= i < n)%nat -> ma i = al i * f i + (1 - al i) * ma (i - 1)%nat;
  eh_fa : forall i, (6 <= i < n)%nat -> fa i = 0.5 * al i * ma i + (1 - 0.5 * al i) * fa (i - 1)%nat
}.

(** ** Proof *)
Record mreal := { m_ma : R; m_fa : R; m_pe : R; m_ph : R; m_re : R; m_im : R; m_i2 : R; m_q2 : R; m_al : R; m_dt : list R; m_i1 : list R; m_q1 : list R }.
Definition hil (a b c d t : R) : R := (962 / 10000 * a + 5769 / 10000 * b - 5769 / 10000 * c - 962 / 10000 * d) * t.
Definition mat (l : list R) (i : nat) : R := nth i l 0.
Definition mlift (s : mreal) : @mama_state xr :=
  {| ms_mama := Fin (m_ma s); ms_fama := Fin (m_fa s); ms_period := Fin (m_pe s); ms_phase := Fin (m_ph s); ms_re := Fin (m_re s); ms_im := Fin (m_im s);
     ms_i2 := Fin (m_i2 s); ms_q2 := Fin (m_q2 s); ms_dtrend := map Fin (m_dt s); ms_i1q := map Fin (m_i1 s); ms_q1q := map Fin (m_q1 s) |}.
Definition mpd (im re : R) : R := if Req im 0 then 0 else if Req re 0 then 0 else 360 / atan (im / re).
Definition mph (q i : R) : R := if Req i 0 then 0 else atan (q / i).
Definition mstep (f : nat -> R) (fast slow : R) (s : mreal) (i : nat) : mreal :=
  let t := 75 / 1000 * m_pe s + 54 / 100 in
  let dt := hil (smooth4 f i) (smooth4 f (i - 2)) (smooth4 f (i - 4)) (smooth4 f (i - 6)) t :: firstn 6 (m_dt s) in
  let q1 := hil (mat dt 0) (mat dt 2) (mat dt 4) (mat dt 6) t :: firstn 6 (m_q1 s) in
  let i1 := mat dt 3 :: firstn 6 (m_i1 s) in
  let ji := hil (mat i1 0) (mat i1 2) (mat i1 4) (mat i1 6) t in
  let jq := hil (mat q1 0) (mat q1 2) (mat q1 4) (mat q1 6) t in
  let i2 := 2 / 10 * (mat i1 0 - jq) + 8 / 10 * m_i2 s in
  let q2 := 2 / 10 * (mat q1 0 + ji) + 8 / 10 * m_q2 s in
  let re := 2 / 10 * (i2 * m_i2 s + q2 * m_q2 s) + 8 / 10 * m_re s in
  let im := 2 / 10 * (i2 * m_q2 s - q2 * m_i2 s) + 8 / 10 * m_im s in
  let pe := 2 / 10 * clamp 6 50 (clamp (67 / 100 * m_pe s) (15 / 10 * m_pe s) (mpd im re)) + 8 / 10 * m_pe s in
  let ph := mph (mat q1 0) (mat i1 0) in
  let al := Rmax (fast / Rmax (m_ph s - ph) 1) slow in
  let ma := al * f i + (1 - al) * m_ma s in
  let fa := 5 / 10 * al * ma + (1 - 5 / 10 * al) * m_fa s in
  {| m_ma := ma; m_fa := fa; m_pe := pe; m_ph := ph; m_re := re; m_im := im; m_i2 := i2; m_q2 := q2; m_al := al; m_dt := dt; m_i1 := i1; m_q1 := q1 |}.

Lemma x_hil a b c d t : hilbert (Fin a) (Fin b) (Fin c) (Fin d) (Fin t) = Fin (hil a b c d t).
Proof. unfold hilbert. now rewrite !x_frac, !x_mul, x_add, !x_sub, x_mul. Qed.
Lemma x_mpd im re : (if fneb (Fin im) (Fin 0) && fneb (Fin re) (Fin 0) then fdiv (Fin 360) (fatan (fdiv (Fin im) (Fin re))) else Fin 0) = Fin (mpd im re).
Proof.
  unfold fneb, mpd. rewrite !x_eqb. destruct (Req im 0) eqn:E1; [easy|]. destruct (Req re 0) eqn:E2; [easy|]. cbn [negb andb].
  apply Req_false in E1, E2. rewrite x_div by easy. change (fatan (Fin (im / re))) with (Fin (atan (im / re))). rewrite x_div; [easy|].
  intros Z. apply E1. apply Rmult_eq_reg_r with (/ re); [|now apply Rinv_neq_0_compat]. rewrite Rmult_0_l. change (im * / re) with (im / re).
  rewrite <- (tan_atan (im / re)), Z. apply tan_0.
Qed.
Lemma x_mph q i : (if fneb (Fin i) (Fin 0) then fatan (fdiv (Fin q) (Fin i)) else Fin 0) = Fin (mph q i).
Proof. unfold fneb, mph. rewrite x_eqb. destruct (Req i 0) eqn:E; [easy|]. cbn [negb]. apply Req_false in E. now rewrite x_div. Qed.
Lemma at_mapfin l i : (i < length l)%nat -> at_ (map Fin l) i = Fin (mat l i).
Proof. intros H. unfold at_, mat. rewrite (nth_indep _ fnan (Fin 0)) by (now rewrite map_length). apply map_nth. Qed.
Lemma push7_fin x l : push7 (Fin x) (map Fin l) = map Fin (x :: firstn 6 l).
Proof. unfold push7. cbn [map]. now rewrite firstn_map. Qed.

Definition mwf (s : mreal) : Prop := 0 <= m_pe s /\ length (m_dt s) = 7%nat /\ length (m_i1 s) = 7%nat /\ length (m_q1 s) = 7%nat.
Lemma clamp_ge lo hi x : lo <= clamp lo hi x.
Proof. apply Rmax_l. Qed.
Lemma mstep_wf f fast slow s i : mwf s -> mwf (mstep f fast slow s i).
Proof.
  intros (P & L1 & L2 & L3). unfold mwf, mstep. cbn [m_pe m_dt m_i1 m_q1 length]. rewrite !firstn_length, L1, L2, L3. repeat split.
  match goal with |- context [clamp 6 50 ?x] => pose proof (clamp_ge 6 50 x) as C; set (y := clamp 6 50 x) in *; clearbody y end. lra.
Qed.
Lemma mama_step_real f fast slow sm data s i : mwf s -> (forall j, (j <= i)%nat -> at_ sm j = Fin (smooth4 f j)) -> at_ data i = Fin (f i) ->
  mama_step (Fin fast) (Fin slow) sm data (mlift s) i =
  Ok (mlift (mstep f fast slow s i), (Fin (m_ma (mstep f fast slow s i)), Fin (m_fa (mstep f fast slow s i)))).
Proof.
  intros (P & L1 & L2 & L3) Hsm Hd. unfold mama_step, mlift.
  cbn [ms_mama ms_fama ms_period ms_phase ms_re ms_im ms_i2 ms_q2 ms_dtrend ms_i1q ms_q1q].
  rewrite !Hsm by lia. rewrite Hd. rewrite (x_frac 75 1000), (x_frac 54 100), (x_frac 2 10), (x_frac 8 10), (x_frac 67 100), (x_frac 15 10), (x_frac 5 10), x_mul, x_add. cbv zeta.
  unfold mstep. set (t := 75 / 1000 * m_pe s + 54 / 100). rewrite x_hil, push7_fin.
  set (dt := hil _ _ _ _ t :: firstn 6 (m_dt s)). assert (Ld : length dt = 7%nat) by (unfold dt; cbn [length]; rewrite firstn_length; lia). clearbody dt.
  rewrite !at_mapfin by lia. rewrite x_hil, !push7_fin.
  set (q1 := hil _ _ _ _ t :: firstn 6 (m_q1 s)). assert (Lq : length q1 = 7%nat) by (unfold q1; cbn [length]; rewrite firstn_length; lia). clearbody q1.
  set (i1 := mat dt 3 :: firstn 6 (m_i1 s)). assert (Li : length i1 = 7%nat) by (unfold i1; cbn [length]; rewrite firstn_length; lia). clearbody i1.
  rewrite !at_mapfin by lia. rewrite !x_hil. rewrite !x_lit.
  rewrite !x_sub, !x_add, !x_mul, !x_add, !x_mul, !x_sub, !x_add, !x_mul, !x_add.
  rewrite x_mpd, x_mph. unfold fclamp. rewrite x_leb, (proj2 (Rleb_true _ _)) by lra. cbn [bind].
  rewrite x_clamp_val, x_clamp_val, x_mul, x_add by lra. rewrite x_sub, x_max.
  rewrite x_div, x_max by (pose proof (Rmax_r (m_ph s - mph (mat q1 0) (mat i1 0)) 1); lra).
  rewrite !x_mul, !x_sub, !x_mul, !x_add, !x_mul, !x_add. reflexivity.
Qed.

Definition minit : mreal := {| m_ma := 0; m_fa := 0; m_pe := 0; m_ph := 0; m_re := 0; m_im := 0; m_i2 := 0; m_q2 := 0; m_al := 0; m_dt := repeat 0 7; m_i1 := repeat 0 7; m_q1 := repeat 0 7 |}.
Lemma mlift_init : mlift minit = mama_init.
Proof. unfold mama_init. now rewrite !x_lit. Qed.
Fixpoint mrun (f : nat -> R) (fast slow : R) (k : nat) : mreal :=
  match k with O => minit | Datatypes.S k' => mstep f fast slow (mrun f fast slow k') (6 + k') end.
Lemma mrun_wf f fast slow k : mwf (mrun f fast slow k).
Proof. induction k as [|k IH]; [repeat split; cbn; lra|]. cbn [mrun]. now apply mstep_wf. Qed.
Lemma mrun_scan f fast slow sm data n : (forall j, (j < n)%nat -> at_ sm j = Fin (smooth4 f j)) -> (forall j, (j < n)%nat -> at_ data j = Fin (f j)) ->
  forall m k, (6 + k + m <= n)%nat ->
  rscan (mama_step (Fin fast) (Fin slow) sm data) (mlift (mrun f fast slow k)) (seq (6 + k) m) =
  Ok (map (fun j => (Fin (m_ma (mrun f fast slow (Datatypes.S j))), Fin (m_fa (mrun f fast slow (Datatypes.S j))))) (seq k m)).
Proof.
  intros H1 H2. induction m as [|m IH]; intros k Hk; [easy|]. cbn [seq rscan map].
  rewrite (mama_step_real f); [|apply mrun_wf|intros; apply H1; lia|apply H2; lia]. cbn [bind].
  change (mstep f fast slow (mrun f fast slow k) (6 + k)) with (mrun f fast slow (Datatypes.S k)).
  replace (Datatypes.S (6 + k)) with (6 + Datatypes.S k)%nat by lia. rewrite IH by lia. reflexivity.
Qed.
Lemma hist_nth (L : mreal -> list R) f fast slow : (forall s i, tl (L (mstep f fast slow s i)) = firstn 6 (L s)) -> L minit = repeat 0 7 ->
  forall k j, (j <= 6)%nat -> mat (L (mrun f fast slow k)) j = mat (L (mrun f fast slow (k - j))) 0.
Proof.
  intros H H0. induction k as [|k IH]; intros j Hj.
  - cbn [mrun Nat.sub]. rewrite H0. do 7 (destruct j as [|j]; [reflexivity|]). lia.
  - destruct j as [|j]; [now rewrite Nat.sub_0_r|]. cbn [Nat.sub]. rewrite <- IH by lia. cbn [mrun]. unfold mat.
    specialize (H (mrun f fast slow k) (6 + k)%nat). destruct (L (mstep f fast slow (mrun f fast slow k) (6 + k))) as [|x l].
    + cbn [tl] in H. assert (E : firstn 6 (L (mrun f fast slow k)) = []) by easy. cbn [nth].
      rewrite <- (firstn_skipn 6 (L (mrun f fast slow k))), E. cbn [app].
      destruct (L (mrun f fast slow k)) as [|y l]; [now destruct j|discriminate].
    + cbn [tl] in H. cbn [nth]. subst l. revert Hj. generalize (L (mrun f fast slow k)). intros l Hj.
      rewrite <- (firstn_skipn 6 l) at 2. destruct (le_lt_dec (length l) j) as [G|G].
      * rewrite !nth_overflow; [easy| |]; rewrite ?app_length, ?skipn_length, ?firstn_length; lia.
      * rewrite app_nth1; [easy|]. rewrite firstn_length. lia.
Qed.
Lemma rscan_app_nil {S A B} (g : S -> A -> result (S * B)) s : rscan g s [] = Ok [].
Proof. reflexivity. Qed.

Lemma mama_run f n fast slow : mama (xseries f n) (option_map Fin fast) (option_map Fin slow) =
  Ok (pad 6 (fnan, fnan) ++ map (fun j => (Fin (m_ma (mrun f (unwrap_or fast 0.5) (unwrap_or slow 0.05) (Datatypes.S j))), Fin (m_fa (mrun f (unwrap_or fast 0.5) (unwrap_or slow 0.05) (Datatypes.S j))))) (seq 0 (n - 6))).
Proof.
  set (fa0 := unwrap_or fast 0.5). set (sl0 := unwrap_or slow 0.05).
  unfold mama.
  replace (unwrap_or (option_map Fin fast) (flit 5 10)) with (Fin fa0) by (unfold fa0; destruct fast; cbn [option_map unwrap_or]; [easy|rewrite x_frac; f_equal; lra]).
  replace (unwrap_or (option_map Fin slow) (flit 5 100)) with (Fin sl0) by (unfold sl0; destruct slow; cbn [option_map unwrap_or]; [easy|rewrite x_frac; f_equal; lra]).
  replace (length (xseries f n)) with n by (symmetry; apply length_series). cbv zeta.
  destruct (le_lt_dec 6 n) as [Hn|Hn].
  + rewrite <- mlift_init. change minit with (mrun f fa0 sl0 0). change 6%nat with (6 + 0)%nat at 2.
    rewrite (mrun_scan f fa0 sl0 _ _ n); [cbn [bind]; reflexivity| | |lia].
    * intros j Hj. unfold at_. destruct (le_lt_dec 3 j) as [L|L].
      -- rewrite app_nth2 by (unfold pad; rewrite repeat_length; lia). unfold pad. rewrite repeat_length. unfold xseries, series. rewrite windows_bars by lia. rewrite map_map.
         rewrite (nth_indep _ fnan (mama_smooth (last_bars 4 (fun k => Fin (f k)) 0))) by (rewrite map_length, seq_length; lia).
         rewrite (map_nth (fun i => mama_smooth (last_bars 4 (fun k => Fin (f k)) i)) _ 0%nat). rewrite seq_nth by lia.
         unfold mama_smooth, last_bars. replace (0 + 4 - 1 + (j - 3) + 1 - 4)%nat with (j - 3)%nat by lia. cbn [seq map at_ nth].
         rewrite !x_lit, !x_mul, !x_add, x_div by lra. unfold smooth4. replace (j <? 3)%nat with false by lia.
         replace (Datatypes.S (j - 3)) with (j - 2)%nat by lia. replace (Datatypes.S (j - 2)) with (j - 1)%nat by lia. replace (Datatypes.S (j - 1)) with j by lia. reflexivity.
      -- rewrite app_nth1 by (unfold pad; rewrite repeat_length; lia). unfold smooth4. replace (j <? 3)%nat with true by lia. destruct j as [|[|[|j]]]; [| | |lia]; cbn [pad repeat nth]; now rewrite x_lit.
    * intros j Hj. unfold xseries. now rewrite at_series by lia.
  + replace (n - 6)%nat with 0%nat by lia. reflexivity.
Qed.
(** mama prints the two averages of Ehlers' equations from the seventh bar on
    (and six NaN pairs even for a shorter series). *)
Theorem mama_real f n fast slow : exists o dt i1 q1 i2 q2 re im pe ph al ma fa,
  mama (xseries f n) (option_map Fin fast) (option_map Fin slow) = Ok o /\
  aligned o n 6 (fnan, fnan) (fun i => (Fin (ma i), Fin (fa i))) /\
  ehlers f n (unwrap_or fast 0.5) (unwrap_or slow 0.05) dt i1 q1 i2 q2 re im pe ph al ma fa.
Proof.
  set (fa0 := unwrap_or fast 0.5). set (sl0 := unwrap_or slow 0.05). set (st i := mrun f fa0 sl0 (i - 5)).
  eexists _, (fun i => mat (m_dt (st i)) 0), (fun i => mat (m_i1 (st i)) 0), (fun i => mat (m_q1 (st i)) 0), (fun i => m_i2 (st i)), (fun i => m_q2 (st i)), (fun i => m_re (st i)), (fun i => m_im (st i)),
    (fun i => m_pe (st i)), (fun i => m_ph (st i)), (fun i => m_al (st i)), (fun i => m_ma (st i)), (fun i => m_fa (st i)).
  assert (ST : forall i, (6 <= i)%nat -> st i = mstep f fa0 sl0 (st (i - 1)%nat) i).
  { intros i Hi. unfold st. replace (i - 5)%nat with (Datatypes.S (i - 6)) by lia. cbn [mrun]. replace (6 + (i - 6))%nat with i by lia. replace (i - 1 - 5)%nat with (i - 6)%nat by lia. reflexivity. }
  assert (HD : forall i j, (j <= 6)%nat -> mat (m_dt (st (i))) j = mat (m_dt (st (i - j)%nat)) 0).
  { intros i j Hj. unfold st. rewrite (hist_nth m_dt); [|reflexivity|reflexivity|easy]. do 3 f_equal. lia. }
  assert (HI : forall i j, (j <= 6)%nat -> mat (m_i1 (st (i))) j = mat (m_i1 (st (i - j)%nat)) 0).
  { intros i j Hj. unfold st. rewrite (hist_nth m_i1); [|reflexivity|reflexivity|easy]. do 3 f_equal. lia. }
  assert (HQ : forall i j, (j <= 6)%nat -> mat (m_q1 (st (i))) j = mat (m_q1 (st (i - j)%nat)) 0).
  { intros i j Hj. unfold st. rewrite (hist_nth m_q1); [|reflexivity|reflexivity|easy]. do 3 f_equal. lia. }
  split; [|split].
  - apply mama_run.
  - repeat split.
    + rewrite app_length, length_pad, map_length, seq_length. lia.
    + intros i Hi. rewrite nth_error_app1 by (rewrite length_pad; lia). unfold pad. now apply nth_error_repeat.
    + intros i Hi. rewrite nth_error_app2 by (rewrite length_pad; lia). rewrite length_pad, nth_error_map, nth_error_seq by lia.
      cbn [option_map]. unfold st. replace (Datatypes.S (0 + (i - 6))) with (i - 5)%nat by lia. reflexivity.
  - constructor.
    + intros i Hi. unfold st. replace (i - 5)%nat with 0%nat by lia. cbn. repeat split; reflexivity.
    + intros i Hi. rewrite ST by lia. unfold transform, mstep, mat. cbn [m_dt nth]. unfold hil. f_equal; lra.
    + intros i Hi. unfold transform. rewrite <- !HD by lia. rewrite ST by lia. set (s := st (i - 1)%nat). unfold mstep. cbn [m_q1 m_dt].
      set (dt := _ :: firstn 6 (m_dt s)). unfold mat at 1. cbn [nth]. unfold hil. f_equal; lra.
    + intros i Hi. rewrite <- HD by lia. rewrite (ST i) by lia. unfold mstep. cbn [m_i1 m_dt]. unfold mat at 1. now cbn [nth].
    + intros i Hi. unfold transform. rewrite <- !HQ by lia. rewrite ST by lia. set (s := st (i - 1)%nat). unfold mstep. cbn [m_q1 m_dt m_i2 m_i1].
      set (dt := _ :: firstn 6 (m_dt s)). set (q1 := _ :: firstn 6 (m_q1 s)). set (i1 := _ :: firstn 6 (m_i1 s)). unfold hil. lra.
    + intros i Hi. unfold transform. rewrite <- !HI by lia. rewrite ST by lia. set (s := st (i - 1)%nat). unfold mstep. cbn [m_q1 m_dt m_q2 m_i1].
      set (dt := _ :: firstn 6 (m_dt s)). set (q1 := _ :: firstn 6 (m_q1 s)). set (i1 := _ :: firstn 6 (m_i1 s)). unfold hil. lra.
    + intros i Hi. rewrite (ST i) by lia. unfold mstep. cbn [m_re m_i2 m_q2]. lra.
    + intros i Hi. rewrite (ST i) by lia. unfold mstep. cbn [m_im m_i2 m_q2]. lra.
    + intros i Hi. rewrite (ST i) by lia. set (s := st (i - 1)%nat). exists (mpd (m_im (mstep f fa0 sl0 s i)) (m_re (mstep f fa0 sl0 s i))). split; [|split].
      * intros A B. unfold mpd. rewrite (proj2 (Req_false _ _) A), (proj2 (Req_false _ _) B). reflexivity.
      * intros [A|A]; unfold mpd; rewrite (proj2 (Req_true _ _) A); [reflexivity|]. now destruct (Req _ 0).
      * replace 0.2 with (2 / 10) by lra. replace 0.8 with (8 / 10) by lra. replace 0.67 with (67 / 100) by lra. replace 1.5 with (15 / 10) by lra. reflexivity.
    + intros i Hi. rewrite (ST i) by lia. set (s := st (i - 1)%nat). unfold mstep. cbn [m_ph m_i1 m_q1]. unfold mph. set (q := mat (_ :: firstn 6 (m_q1 s)) 0). set (c := mat (_ :: firstn 6 (m_i1 s)) 0). split; intros A.
      * now rewrite (proj2 (Req_false _ _) A).
      * now rewrite (proj2 (Req_true _ _) A).
    + intros i Hi. rewrite (ST i) by lia. reflexivity.
    + intros i Hi. rewrite (ST i) by lia. reflexivity.
    + intros i Hi. rewrite (ST i) by lia. unfold mstep. cbn [m_fa m_al m_ma]. lra.
Qed.

(** ** Consequences of measuring angles in radians

    The published method works in degrees; the code feeds the radians of [atan] to the
    same constants.  The phase therefore never moves by more than pi per bar and the
    gain never falls below [fast / pi]. *)
Lemma mph_bound q i : - PI / 2 < mph q i < PI / 2.
Proof. unfold mph. pose proof PI_RGT_0. destruct (Req i 0); [lra|]. apply atan_bound. Qed.
Lemma mrun_ph f fast slow k : - PI / 2 < m_ph (mrun f fast slow k) < PI / 2.
Proof. destruct k; [cbn; pose proof PI_RGT_0; lra|]. cbn [mrun]. unfold mstep. cbn [m_ph]. apply mph_bound. Qed.
Lemma turn_bound p q : - PI / 2 < p < PI / 2 -> - PI / 2 < q < PI / 2 -> 1 <= Rmax (p - q) 1 <= PI.
Proof. intros A B. pose proof PI2_1. unfold Rmax. destruct (Rle_dec (p - q) 1); split; lra. Qed.
Lemma gain_floor fast d : 0 <= fast -> 1 <= d <= PI -> fast / PI <= fast / d <= fast.
Proof.
  intros F D. split; [apply Rmult_le_compat_l; [easy|]; apply Rinv_le_contravar; lra|].
  apply Rmult_le_reg_r with d; [lra|]. unfold Rdiv. rewrite Rmult_assoc, Rinv_l by lra. nra.
Qed.

Lemma Rmax_same g a b x : a <= x -> b <= x -> x <= g -> Rmax g a = Rmax g b.
Proof. intros. rewrite !Rmax_left by lra. reflexivity. Qed.

(** Whatever the prices, the gain stays between [fast / pi] and the larger of the
    limits: with the defaults (0.5 and 0.05) never below 0.159. *)
Theorem mama_gain f n fast slow : 0 <= unwrap_or fast 0.5 -> exists o al ma,
  mama (xseries f n) (option_map Fin fast) (option_map Fin slow) = Ok o /\
  aligned (map fst o) n 6 fnan (fun i => Fin (ma i)) /\ ma 5%nat = 0 /\
  forall i, (6 <= i < n)%nat -> ma i = ma (i - 1)%nat + al i * (f i - ma (i - 1)%nat) /\
    unwrap_or fast 0.5 / PI <= al i <= Rmax (unwrap_or fast 0.5) (unwrap_or slow 0.05).
Proof.
  intros HF. destruct (mama_real f n fast slow) as (o & dt & i1 & q1 & i2 & q2 & re & im & pe & ph & al & ma & fa & E & A & H). exists o, al, ma. split; [easy|]. split; [|split].
  - destruct A as (A1 & A2 & A3). split; [|split]; [now rewrite map_length|intros i Hi; rewrite nth_error_map, A2 by easy; easy|intros i Hi; rewrite nth_error_map, A3 by easy; easy].
  - apply (eh_start _ _ _ _ _ _ _ _ _ _ _ _ _ _ _ _ H); lia.
  - assert (PH : forall i, (i < n)%nat -> - PI / 2 < ph i < PI / 2).
    { intros i Hi. pose proof PI_RGT_0. destruct (Nat.lt_ge_cases i 6) as [L|L].
      - pose proof (eh_start _ _ _ _ _ _ _ _ _ _ _ _ _ _ _ _ H i L) as (_ & _ & _ & _ & _ & _ & _ & _ & -> & _). lra.
      - destruct (eh_ph _ _ _ _ _ _ _ _ _ _ _ _ _ _ _ _ H i ltac:(lia)) as [P1 P2]. destruct (Req_dec (i1 i) 0) as [Z|Z]; [rewrite P2 by easy; lra|rewrite P1 by easy; apply atan_bound]. }
    intros i Hi. split.
    + rewrite (eh_ma _ _ _ _ _ _ _ _ _ _ _ _ _ _ _ _ H i Hi). ring.
    + rewrite (eh_al _ _ _ _ _ _ _ _ _ _ _ _ _ _ _ _ H i Hi).
      destruct (gain_floor _ _ HF (turn_bound (ph (i - 1)%nat) (ph i) (PH (i - 1)%nat ltac:(lia)) (PH i ltac:(lia)))) as [G1 G2].
      split; [eapply Rle_trans; [exact G1|apply Rmax_l]|]. apply Rmax_lub; [eapply Rle_trans; [exact G2|apply Rmax_l]|apply Rmax_r].
Qed.

(** So a slow limit of at most [fast / pi], such as the default, has no effect. *)
Theorem mama_slow_ignored f n fast s1 s2 : 0 <= unwrap_or fast 0.5 -> unwrap_or s1 0.05 <= unwrap_or fast 0.5 / PI -> unwrap_or s2 0.05 <= unwrap_or fast 0.5 / PI ->
  mama (xseries f n) (option_map Fin fast) (option_map Fin s1) = mama (xseries f n) (option_map Fin fast) (option_map Fin s2).
Proof.
  intros HF H1 H2. rewrite !mama_run. set (fa := unwrap_or fast 0.5) in *. set (a := unwrap_or s1 0.05) in *. set (b := unwrap_or s2 0.05) in *.
  assert (E : forall k, mrun f fa a k = mrun f fa b k).
  { induction k as [|k IH]; [easy|]. cbn [mrun]. rewrite <- IH. unfold mstep.
    set (qq := mat (hil (mat (_ :: firstn 6 (m_dt _)) 0) _ _ _ _ :: _) 0). set (ii := mat (mat (_ :: firstn 6 (m_dt _)) 3 :: _) 0).
    assert (G : Rmax (fa / Rmax (m_ph (mrun f fa a k) - mph qq ii) 1) a = Rmax (fa / Rmax (m_ph (mrun f fa a k) - mph qq ii) 1) b).
    { destruct (gain_floor fa _ HF (turn_bound _ _ (mrun_ph f fa a k) (mph_bound qq ii))) as [G1 G2]. apply (Rmax_same _ _ _ (fa / PI)); easy. }
    rewrite G. reflexivity. }
  do 2 f_equal. apply map_ext. intros j. now rewrite E.
Qed.
Example mama_default_slow_ignored f n s : s <= 0.1 -> mama (xseries f n) None (Some (Fin s)) = mama (xseries f n) None None.
Proof.
  intros H. apply (mama_slow_ignored f n None (Some s) None); cbn [unwrap_or]; [lra| |];
    (apply Rmult_le_reg_r with PI; [apply PI_RGT_0|]; unfold Rdiv; rewrite Rmult_assoc, Rinv_l by (pose proof PI_RGT_0; lra); pose proof PI_4; pose proof PI_RGT_0; nra).
Qed.

(** The cycle length measured by the discriminator is beyond its bounds at every bar:
    the period only ever shrinks by a third or grows by half, within 6 to 50. *)
Theorem mama_period_blind f n fast slow dt i1 q1 i2 q2 re im pe ph al ma fa : ehlers f n fast slow dt i1 q1 i2 q2 re im pe ph al ma fa ->
  forall i, (6 <= i < n)%nat -> 0 <= pe i <= 50 /\
    (pe i = 0.2 * clamp 6 50 (0.67 * pe (i - 1)%nat) + 0.8 * pe (i - 1)%nat \/ pe i = 0.2 * clamp 6 50 (1.5 * pe (i - 1)%nat) + 0.8 * pe (i - 1)%nat).
Proof.
  intros H. assert (B : forall i, (i < n)%nat -> 0 <= pe i <= 50).
  { induction i as [i IH] using lt_wf_ind. intros Hi. destruct (Nat.lt_ge_cases i 6) as [L|L].
    - pose proof (eh_start _ _ _ _ _ _ _ _ _ _ _ _ _ _ _ _ H i L) as (_ & _ & _ & _ & _ & _ & _ & -> & _). lra.
    - destruct (eh_pe _ _ _ _ _ _ _ _ _ _ _ _ _ _ _ _ H i ltac:(lia)) as (p & _ & _ & ->). specialize (IH (i - 1)%nat ltac:(lia) ltac:(lia)).
      match goal with |- context [clamp 6 50 ?x] => assert (6 <= clamp 6 50 x <= 50) by (unfold clamp, Rmax, Rmin; repeat destruct (Rle_dec _ _); lra) end. lra. }
  intros i Hi. split; [apply B; lia|]. pose proof (B (i - 1)%nat ltac:(lia)) as Bp.
  destruct (eh_pe _ _ _ _ _ _ _ _ _ _ _ _ _ _ _ _ H i Hi) as (p & P1 & P2 & ->). set (q := pe (i - 1)%nat) in *. clearbody q.
  assert (P : p <= 0 \/ 75 <= p).
  { destruct (Req_dec (im i) 0) as [Z1|Z1]; [left; rewrite P2 by (now left); lra|]. destruct (Req_dec (re i) 0) as [Z2|Z2]; [left; rewrite P2 by (now right); lra|].
    rewrite P1 by easy. destruct (atan_bound (im i / re i)) as [T1 T2]. pose proof PI_4. pose proof PI_RGT_0. set (t := atan _) in *. clearbody t.
    destruct (Rle_or_lt t 0) as [T|T].
    - left. unfold Rdiv. destruct (Req_dec t 0) as [->|T0]; [rewrite Rinv_0; lra|]. assert (/ t < 0) by (apply Rinv_lt_0_compat; lra). lra.
    - right. apply Rmult_le_reg_r with t; [easy|]. unfold Rdiv. rewrite Rmult_assoc, Rinv_l by lra. lra. }
  assert (C : clamp (0.67 * q) (1.5 * q) p = 0.67 * q \/ clamp (0.67 * q) (1.5 * q) p = 1.5 * q) by (unfold clamp, Rmax, Rmin; repeat destruct (Rle_dec _ _); lra).
  destruct C as [-> | ->]; [now left|now right].
Qed.
