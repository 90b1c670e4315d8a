(** * MamaExact: the exact panic domain of mama in binary64, for every series. *)

From Coq Require Import Reals Lra Lia ZArith List.
From Flocq Require Import Core IEEE754.BinarySingleNaN.
From Verif Require Import Spec BaseFacts Tac SmoothShape XReal RSpec XRFacts Bars B64 F64 F64Facts F64Range MomShape Momentum Smooth NaN Poison MamaF64.
Import ListNotations.
Local Unset Implicit Arguments.

(** ** Specification: the homodyne discriminator that mama runs

    What mama measures at a bar, apart from the averages it prints; the literals are
    those of the published algorithm. Bars before bar 6 count as 0. *)
Section Spec.
  Context {F : Type} {FO : FOps F}.
  Local Open Scope F_scope.
  Record cycle := { detrend : F; quad : F; in_phase2 : F; quad2 : F; re_part : F; im_part : F; period : F }.
  Definition no_cycle : cycle := {| detrend := #0; quad := #0; in_phase2 := #0; quad2 := #0; re_part := #0; im_part := #0; period := #0 |}.
  (** [ago k h]: the measurement [k] bars before the newest one of [h], newest first. *)
  Definition ago (k : nat) (h : list cycle) : cycle := nth k h no_cycle.
  Definition smoothed (p : nat -> F) (i : nat) : F :=
    if (i <? 3)%nat then #0 else (#4 * p i + #3 * p (i - 1)%nat + #2 * p (i - 2)%nat + p (i - 3)%nat) / #10.
  (** A Hilbert transformer reads every other bar. *)
  Definition taps (x0 x2 x4 x6 gain : F) : F :=
    (flit 962 10000 * x0 + flit 5769 10000 * x2 - flit 5769 10000 * x4 - flit 962 10000 * x6) * gain.
  Definition measure (p : nat -> F) (i : nat) (h : list cycle) : cycle :=
    let last := ago 0 h in
    let gain := flit 75 1000 * period last + flit 54 100 in
    let d := taps (smoothed p i) (smoothed p (i - 2)) (smoothed p (i - 4)) (smoothed p (i - 6)) gain in
    let q := taps d (detrend (ago 1 h)) (detrend (ago 3 h)) (detrend (ago 5 h)) gain in
    let i1 := detrend (ago 2 h) in
    let ji := taps i1 (detrend (ago 4 h)) (detrend (ago 6 h)) (detrend (ago 8 h)) gain in
    let jq := taps q (quad (ago 1 h)) (quad (ago 3 h)) (quad (ago 5 h)) gain in
    let i2 := flit 2 10 * (i1 - jq) + flit 8 10 * in_phase2 last in
    let q2 := flit 2 10 * (q + ji) + flit 8 10 * quad2 last in
    let re := flit 2 10 * (i2 * in_phase2 last + q2 * quad2 last) + flit 8 10 * re_part last in
    let im := flit 2 10 * (i2 * quad2 last - q2 * in_phase2 last) + flit 8 10 * im_part last in
    let angle := if fneb im #0 && fneb re #0 then #360 / fatan (im / re) else #0 in
    let bounded := fclamp_val (fclamp_val angle (flit 67 100 * period last) (flit 15 10 * period last)) #6 #50 in
    {| detrend := d; quad := q; in_phase2 := i2; quad2 := q2; re_part := re; im_part := im;
       period := flit 2 10 * bounded + flit 8 10 * period last |}.
  (** The measurements at bars 6, 7, ..., 5 + [k], newest first. *)
  Fixpoint cycles (p : nat -> F) (k : nat) : list cycle :=
    match k with
    | O => []
    | S k => let h := cycles p k in measure p (6 + k) h :: h
    end.
End Spec.

(** Both parts of the phasor have overflowed, or one is NaN: it has no angle. (A part
    that is exactly 0 is skipped by the code.) *)
Definition no_angle (m : libm) (c : @cycle f64) : Prop :=
  @fneb f64 (B64 m) (im_part c) (b64_of_Z 0) = true /\ @fneb f64 (B64 m) (re_part c) (b64_of_Z 0) = true /\
  is_nan (Bdiv mode_NE (im_part c) (re_part c)) = true.

Section Follow.
  Context {F : Type} {FO : FOps F}.
  Local Open Scope F_scope.
  Record same (s : @mama_state F) (h : list (@cycle F)) : Prop := {
    same_dt : ms_dtrend s = map (fun k => detrend (ago k h)) (seq 0 7);
    same_i1 : ms_i1q s = map (fun k => detrend (ago k h)) (seq 3 7);
    same_q1 : ms_q1q s = map (fun k => quad (ago k h)) (seq 0 7);
    same_i2 : ms_i2 s = in_phase2 (ago 0 h); same_q2 : ms_q2 s = quad2 (ago 0 h);
    same_re : ms_re s = re_part (ago 0 h); same_im : ms_im s = im_part (ago 0 h);
    same_pd : ms_period s = period (ago 0 h) }.

  Lemma same_init : same mama_init [].
  Proof. split; try reflexivity. Qed.
  Lemma ago_S (c : cycle) k h : ago (S k) (c :: h) = ago k h. Proof. reflexivity. Qed.
  Lemma ago_0 (c : cycle) h : ago 0 (c :: h) = c. Proof. reflexivity. Qed.


  Definition angle (c : @cycle F) : F := if (fneb (im_part c) #0 && fneb (re_part c) #0)%bool then #360 / fatan (im_part c / re_part c) else #0.
  Lemma period_measure p i h : period (measure p i h) =
    flit 2 10 * fclamp_val (fclamp_val (angle (measure p i h)) (flit 67 100 * period (ago 0 h)) (flit 15 10 * period (ago 0 h))) #6 #50 + flit 8 10 * period (ago 0 h).
  Proof. reflexivity. Qed.
  Lemma step_same fast slow sm data p s h i : same s h ->
    (forall j, (j = i \/ j = i - 2 \/ j = i - 4 \/ j = i - 6)%nat -> at_ sm j = smoothed p j) ->
    (flit 67 100 * ms_period s <=? flit 15 10 * ms_period s) = true ->
    exists s' out, mama_step fast slow sm data s i = Ok (s', out) /\ same s' (measure p i h :: h).
  Proof.
    intros S SM B. unfold mama_step. cbv zeta. unfold fclamp. rewrite B. cbn [bind]. eexists _, _. split; [reflexivity|].
    rewrite !SM by auto. destruct S as [E1 E2 E3 E4 E5 E6 E7 E8].
    split; cbn [ms_dtrend ms_i1q ms_q1q ms_i2 ms_q2 ms_re ms_im ms_period]; rewrite ?E1, ?E2, ?E3, ?E4, ?E5, ?E6, ?E7, ?E8; reflexivity.
  Qed.
End Follow.

Section Exact.
  Context (m : libm).
  Let FO : FOps f64 := B64 m.
  Existing Instance FO.
  Hypothesis atan_num : forall x, is_nan x = false -> is_nan (lm_atan m x) = false.
  Hypothesis atan_nan : lm_atan m B754_nan = B754_nan.

  Definition steady (x : f64) : Prop := fin x /\ (0 <= B2R x <= 128)%R.
  (** One step: it returns, follows the specification, and the new period is a number
      exactly when the phasor has an angle. *)
  Lemma step_exact fast slow sm data p s h i : same s h -> steady (ms_period s) ->
    (forall j, (j = i \/ j = i - 2 \/ j = i - 4 \/ j = i - 6)%nat -> at_ sm j = smoothed p j) ->
    exists s' out, mama_step fast slow sm data s i = Ok (s', out) /\ same s' (measure p i h :: h) /\
      (no_angle m (measure p i h) /\ ms_period s' = B754_nan \/ ~ no_angle m (measure p i h) /\ steady (ms_period s')).
  Proof.
    intros S [PF PV] SM. destruct (step_same fast slow sm data p s h i S SM (bounds_ordered _ PF (proj1 PV))) as (s' & out & E & S'). exists s', out. split; [exact E|]. split; [exact S'|].
    destruct S' as [_ _ _ _ _ _ _ ->]. rewrite ago_0, period_measure. rewrite (same_pd _ _ S) in PF, PV. set (c := measure p i h). set (p0 := period (ago 0 h)) in *. clearbody c p0.
    assert (DEC : no_angle m c /\ angle c = B754_nan \/ ~ no_angle m c /\ is_nan (angle c) = false).
    { unfold no_angle. change (angle c) with (if (@fneb f64 (B64 m) (im_part c) (b64_of_Z 0) && @fneb f64 (B64 m) (re_part c) (b64_of_Z 0))%bool then Bdiv mode_NE (b64_of_Z 360) (lm_atan m (Bdiv mode_NE (im_part c) (re_part c))) else b64_of_Z 0).
      destruct (fneb (im_part c) (b64_of_Z 0)); [|right; split; [now intros (? & _)|reflexivity]].
      destruct (fneb (re_part c) (b64_of_Z 0)); [|right; split; [now intros (_ & ? & _)|reflexivity]]. cbn [andb].
      destruct (is_nan (Bdiv mode_NE (im_part c) (re_part c))) eqn:Q.
      - left. split; [easy|]. destruct (Bdiv mode_NE (im_part c) (re_part c)); try easy. rewrite atan_nan. apply F64.nan_div_r.
      - right. split; [now intros (_ & _ & ?)|]. apply quot_360. now apply atan_num. }
    set (a := angle c) in *. clearbody a. destruct DEC as [[N A]|[N A]]; [left|right]; (split; [exact N|]).
    - subst a. rewrite !(@fclamp_val_nan f64 (B64 m) (B64_nan m)). change (Bplus mode_NE (Bmult mode_NE (b64_lit 2 10) B754_nan) (Bmult mode_NE (b64_lit 8 10) p0) = B754_nan). rewrite F64.nan_mult_r. apply F64.nan_plus_l.
    - assert (PB : bp 7 p0) by (split; [exact PF|]; rewrite Rabs_pos_eq by lra; change (bpow radix2 7) with 128%R; lra).
      assert (M1 : bp 7 (b64_lit 67 100)) by (apply lit_bp; [vm_compute; reflexivity|lia]). assert (M2 : bp 7 (b64_lit 15 10)) by (apply lit_bp; [vm_compute; reflexivity|lia]).
      pose proof (bp_mul' 7 7 14 _ _ M1 PB ltac:(lia) ltac:(lia) ltac:(lia)) as LO. pose proof (bp_mul' 7 7 14 _ _ M2 PB ltac:(lia) ltac:(lia) ltac:(lia)) as HI.
      assert (N1 : is_nan (fclamp_val a (flit 67 100 * p0) (flit 15 10 * p0))%F = false) by (apply clamp_not_nan; [exact A|apply (bp_not_nan 14), LO|apply (bp_not_nan 14), HI]).
      set (pd1 := fclamp_val a _ _) in *. clearbody pd1.
      destruct (clamp_fin m pd1 (b64_of_Z 6) (b64_of_Z 50) 6 50 N1 (xval_of_Z 6 ltac:(lia)) (xval_of_Z 50 ltac:(lia)) ltac:(lra)) as [P2 V2].
      change (@flit f64 (B64 m) 6 1) with (b64_of_Z 6). change (@flit f64 (B64 m) 50 1) with (b64_of_Z 50).
      set (pd2 := fclamp_val pd1 _ _) in *. change (@fclamp_val f64 (B64 m) pd1 (b64_of_Z 6) (b64_of_Z 50)) with pd2 in P2, V2. clearbody pd2.
      assert (MX : bp 7 (Bplus mode_NE (Bmult mode_NE (b64_lit 2 10) pd2) (Bmult mode_NE (b64_lit 8 10) p0))).
      { apply bp_mix; [|exact PB|lia]. split; [exact P2|]. rewrite Rabs_pos_eq by lra. change (bpow radix2 (7 - 1)) with 64%R. lra. }
      assert (NN : nn (Bplus mode_NE (Bmult mode_NE (b64_lit 2 10) pd2) (Bmult mode_NE (b64_lit 8 10) p0))).
      { apply nn_add; (apply nn_mul; [vm_compute; reflexivity|]); apply nn_fin; [exact P2|lra|exact PF|lra]. }
      destruct MX as [MF MB]. split; [exact MF|]. apply (nn_fin _ MF) in NN. change (bpow radix2 7) with 128%R in MB. apply Rabs_le_inv in MB. split; [exact NN|apply MB].
  Qed.

  Lemma run_same fast slow sm data p : forall k a s, same s (cycles p a) -> steady (ms_period s) ->
    (forall q j, (6 + a <= q)%nat -> (q < 6 + a + k)%nat -> (j = q \/ j = q - 2 \/ j = q - 4 \/ j = q - 6)%nat -> at_ sm j = smoothed p j) ->
    (exists q, (a <= q)%nat /\ (q + 1 < a + k)%nat /\ no_angle m (ago 0 (cycles p (q + 1)))) /\ rscan (mama_step fast slow sm data) s (seq (6 + a) k) = Panic \/
    ~ (exists q, (a <= q)%nat /\ (q + 1 < a + k)%nat /\ no_angle m (ago 0 (cycles p (q + 1)))) /\ exists o, rscan (mama_step fast slow sm data) s (seq (6 + a) k) = Ok o /\ length o = k.
  Proof.
    induction k as [|k IH]; intros a s SA ST SM; [right; split; [intros (q & ? & ? & _); lia|exists []; easy]|]. cbn [seq rscan].
    destruct (step_exact fast slow sm data p s _ (6 + a) SA ST (fun j => SM (6 + a) j ltac:(lia) ltac:(lia))%nat) as (s' & out & -> & SA' & C). cbn [bind].
    change (measure p (6 + a) (cycles p a) :: cycles p a) with (cycles p (S a)) in SA'. change (measure p (6 + a) (cycles p a)) with (ago 0 (cycles p (S a))) in C.
    replace (S a) with (a + 1)%nat in C at 1 2 by lia.
    destruct C as [[NA PN]|[NA ST']].
    - destruct k as [|k].
      + right. split; [intros (q & ? & ? & _); lia|]. cbn [seq rscan bind]. eexists. split; [reflexivity|easy].
      + left. split; [exists a; split; [lia|split; [lia|exact NA]]|]. cbn [seq rscan]. assert (Z : mama_step fast slow sm data s' (S (6 + a)) = Panic) by (now apply (step_after_nan m)). now rewrite Z.
    - destruct (IH (S a) s' SA' ST' ltac:(intros q j H1 H2; apply SM; lia)) as [[(q & H1 & H2 & H3) E]|[N (o & E & L)]].
      + left. change (seq (S (6 + a)) k) with (seq (6 + S a) k). rewrite E. split; [|easy]. exists q. split; [lia|split; [lia|exact H3]].
      + right. change (seq (S (6 + a)) k) with (seq (6 + S a) k). rewrite E. split.
        * intros (q & H1 & H2 & H3). destruct (Nat.eq_dec q a) as [->|D]; [now apply NA|]. apply N. exists q. split; [lia|split; [lia|exact H3]].
        * cbn [bind]. eexists. split; [reflexivity|]. cbn. now rewrite L.
  Qed.

  (** mama panics exactly when, at some bar from 6 on other than the last, the phasor
      has no angle. *)
  Theorem mama_f64_outcome (f : nat -> f64) n fast slow :
    outcome (mama (series f n) fast slow) (exists q, (6 <= q)%nat /\ (q + 1 < n)%nat /\ no_angle m (ago 0 (cycles f (q - 5)))) (Nat.max 6 n).
  Proof.
    unfold mama. rewrite length_series. set (fa := unwrap_or fast _). set (sl := unwrap_or slow _). clearbody fa sl. set (sm := pad 3 _ ++ _).
    destruct (run_same fa sl sm (series f n) f (n - 6) 0 mama_init same_init) as [[(q & H1 & H2 & H3) E]|[N (o & E & L)]].
    - destruct (xval_fin_inv _ _ (xval_of_Z 0 ltac:(lia))) as [A B]. split; [exact A|]. change (ms_period mama_init) with (b64_of_Z 0). rewrite B. lra.
    - intros q j Hq Hn Hj. unfold smoothed. destruct (Nat.ltb_spec j 3) as [J|J]; [unfold sm; now apply (sm_start m)|]. unfold sm. rewrite (sm_at m) by lia. reflexivity.
    - left. change (seq 6 (n - 6)) with (seq (6 + 0) (n - 6)). rewrite E. split; [|easy]. exists (q + 6)%nat. split; [lia|split; [lia|]]. now replace (q + 6 - 5)%nat with (q + 1)%nat by lia.
    - right. change (seq 6 (n - 6)) with (seq (6 + 0) (n - 6)). rewrite E. split.
      + intros (q & H1 & H2 & H3). apply N. exists (q - 6)%nat. split; [lia|split; [lia|]]. now replace (q - 6 + 1)%nat with (q - 5)%nat by lia.
      + cbn [bind]. eexists. split; [reflexivity|]. unfold pad. rewrite app_length, repeat_length, L. lia.
  Qed.
End Exact.
