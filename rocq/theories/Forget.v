(** * Forget: what becomes of the past.

    The same function is run twice: on a whole series and on the same series with
    the first [p] bars left out, as after a restart with a shorter history.  The
    recursive averages then differ by a share of the range of the prices that
    shrinks geometrically from bar to bar; the running totals differ by what they
    had reached when the second run began, for ever. *)

From Coq Require Import Reals Lra Lia List.
From Flocq Require Import Core IEEE754.BinarySingleNaN.
From Verif Require Import Base Num B64 XReal Spec RSpec Bars BaseFacts Smooth Volume Volatility Momentum.
From Verif Require Import SmoothReal SmoothReal2 MomReal VolatReal VolumeReal Adaptive F64 F64Facts F64Range F64Err F64Rec Dispatch.
Import ListNotations.
Local Unset Implicit Arguments.
Local Open Scope R_scope.

(** ** Specification *)

(** The series without its first [p] bars. *)
Definition late {A} (p : nat) (f : nat -> A) : nat -> A := fun k => f (p + k)%nat.
(** [o] over [n] bars and [o'] over the last [n - p] of them: from bar [s] of the
    shorter run on, both print numbers and [k] bars later they are within [bound k]. *)
Definition fades (o o' : list xr) (n p s : nat) (bound : nat -> R) : Prop :=
  forall i, (s <= i)%nat -> (p + i < n)%nat ->
  exists x y, nth_error o (p + i) = Some (Fin x) /\ nth_error o' i = Some (Fin y) /\ Rabs (x - y) <= bound (i - s)%nat.
(** Share of an average that is older than the last [k] bars. *)
Definition ewma_rest (w k : nat) : R := (1 - 2 / (INR w + 1)) ^ k.
Definition wilder_rest (w k : nat) : R := (1 - 1 / INR w) ^ k.

(** ** Recursive averages *)
Lemma ewma_from_next w k f i : (k + w - 1 <= i)%nat -> (0 < w)%nat ->
  ewma_from w k f (S i) = f (S i) * (2 / (INR w + 1)) + ewma_from w k f i * (1 - 2 / (INR w + 1)).
Proof.
  intros Hi Hw. unfold ewma_from. replace (S i + 1 - (k + w))%nat with (S (i + 1 - (k + w))) by lia. rewrite seq_S, map_app. cbn [map].
  rewrite ema_snoc. replace (k + w + (i + 1 - (k + w)))%nat with (S i) by lia. reflexivity.
Qed.
Lemma wilder_from_next w k f i : (k + w - 1 <= i)%nat -> (0 < w)%nat ->
  wilder_from w k f (S i) = f (S i) * (1 / INR w) + wilder_from w k f i * (1 - 1 / INR w).
Proof.
  intros Hi Hw. unfold wilder_from. replace (S i + 1 - (k + w - 1))%nat with (S (i + 1 - (k + w - 1))) by lia. rewrite seq_S, map_app. cbn [map].
  rewrite ema_snoc. replace (k + w - 1 + (i + 1 - (k + w - 1)))%nat with (S i) by lia. reflexivity.
Qed.
Lemma gain_ewma w : (0 < w)%nat -> 0 <= 2 / (INR w + 1) <= 1.
Proof.
  intros Hw. assert (1 <= INR w) by (apply (le_INR 1); lia). split; [apply Rlt_le, Rdiv_lt_0_compat; lra|].
  apply Rmult_le_reg_r with (INR w + 1); [lra|]. unfold Rdiv. rewrite Rmult_assoc, Rinv_l; lra.
Qed.
Lemma gain_wilder w : (0 < w)%nat -> 0 <= 1 / INR w <= 1.
Proof.
  intros Hw. assert (1 <= INR w) by (apply (le_INR 1); lia). split; [apply Rlt_le, Rdiv_lt_0_compat; lra|].
  apply Rmult_le_reg_r with (INR w); [lra|]. unfold Rdiv. rewrite Rmult_assoc, Rinv_l; lra.
Qed.

(** Two sequences that move by the same share [a] of the distance to targets that
    are [b] apart. *)
Lemma apart a (y z b : nat -> R) (B : nat -> R) : 0 <= a <= 1 -> Rabs (y 0%nat - z 0%nat) <= B 0%nat ->
  (forall m, exists u v, y (S m) = u * a + y m * (1 - a) /\ z (S m) = v * a + z m * (1 - a) /\ Rabs (u - v) <= b (S m)) ->
  (forall m, B (S m) = (1 - a) * B m + a * b (S m)) -> forall m, Rabs (y m - z m) <= B m.
Proof.
  intros Ha H0 H HB. induction m as [|m IH]; [exact H0|]. destruct (H m) as (u & v & -> & -> & D). rewrite HB.
  replace (u * a + y m * (1 - a) - (v * a + z m * (1 - a))) with ((1 - a) * (y m - z m) + a * (u - v)) by ring.
  eapply Rle_trans; [apply Rabs_triang|]. rewrite !Rabs_mult, (Rabs_right (1 - a)), (Rabs_right a) by lra. apply Rplus_le_compat; apply Rmult_le_compat_l; lra.
Qed.
Lemma in_range lo hi x y : lo <= x <= hi -> lo <= y <= hi -> Rabs (x - y) <= hi - lo.
Proof. intros Hx Hy. apply Rabs_le. lra. Qed.

Section Levels.
  Context (w p n : nat) (f : nat -> R) (lo hi : R) (Hw : (0 < w)%nat).
  Context (H : forall k, (k < n)%nat -> lo <= f k <= hi).
  Let a := 2 / (INR w + 1).
  Let g := late p f.
  Lemma late_range k : (p + k < n)%nat -> lo <= g k <= hi.
  Proof. intros Hk. apply H. exact Hk. Qed.

  (** One, two and three averages on top of one another. *)
  Let e1 := ewma_from w 0 f.
  Let d1 := ewma_from w 0 g.
  Let e2 := ewma_from w (w - 1) e1.
  Let d2 := ewma_from w (w - 1) d1.
  Let e3 := ewma_from w (2 * w - 2) e2.
  Let d3 := ewma_from w (2 * w - 2) d2.
  Lemma e1_in i : (w - 1 <= i < n)%nat -> lo <= e1 i <= hi.
  Proof. intros Hi. apply ewma_from_bounds; [easy|lia|]. intros j Hj. apply H. lia. Qed.
  Lemma d1_in i : (w - 1 <= i)%nat -> (p + i < n)%nat -> lo <= d1 i <= hi.
  Proof. intros Hi Hn. apply ewma_from_bounds; [easy|lia|]. intros j Hj. apply late_range. lia. Qed.
  Lemma e2_in i : (2 * w - 2 <= i < n)%nat -> lo <= e2 i <= hi.
  Proof. intros Hi. apply ewma_from_bounds; [easy|lia|]. intros j Hj. apply e1_in. lia. Qed.
  Lemma d2_in i : (2 * w - 2 <= i)%nat -> (p + i < n)%nat -> lo <= d2 i <= hi.
  Proof. intros Hi Hn. apply ewma_from_bounds; [easy|lia|]. intros j Hj. apply d1_in; lia. Qed.
  Lemma e3_in i : (3 * w - 3 <= i < n)%nat -> lo <= e3 i <= hi.
  Proof. intros Hi. apply ewma_from_bounds; [easy|lia|]. intros j Hj. apply e2_in. lia. Qed.
  Lemma d3_in i : (3 * w - 3 <= i)%nat -> (p + i < n)%nat -> lo <= d3 i <= hi.
  Proof. intros Hi Hn. apply ewma_from_bounds; [easy|lia|]. intros j Hj. apply d2_in; lia. Qed.

  Lemma lohi : (p < n)%nat -> 0 <= hi - lo.
  Proof. intros Hp. pose proof (H 0%nat ltac:(lia)). lra. Qed.
  (** Closed forms of the bounds: with [r = (1 - a)^m],
      [r], [(1 + m a) r] and [(1 + m a + a^2 m (m + 1) / 2) r]. *)
  Definition rest2 (m : nat) : R := (1 + INR m * a) * ewma_rest w m.
  Definition rest3 (m : nat) : R := (1 + INR m * a + a ^ 2 * INR m * (INR m + 1) / 2) * ewma_rest w m.
  Lemma ewma_rest_S m : ewma_rest w (S m) = (1 - a) * ewma_rest w m.
  Proof. reflexivity. Qed.
  Lemma rest2_S m : rest2 (S m) = (1 - a) * rest2 m + a * ewma_rest w (S m).
  Proof. unfold rest2. rewrite ewma_rest_S, S_INR. ring. Qed.
  Lemma rest3_S m : rest3 (S m) = (1 - a) * rest3 m + a * rest2 (S m).
  Proof. unfold rest3, rest2. rewrite ewma_rest_S, S_INR. field. Qed.
  Lemma rest_pos m : 0 <= ewma_rest w m.
  Proof. apply pow_le. pose proof (gain_ewma w Hw). fold a. unfold a. lra. Qed.
  Lemma rest_dec m k : ewma_rest w (k + m) <= ewma_rest w m.
  Proof.
    induction k as [|k IH]; [cbn [plus]; lra|]. cbn [plus]. rewrite ewma_rest_S. pose proof (rest_pos (k + m)). pose proof (gain_ewma w Hw) as G. fold a in G. nra.
  Qed.
  Lemma rest2_dec m k : rest2 (k + m) <= rest2 m.
  Proof.
    induction k as [|k IH]; [cbn [plus]; lra|]. cbn [plus]. rewrite rest2_S. pose proof (rest_pos (k + m)). pose proof (gain_ewma w Hw) as G. fold a in G.
    unfold rest2 in *. rewrite ewma_rest_S. pose proof (pos_INR (k + m)) as Q. set (r := ewma_rest w (k + m)) in *. set (q := INR (k + m)) in *.
    assert ((1 - a) * ((1 + q * a) * r) + a * ((1 - a) * r) <= (1 + q * a) * r); [|lra].
    assert (0 <= a * r) by (apply Rmult_le_pos; lra). assert (0 <= q * a) by (apply Rmult_le_pos; lra). nra.
  Qed.

  Lemma level1 m : (p + (w - 1 + m) < n)%nat -> Rabs (e1 (p + (w - 1 + m)) - d1 (w - 1 + m)) <= ewma_rest w m * (hi - lo).
  Proof.
    intros Hm. induction m as [|m IH].
    - unfold ewma_rest. cbn [pow]. rewrite Rmult_1_l. apply in_range; [apply e1_in|apply d1_in]; lia.
    - specialize (IH ltac:(lia)). unfold e1, d1 in *. replace (p + (w - 1 + S m))%nat with (S (p + (w - 1 + m))) by lia. replace (w - 1 + S m)%nat with (S (w - 1 + m)) by lia.
      rewrite !ewma_from_next by lia. fold a. replace (g (S (w - 1 + m))) with (f (S (p + (w - 1 + m)))) by (unfold g, late; f_equal; lia).
      rewrite ewma_rest_S. match goal with |- Rabs ?x <= _ => replace x with ((1 - a) * (ewma_from w 0 f (p + (w - 1 + m)) - ewma_from w 0 g (w - 1 + m))) by ring end.
      pose proof (gain_ewma w Hw) as G. fold a in G. rewrite Rabs_mult, (Rabs_right (1 - a)) by lra. rewrite Rmult_assoc. apply Rmult_le_compat_l; lra.
  Qed.
  Lemma level2 m : (p + (2 * w - 2 + m) < n)%nat -> Rabs (e2 (p + (2 * w - 2 + m)) - d2 (2 * w - 2 + m)) <= rest2 m * (hi - lo).
  Proof.
    intros Hm. induction m as [|m IH].
    - unfold rest2, ewma_rest. cbn [pow INR]. replace ((1 + 0 * a) * 1 * (hi - lo)) with (hi - lo) by ring. apply in_range; [apply e2_in|apply d2_in]; lia.
    - specialize (IH ltac:(lia)). unfold e2, d2 in *. replace (p + (2 * w - 2 + S m))%nat with (S (p + (2 * w - 2 + m))) by lia. replace (2 * w - 2 + S m)%nat with (S (2 * w - 2 + m)) by lia.
      rewrite !ewma_from_next by lia. fold a. rewrite rest2_S.
      assert (D : Rabs (e1 (S (p + (2 * w - 2 + m))) - d1 (S (2 * w - 2 + m))) <= ewma_rest w (S m) * (hi - lo)).
      { replace (S (p + (2 * w - 2 + m))) with (p + (w - 1 + (w - 1 + S m)))%nat by lia. replace (S (2 * w - 2 + m)) with (w - 1 + (w - 1 + S m))%nat by lia.
        eapply Rle_trans; [apply level1; lia|]. apply Rmult_le_compat_r; [apply lohi; lia|apply rest_dec]. }
      set (u := e1 _) in *. set (v := d1 _) in *. set (x := ewma_from w (w - 1) e1 _) in *. set (y := ewma_from w (w - 1) d1 _) in *.
      replace (u * a + x * (1 - a) - (v * a + y * (1 - a))) with ((1 - a) * (x - y) + a * (u - v)) by ring. pose proof (gain_ewma w Hw) as G. fold a in G.
      eapply Rle_trans; [apply Rabs_triang|]. rewrite !Rabs_mult, (Rabs_right (1 - a)), (Rabs_right a) by lra. rewrite Rmult_plus_distr_r, !Rmult_assoc. apply Rplus_le_compat; apply Rmult_le_compat_l; lra.
  Qed.
  Lemma level3 m : (p + (3 * w - 3 + m) < n)%nat -> Rabs (e3 (p + (3 * w - 3 + m)) - d3 (3 * w - 3 + m)) <= rest3 m * (hi - lo).
  Proof.
    intros Hm. induction m as [|m IH].
    - unfold rest3, ewma_rest. cbn [pow INR]. replace ((1 + 0 * a + a * (a * 1) * 0 * (0 + 1) / 2) * 1 * (hi - lo)) with (hi - lo) by field. apply in_range; [apply e3_in|apply d3_in]; lia.
    - specialize (IH ltac:(lia)). unfold e3, d3 in *. replace (p + (3 * w - 3 + S m))%nat with (S (p + (3 * w - 3 + m))) by lia. replace (3 * w - 3 + S m)%nat with (S (3 * w - 3 + m)) by lia.
      rewrite !ewma_from_next by lia. fold a. rewrite rest3_S.
      assert (D : Rabs (e2 (S (p + (3 * w - 3 + m))) - d2 (S (3 * w - 3 + m))) <= rest2 (S m) * (hi - lo)).
      { replace (S (p + (3 * w - 3 + m))) with (p + (2 * w - 2 + (w - 1 + S m)))%nat by lia. replace (S (3 * w - 3 + m)) with (2 * w - 2 + (w - 1 + S m))%nat by lia.
        eapply Rle_trans; [apply level2; lia|]. apply Rmult_le_compat_r; [apply lohi; lia|apply rest2_dec]. }
      set (u := e2 _) in *. set (v := d2 _) in *. set (x := ewma_from w (2 * w - 2) e2 _) in *. set (y := ewma_from w (2 * w - 2) d2 _) in *.
      replace (u * a + x * (1 - a) - (v * a + y * (1 - a))) with ((1 - a) * (x - y) + a * (u - v)) by ring. pose proof (gain_ewma w Hw) as G. fold a in G.
      eapply Rle_trans; [apply Rabs_triang|]. rewrite !Rabs_mult, (Rabs_right (1 - a)), (Rabs_right a) by lra. rewrite Rmult_plus_distr_r, !Rmult_assoc. apply Rplus_le_compat; apply Rmult_le_compat_l; lra.
  Qed.
End Levels.

(** The same for an average that starts at bar [k]. *)
Lemma ewma_late w k p n f lo hi m : (0 < w)%nat -> (forall j, (k <= j < n)%nat -> lo <= f j <= hi) -> (p + (k + w - 1 + m) < n)%nat ->
  Rabs (ewma_from w k f (p + (k + w - 1 + m)) - ewma_from w k (late p f) (k + w - 1 + m)) <= ewma_rest w m * (hi - lo).
Proof.
  intros Hw H Hm. pose proof (gain_ewma w Hw) as G. set (a := 2 / (INR w + 1)) in *. induction m as [|m IH].
  - unfold ewma_rest. cbn [pow]. rewrite Rmult_1_l. apply in_range; apply ewma_from_bounds; try lia; intros j Hj; [apply H; lia|]. unfold late. apply H. lia.
  - specialize (IH ltac:(lia)). replace (p + (k + w - 1 + S m))%nat with (S (p + (k + w - 1 + m))) by lia. replace (k + w - 1 + S m)%nat with (S (k + w - 1 + m)) by lia.
    rewrite !ewma_from_next by lia. fold a. replace (late p f (S (k + w - 1 + m))) with (f (S (p + (k + w - 1 + m)))) by (unfold late; f_equal; lia).
    unfold ewma_rest in *. cbn [pow]. fold a in IH |- *. match goal with |- Rabs ?x <= _ => replace x with ((1 - a) * (ewma_from w k f (p + (k + w - 1 + m)) - ewma_from w k (late p f) (k + w - 1 + m))) by ring end.
    rewrite Rabs_mult, (Rabs_right (1 - a)) by lra. rewrite Rmult_assoc. apply Rmult_le_compat_l; lra.
Qed.
Lemma wilder_late w k p n f lo hi m : (0 < w)%nat -> (forall j, (k <= j < n)%nat -> lo <= f j <= hi) -> (p + (k + w - 1 + m) < n)%nat ->
  Rabs (wilder_from w k f (p + (k + w - 1 + m)) - wilder_from w k (late p f) (k + w - 1 + m)) <= wilder_rest w m * (hi - lo).
Proof.
  intros Hw H Hm. pose proof (gain_wilder w Hw) as G. set (a := 1 / INR w) in *. induction m as [|m IH].
  - unfold wilder_rest. cbn [pow]. rewrite Rmult_1_l. apply in_range; apply wilder_from_bounds; try lia; intros j Hj; [apply H; lia|]. unfold late. apply H. lia.
  - specialize (IH ltac:(lia)). replace (p + (k + w - 1 + S m))%nat with (S (p + (k + w - 1 + m))) by lia. replace (k + w - 1 + S m)%nat with (S (k + w - 1 + m)) by lia.
    rewrite !wilder_from_next by lia. fold a. replace (late p f (S (k + w - 1 + m))) with (f (S (p + (k + w - 1 + m)))) by (unfold late; f_equal; lia).
    unfold wilder_rest in *. cbn [pow]. fold a in IH |- *. match goal with |- Rabs ?x <= _ => replace x with ((1 - a) * (wilder_from w k f (p + (k + w - 1 + m)) - wilder_from w k (late p f) (k + w - 1 + m))) by ring end.
    rewrite Rabs_mult, (Rabs_right (1 - a)) by lra. rewrite Rmult_assoc. apply Rmult_le_compat_l; lra.
Qed.

Lemma aligned_at {B} (o : list B) n k na f i : aligned o n k na f -> (k <= i < n)%nat -> nth_error o i = Some (f i).
Proof. intros (_ & _ & V). apply V. Qed.

Lemma fade o o' n p k k' na na' (F F' B : nat -> R) s : aligned o n k na (fun i => Fin (F i)) -> aligned o' (n - p) k' na' (fun i => Fin (F' i)) ->
  (k <= p + s)%nat -> (k' <= s)%nat -> (forall m, (p + (s + m) < n)%nat -> Rabs (F (p + (s + m))%nat - F' (s + m)%nat) <= B m) -> fades o o' n p s B.
Proof.
  intros A A' Hk Hk' H i Hi Hp. rewrite (aligned_at _ _ _ _ _ _ A) by lia. rewrite (aligned_at _ _ _ _ _ _ A') by lia.
  eexists _, _. split; [reflexivity|]. split; [reflexivity|]. specialize (H (i - s)%nat). replace (s + (i - s))%nat with i in H by lia. apply H. exact Hp.
Qed.

Theorem ewma_forgets f n p w lo hi : (0 < w)%nat -> (p + w <= n)%nat -> (forall k, (k < n)%nat -> lo <= f k <= hi) ->
  exists o o', ewma (xseries f n) w = Ok o /\ ewma (xseries (late p f) (n - p)) w = Ok o' /\
  fades o o' n p (w - 1) (fun k => ewma_rest w k * (hi - lo)).
Proof.
  intros Hw Hn H. destruct (ewma_from_at f w 0 n) as (o & E & A); [lia|]. destruct (ewma_from_at (late p f) w 0 (n - p)) as (o' & E' & A'); [lia|].
  exists o, o'. split; [exact E|]. split; [exact E'|]. eapply fade; [exact A|exact A'|lia|lia|]. intros m Hm. cbn [plus].
  apply (ewma_late w 0 p n f lo hi m Hw); [|easy]. intros j Hj. apply H. lia.
Qed.
Theorem wilder_forgets f n p w lo hi : (0 < w)%nat -> (p + w <= n)%nat -> (forall k, (k < n)%nat -> lo <= f k <= hi) ->
  exists o o', wilder (xseries f n) w = Ok o /\ wilder (xseries (late p f) (n - p)) w = Ok o' /\
  fades o o' n p (w - 1) (fun k => wilder_rest w k * (hi - lo)).
Proof.
  intros Hw Hn H. destruct (wilder_from_at f w 0 n) as (o & E & A); [lia|]. destruct (wilder_from_at (late p f) w 0 (n - p)) as (o' & E' & A'); [lia|].
  exists o, o'. split; [exact E|]. split; [exact E'|]. eapply fade; [exact A|exact A'|lia|lia|]. intros m Hm. cbn [plus].
  apply (wilder_late w 0 p n f lo hi m Hw); [|easy]. intros j Hj. apply H. lia.
Qed.

Lemma abs2 x y b c : Rabs x <= b -> Rabs y <= c -> Rabs (x - y) <= b + c.
Proof. intros H1 H2. unfold Rminus. eapply Rle_trans; [apply Rabs_triang|]. rewrite Rabs_Ropp. lra. Qed.
Lemma abs_scale k x b : 0 <= k -> Rabs x <= b -> Rabs (k * x) <= k * b.
Proof. intros H1 H2. rewrite Rabs_mult, (Rabs_right k) by lra. now apply Rmult_le_compat_l. Qed.

Lemma realign (o : list xr) n k na (f g : nat -> xr) : aligned o n k na f -> (forall i, (k <= i < n)%nat -> f i = g i) -> aligned o n k na g.
Proof. intros A H. revert A. now apply aligned_ext. Qed.
Lemma series_length {A} (f : nat -> A) n : length (series f n) = n.
Proof. unfold series. now rewrite map_length, seq_length. Qed.

(** Two averages on top of one another: [2 e1 - e2]. *)
Theorem dema_forgets f n p w lo hi : (0 < w)%nat -> (p + (2 * w - 1) <= n)%nat -> (forall k, (k < n)%nat -> lo <= f k <= hi) ->
  let a := 2 / (INR w + 1) in
  exists o o', dema (xseries f n) w = Ok o /\ dema (xseries (late p f) (n - p)) w = Ok o' /\
  fades o o' n p (2 * w - 2) (fun k => (3 + INR k * a) * ewma_rest w k * (hi - lo)).
Proof.
  intros Hw Hn H a. rewrite !xseries_map. destruct (dema_real (series f n) w Hw) as (o & E & A); [rewrite series_length; lia|]. destruct (dema_real (series (late p f) (n - p)) w Hw) as (o' & E' & A'); [rewrite series_length; lia|].
  exists o, o'. split; [exact E|]. split; [exact E'|]. rewrite series_length in A, A'. cbv zeta in A, A'.
  apply (realign _ n _ _ _ (fun i => Fin (2 * ewma_from w 0 f i - ewma_from w (w - 1) (ewma_from w 0 f) i))) in A.
  2:{ intros i Hi. assert (S : forall j, (w - 1 <= j <= i)%nat -> ewma_from w 0 (fun j => nth j (series f n) 0) j = ewma_from w 0 f j) by (intros j Hj; apply ewma_from_ext; try lia; intros; apply nth_series0; lia).
      f_equal. rewrite S by lia. f_equal. apply ewma_from_ext; try lia. intros j Hj. apply S. lia. }
  apply (realign _ (n - p) _ _ _ (fun i => Fin (2 * ewma_from w 0 (late p f) i - ewma_from w (w - 1) (ewma_from w 0 (late p f)) i))) in A'.
  2:{ intros i Hi. assert (S : forall j, (w - 1 <= j <= i)%nat -> ewma_from w 0 (fun j => nth j (series (late p f) (n - p)) 0) j = ewma_from w 0 (late p f) j) by (intros j Hj; apply ewma_from_ext; try lia; intros; apply nth_series0; lia).
      f_equal. rewrite S by lia. f_equal. apply ewma_from_ext; try lia. intros j Hj. apply S. lia. }
  eapply fade; [exact A|exact A'|lia|lia|]. intros m Hm. cbv beta.
  pose proof (level2 w p n f lo hi Hw H m Hm) as L2. pose proof (level1 w p n f lo hi Hw H (w - 1 + m) ltac:(lia)) as L1.
  replace (w - 1 + (w - 1 + m))%nat with (2 * w - 2 + m)%nat in L1 by lia. pose proof (rest_dec w Hw m (w - 1)) as D. assert (P : 0 <= hi - lo) by (pose proof (H 0%nat ltac:(lia)); lra).
  set (x := ewma_from w 0 f _) in *. set (y := ewma_from w 0 (late p f) _) in *. set (u := ewma_from w (w - 1) _ (p + _)%nat) in *. set (v := ewma_from w (w - 1) _ (2 * w - 2 + m)%nat) in *.
  replace (2 * x - u - (2 * y - v)) with (2 * (x - y) - (u - v)) by ring.
  replace ((3 + INR m * a) * ewma_rest w m * (hi - lo)) with (2 * (ewma_rest w m * (hi - lo)) + rest2 w m * (hi - lo)) by (unfold rest2; fold a; ring).
  apply abs2; [|exact L2]. apply abs_scale; [lra|]. eapply Rle_trans; [exact L1|]. apply Rmult_le_compat_r; lra.
Qed.
(** Three of them: [3 e1 - 3 e2 + e3]. *)
Theorem tema_forgets f n p w lo hi : (0 < w)%nat -> (p + (3 * w - 2) <= n)%nat -> (forall k, (k < n)%nat -> lo <= f k <= hi) ->
  let a := 2 / (INR w + 1) in
  exists o o', tema (xseries f n) w = Ok o /\ tema (xseries (late p f) (n - p)) w = Ok o' /\
  fades o o' n p (3 * w - 3) (fun k => (7 + 4 * (INR k * a) + a ^ 2 * INR k * (INR k + 1) / 2) * ewma_rest w k * (hi - lo)).
Proof.
  intros Hw Hn H a. rewrite !xseries_map. destruct (tema_real (series f n) w Hw) as (o & E & A); [rewrite series_length; lia|]. destruct (tema_real (series (late p f) (n - p)) w Hw) as (o' & E' & A'); [rewrite series_length; lia|].
  exists o, o'. split; [exact E|]. split; [exact E'|]. rewrite series_length in A, A'. cbv zeta in A, A'.
  assert (X : forall f n i, (3 * w - 3 <= i < n)%nat -> let e1 := ewma_from w 0 (fun j => nth j (series f n) 0) in let e2 := ewma_from w (w - 1) e1 in let e3 := ewma_from w (2 * w - 2) e2 in
     let d1 := ewma_from w 0 f in let d2 := ewma_from w (w - 1) d1 in let d3 := ewma_from w (2 * w - 2) d2 in 3 * e1 i - 3 * e2 i + e3 i = 3 * d1 i - 3 * d2 i + d3 i).
  { clear -Hw. intros f n i Hi e1 e2 e3 d1 d2 d3. assert (S1 : forall j, (w - 1 <= j <= i)%nat -> e1 j = d1 j) by (intros j Hj; apply ewma_from_ext; try lia; intros; apply nth_series0; lia).
    assert (S2 : forall j, (2 * w - 2 <= j <= i)%nat -> e2 j = d2 j) by (intros j Hj; apply ewma_from_ext; try lia; intros; apply S1; lia).
    assert (S3 : e3 i = d3 i) by (apply ewma_from_ext; try lia; intros; apply S2; lia). rewrite S1, S2, S3 by lia. reflexivity. }
  eapply realign in A; [|intros i Hi; exact (f_equal Fin (X f n i Hi))]. eapply realign in A'; [|intros i Hi; exact (f_equal Fin (X (late p f) (n - p)%nat i Hi))]. clear X.
  eapply fade; [exact A|exact A'|lia|lia|]. intros m Hm. cbv beta.
  pose proof (level3 w p n f lo hi Hw H m Hm) as L3. pose proof (level2 w p n f lo hi Hw H (w - 1 + m) ltac:(lia)) as L2. pose proof (level1 w p n f lo hi Hw H (2 * w - 2 + m) ltac:(lia)) as L1.
  replace (w - 1 + (2 * w - 2 + m))%nat with (3 * w - 3 + m)%nat in L1 by lia. replace (2 * w - 2 + (w - 1 + m))%nat with (3 * w - 3 + m)%nat in L2 by lia.
  pose proof (rest_dec w Hw m (2 * w - 2)) as D. pose proof (rest2_dec w Hw m (w - 1)) as D2. assert (P : 0 <= hi - lo) by (pose proof (H 0%nat ltac:(lia)); lra).
  set (x := ewma_from w 0 f _) in *. set (y := ewma_from w 0 (late p f) _) in *. set (u := ewma_from w (w - 1) _ (p + _)%nat) in *. set (v := ewma_from w (w - 1) _ (3 * w - 3 + m)%nat) in *.
  set (s := ewma_from w (2 * w - 2) _ (p + _)%nat) in *. set (t := ewma_from w (2 * w - 2) _ (3 * w - 3 + m)%nat) in *.
  replace (3 * x - 3 * u + s - (3 * y - 3 * v + t)) with (3 * (x - y) - (3 * (u - v) - (s - t))) by ring.
  replace ((7 + 4 * (INR m * a) + a ^ 2 * INR m * (INR m + 1) / 2) * ewma_rest w m * (hi - lo)) with (3 * (ewma_rest w m * (hi - lo)) + (3 * (rest2 w m * (hi - lo)) + rest3 w m * (hi - lo))) by (unfold rest3, rest2; fold a; field).
  apply abs2; [|apply abs2; [|exact L3]]; (apply abs_scale; [lra|]); (eapply Rle_trans; [eassumption|]); apply Rmult_le_compat_r; lra.
Qed.

(** Twice a price less the price of [(w - 1) / 2] bars ago has three times the range. *)
Theorem zlma_forgets f n p w lo hi : (0 < w)%nat -> (p + ((w - 1) / 2 + w) <= n)%nat -> (forall k, (k < n)%nat -> lo <= f k <= hi) ->
  exists o o', zlma (xseries f n) w = Ok o /\ zlma (xseries (late p f) (n - p)) w = Ok o' /\
  fades o o' n p ((w - 1) / 2 + w - 1) (fun k => 3 * ewma_rest w k * (hi - lo)).
Proof.
  intros Hw Hn H. rewrite !xseries_map. set (lag := ((w - 1) / 2)%nat) in *. destruct (zlma_real (series f n) w Hw) as (o & E & A); [rewrite series_length; fold lag; lia|]. destruct (zlma_real (series (late p f) (n - p)) w Hw) as (o' & E' & A'); [rewrite series_length; fold lag; lia|].
  exists o, o'. split; [exact E|]. split; [exact E'|]. rewrite series_length in A, A'. cbv zeta in A, A'. fold lag in A, A'. set (g := fun j => 2 * f j - f (j - lag)%nat).
  apply (realign _ n _ _ _ (fun i => Fin (ewma_from w lag g i))) in A; [|intros i Hi; f_equal; apply ewma_from_ext; try lia; intros j Hj; unfold g; rewrite !nth_series0 by lia; reflexivity].
  apply (realign _ (n - p) _ _ _ (fun i => Fin (ewma_from w lag (late p g) i))) in A'.
  2:{ intros i Hi. f_equal. apply ewma_from_ext; try lia. intros j Hj. unfold late, g. rewrite !nth_series0 by lia. replace (p + j - lag)%nat with (p + (j - lag))%nat by lia. reflexivity. }
  eapply fade; [exact A|exact A'|lia|lia|]. intros m Hm. cbv beta.
  replace (3 * ewma_rest w m * (hi - lo)) with (ewma_rest w m * ((2 * hi - lo) - (2 * lo - hi))) by ring. apply (ewma_late w lag p n g); [easy| |easy].
  intros j Hj. unfold g. pose proof (H j ltac:(lia)). pose proof (H (j - lag)%nat ltac:(lia)). lra.
Qed.

Lemma ewma_rest_le w k j : (0 < w)%nat -> (k <= j)%nat -> ewma_rest w j <= ewma_rest w k.
Proof. intros Hw H. replace j with (j - k + k)%nat by lia. now apply rest_dec. Qed.

Theorem macd_forgets f n p s l lo hi : (0 < s <= l)%nat -> (p + l <= n)%nat -> (forall k, (k < n)%nat -> lo <= f k <= hi) ->
  exists o o', macd (xseries f n) s l = Ok o /\ macd (xseries (late p f) (n - p)) s l = Ok o' /\
  fades o o' n p (l - 1) (fun k => (ewma_rest s (l - s + k) + ewma_rest l k) * (hi - lo)).
Proof.
  intros Hs Hn H. destruct (macd_real f n s l) as (o & E & A); try lia. destruct (macd_real (late p f) (n - p) s l) as (o' & E' & A'); try lia.
  exists o, o'. split; [exact E|]. split; [exact E'|]. eapply fade; [exact A|exact A'|lia|lia|]. intros m Hm. cbv beta.
  pose proof (ewma_late l 0 p n f lo hi m ltac:(lia)) as L1. pose proof (ewma_late s 0 p n f lo hi (l - s + m) ltac:(lia)) as L2. cbn [plus] in L1, L2.
  replace (s - 1 + (l - s + m))%nat with (l - 1 + m)%nat in L2 by lia. specialize (L1 ltac:(intros; apply H; lia) Hm). specialize (L2 ltac:(intros; apply H; lia) Hm).
  set (x := ewma_from s 0 f _) in *. set (y := ewma_from s 0 (late p f) _) in *. set (u := ewma_from l 0 f _) in *. set (v := ewma_from l 0 (late p f) _) in *.
  replace (x - u - (y - v)) with ((x - y) - (u - v)) by ring. rewrite Rmult_plus_distr_r. now apply abs2.
Qed.

(** True ranges of prices in [lo, hi]: within the range. *)
Theorem atr_forgets h l c n p w lo hi : (0 < w)%nat -> (p + w < n)%nat -> (forall k, (k < n)%nat -> lo <= l k <= h k /\ h k <= hi /\ lo <= c k <= hi) ->
  exists o o', atr (xseries h n) (xseries l n) (xseries c n) w = Ok o /\
  atr (xseries (late p h) (n - p)) (xseries (late p l) (n - p)) (xseries (late p c) (n - p)) w = Ok o' /\
  fades o o' n p w (fun k => wilder_rest w k * (hi - lo)).
Proof.
  intros Hw Hn H. destruct (atr_real h l c n w) as (o & E & A); [lia|intros k Hk; apply H; lia|]. destruct (atr_real (late p h) (late p l) (late p c) (n - p) w) as (o' & E' & A'); [lia|intros k Hk; unfold late; apply H; lia|].
  exists o, o'. split; [exact E|]. split; [exact E'|]. set (g := true_range_of h l c) in *.
  apply (realign _ (n - p) _ _ _ (fun i => Fin (wilder_from w 1 (late p g) i))) in A'.
  2:{ intros i Hi. f_equal. unfold wilder_from. f_equal; [f_equal|]; apply map_ext_in; intros j Hj; apply in_seq in Hj; unfold late, g, true_range_of; replace (p + (j - 1))%nat with (p + j - 1)%nat by lia; reflexivity. }
  eapply fade; [exact A|exact A'|lia|lia|]. intros m Hm. cbv beta.
  replace (hi - lo) with (hi - lo - 0) by ring. pose proof (wilder_late w 1 p n g 0 (hi - lo) m Hw) as L. replace (1 + w - 1 + m)%nat with (w + m)%nat in L by lia. apply L; [|lia].
  intros j Hj. unfold g, true_range_of. pose proof (H j ltac:(lia)) as (? & ? & ?). pose proof (H (j - 1)%nat ltac:(lia)) as (? & ? & ?).
  unfold Rmax, Rmin. repeat destruct Rle_dec; lra.
Qed.

Theorem qstick_forgets op c n p w lo hi : (0 < w)%nat -> (p + w <= n)%nat -> (forall k, (k < n)%nat -> lo <= op k <= hi /\ lo <= c k <= hi) ->
  exists o o', qstick (xseries op n) (xseries c n) w = Ok o /\ qstick (xseries (late p op) (n - p)) (xseries (late p c) (n - p)) w = Ok o' /\
  fades o o' n p (w - 1) (fun k => 2 * ewma_rest w k * (hi - lo)).
Proof.
  intros Hw Hn H. destruct (qstick_real op c n w) as (o & E & A); [lia|]. destruct (qstick_real (late p op) (late p c) (n - p) w) as (o' & E' & A'); [lia|].
  exists o, o'. split; [exact E|]. split; [exact E'|]. eapply fade; [exact A|exact A'|lia|lia|]. intros m Hm. cbv beta.
  replace (2 * ewma_rest w m * (hi - lo)) with (ewma_rest w m * ((hi - lo) - (lo - hi))) by ring. apply (ewma_late w 0 p n (fun k => c k - op k)); [easy| |easy].
  intros j Hj. pose proof (H j ltac:(lia)). lra.
Qed.
(** A balance of power lies between -1 and 1. *)
Theorem bal_power_forgets op h l c n p w : (0 < w)%nat -> (p + w <= n)%nat -> (forall k, (k < n)%nat -> l k < h k /\ l k <= op k <= h k /\ l k <= c k <= h k) ->
  exists o o', bal_power (xseries op n) (xseries h n) (xseries l n) (xseries c n) w = Ok o /\
  bal_power (xseries (late p op) (n - p)) (xseries (late p h) (n - p)) (xseries (late p l) (n - p)) (xseries (late p c) (n - p)) w = Ok o' /\
  fades o o' n p (w - 1) (fun k => 2 * ewma_rest w k).
Proof.
  intros Hw Hn H. destruct (bal_power_real op h l c n w) as (o & E & A); [lia|intros k Hk; pose proof (H k Hk); lra|]. destruct (bal_power_real (late p op) (late p h) (late p l) (late p c) (n - p) w) as (o' & E' & A'); [lia|intros k Hk; unfold late; pose proof (H (p + k)%nat ltac:(lia)); lra|].
  exists o, o'. split; [exact E|]. split; [exact E'|]. eapply fade; [exact A|exact A'|lia|lia|]. intros m Hm. cbv beta.
  replace (2 * ewma_rest w m) with (ewma_rest w m * (1 - -1)) by ring. apply (ewma_late w 0 p n (fun k => (c k - op k) / (h k - l k))); [easy| |easy].
  intros j Hj. pose proof (H j ltac:(lia)). split; apply Rmult_le_reg_r with (h j - l j); try lra; unfold Rdiv; rewrite Rmult_assoc, Rinv_l; lra.
Qed.
(** The bulls' and the bears' power inherit the average of the closes. *)
Theorem elder_ray_forgets h l c n p w lo hi : (0 < w)%nat -> (p + w <= n)%nat -> (forall k, (k < n)%nat -> lo <= c k <= hi) ->
  exists o o', elder_ray (xseries h n) (xseries l n) (xseries c n) w = Ok o /\
  elder_ray (xseries (late p h) (n - p)) (xseries (late p l) (n - p)) (xseries (late p c) (n - p)) w = Ok o' /\
  fades (map fst o) (map fst o') n p (w - 1) (fun k => ewma_rest w k * (hi - lo)) /\
  fades (map snd o) (map snd o') n p (w - 1) (fun k => ewma_rest w k * (hi - lo)).
Proof.
  intros Hw Hn H. destruct (elder_ray_real h l c n w) as (o & E & A); [lia|]. destruct (elder_ray_real (late p h) (late p l) (late p c) (n - p) w) as (o' & E' & A'); [lia|].
  exists o, o'. split; [exact E|]. split; [exact E'|].
  pose proof (aligned_map _ _ _ _ NaN _ fst A eq_refl : aligned (map fst o) n (w - 1) NaN (fun i => Fin (h i - ewma_from w 0 c i))) as A1.
  pose proof (aligned_map _ _ _ _ NaN _ snd A eq_refl : aligned (map snd o) n (w - 1) NaN (fun i => Fin (l i - ewma_from w 0 c i))) as A2.
  pose proof (aligned_map _ _ _ _ NaN _ fst A' eq_refl : aligned (map fst o') (n - p) (w - 1) NaN (fun i => Fin (late p h i - ewma_from w 0 (late p c) i))) as A3.
  pose proof (aligned_map _ _ _ _ NaN _ snd A' eq_refl : aligned (map snd o') (n - p) (w - 1) NaN (fun i => Fin (late p l i - ewma_from w 0 (late p c) i))) as A4.
  split; [eapply fade; [exact A1|exact A3|lia|lia|]|eapply fade; [exact A2|exact A4|lia|lia|]]; intros m Hm; cbv beta;
    pose proof (ewma_late w 0 p n c lo hi m Hw ltac:(intros; apply H; lia) ltac:(cbn [plus]; lia)) as L; cbn [plus] in L; rewrite Rabs_minus_sym in L; unfold late at 1;
    (match goal with |- Rabs ?x <= _ => match type of L with Rabs ?y <= _ => replace x with y by ring end end); exact L.
Qed.

(** Force: a step of the price times the volume. *)
Theorem elder_force_forgets c v n p w M : (0 < w)%nat -> (p + w < n)%nat -> (forall k, (0 < k < n)%nat -> Rabs ((c k - c (k - 1)%nat) * v k) <= M) ->
  exists o o', elder_force (xseries c n) (xseries v n) w = Ok o /\ elder_force (xseries (late p c) (n - p)) (xseries (late p v) (n - p)) w = Ok o' /\
  fades o o' n p w (fun k => 2 * ewma_rest w k * M).
Proof.
  intros Hw Hn H. destruct (elder_force_real c v n w) as (o & E & A); [lia|]. destruct (elder_force_real (late p c) (late p v) (n - p) w) as (o' & E' & A'); [lia|].
  exists o, o'. split; [exact E|]. split; [exact E'|]. set (g := fun k => (c k - c (k - 1)%nat) * v k) in *.
  apply (realign _ (n - p) _ _ _ (fun i => Fin (ewma_from w 1 (late p g) i))) in A'.
  2:{ intros i Hi. f_equal. apply ewma_from_ext; try lia. intros j Hj. unfold late, g. replace (p + (j - 1))%nat with (p + j - 1)%nat by lia. reflexivity. }
  eapply fade; [exact A|exact A'|lia|lia|]. intros m Hm. cbv beta. replace (2 * ewma_rest w m * M) with (ewma_rest w m * (M - - M)) by ring.
  pose proof (ewma_late w 1 p n g (- M) M m Hw) as L. replace (1 + w - 1 + m)%nat with (w + m)%nat in L by lia. apply L; [|lia].
  intros j Hj. specialize (H j ltac:(lia)). fold (g j) in H. revert H. unfold Rabs. destruct Rcase_abs; lra.
Qed.
(** The oscillator of the signed volume, the shorter average first. *)
Theorem kvo_forgets h l c v n p s w alt M : unwrap_or alt true = true -> (0 < s <= w)%nat -> (p + w < n)%nat -> (forall k, (k < n)%nat -> 0 <= v k <= M) ->
  exists o o', kvo (xseries h n) (xseries l n) (xseries c n) (xseries v n) s w alt = Ok o /\
  kvo (xseries (late p h) (n - p)) (xseries (late p l) (n - p)) (xseries (late p c) (n - p)) (xseries (late p v) (n - p)) s w alt = Ok o' /\
  fades o o' n p w (fun k => 2 * (ewma_rest s (w - s + k) + ewma_rest w k) * M).
Proof.
  intros Ea Hs Hn H. destruct (kvo_real h l c v n s w alt Ea) as (o & E & A); try lia. destruct (kvo_real (late p h) (late p l) (late p c) (late p v) (n - p) s w alt Ea) as (o' & E' & A'); try lia.
  exists o, o'. split; [exact E|]. split; [exact E'|]. set (g := signed_volume h l c v) in *.
  apply (realign _ (n - p) _ _ _ (fun i => Fin (ewma_from s 1 (late p g) i - ewma_from w 1 (late p g) i))) in A'.
  2:{ intros i Hi. f_equal. assert (X : forall j, (1 <= j)%nat -> signed_volume (late p h) (late p l) (late p c) (late p v) j = late p g j).
      { intros j Hj. unfold late, g, signed_volume. replace (p + (j - 1))%nat with (p + j - 1)%nat by lia. reflexivity. }
      f_equal; apply ewma_from_ext; try lia; intros j Hj; apply X; lia. }
  eapply fade; [exact A|exact A'|lia|lia|]. intros m Hm. cbv beta.
  assert (R : forall j, (1 <= j < n)%nat -> - M <= g j <= M) by (intros j Hj; specialize (H j ltac:(lia)); unfold g, signed_volume; destruct (Rltb _ _); lra).
  pose proof (ewma_late w 1 p n g (- M) M m ltac:(lia) R ltac:(lia)) as L1. pose proof (ewma_late s 1 p n g (- M) M (w - s + m) ltac:(lia) R ltac:(lia)) as L2.
  replace (1 + w - 1 + m)%nat with (w + m)%nat in L1 by lia. replace (1 + s - 1 + (w - s + m))%nat with (w + m)%nat in L2 by lia.
  set (x := ewma_from s 1 g _) in *. set (y := ewma_from s 1 (late p g) _) in *. set (u := ewma_from w 1 g _) in *. set (z := ewma_from w 1 (late p g) _) in *.
  replace (x - u - (y - z)) with ((x - y) - (u - z)) by ring.
  replace (2 * (ewma_rest s (w - s + m) + ewma_rest w m) * M) with (ewma_rest s (w - s + m) * (M - - M) + ewma_rest w m * (M - - M)) by ring. now apply abs2.
Qed.

(** ** Adaptive averages *)
(** The gain of bar [i] is at least [b]; both runs have begun at zero. *)
Lemma adaptive_late a a' x x' k p n b lo hi m : 0 <= b <= 1 -> lo <= 0 <= hi ->
  (forall i, (k <= i)%nat -> (p + i < n)%nat -> a' i = a (p + i)%nat /\ x' i = x (p + i)%nat) ->
  (forall i, (k <= i < n)%nat -> b <= a i <= 1 /\ lo <= x i <= hi) -> (p + (k + m) < n)%nat ->
  Rabs (adaptive a x k (p + (k + m)) - adaptive a' x' k (k + m)) <= (1 - b) ^ m * (hi - lo).
Proof.
  intros Hb H0 HE H Hm. induction m as [|m IH].
  - cbn [pow]. rewrite Rmult_1_l. apply in_range; apply adaptive_inside; try lia; try easy; intros j Hj.
    + destruct (H j ltac:(lia)). split; [lra|easy].
    + destruct (HE j ltac:(lia) ltac:(lia)) as [-> ->]. destruct (H (p + j)%nat ltac:(lia)). split; [lra|easy].
  - specialize (IH ltac:(lia)). replace (p + (k + S m))%nat with (S (p + (k + m))) by lia. replace (k + S m)%nat with (S (k + m)) by lia. rewrite !adaptive_next by lia.
    destruct (HE (S (k + m)) ltac:(lia) ltac:(lia)) as [-> ->]. replace (p + S (k + m))%nat with (S (p + (k + m))) by lia. destruct (H (S (p + (k + m))) ltac:(lia)) as [Ga _].
    set (g := a (S (p + (k + m)))) in *. set (u := adaptive a x k _) in *. set (v := adaptive a' x' k _) in *. set (z := x _).
    replace (u + g * (z - u) - (v + g * (z - v))) with ((1 - g) * (u - v)) by ring. rewrite Rabs_mult, (Rabs_right (1 - g)) by lra. cbn [pow]. rewrite Rmult_assoc.
    apply Rmult_le_compat; try lra. apply Rabs_pos.
Qed.
Lemma path_late w f p i : (0 < w <= i + 1)%nat -> path w (late p f) i = path w f (p + i).
Proof.
  intros Hi. unfold path, late. replace (p + i + 2 - w)%nat with (p + (i + 2 - w))%nat by lia. rewrite <- map_seq_plus. f_equal. apply map_ext_in. intros j Hj. apply in_seq in Hj.
  replace (p + (j - 1))%nat with (p + j - 1)%nat by lia. reflexivity.
Qed.
(** The slowest smoothing constant of [kama] bounds what is left; the average is
    pulled up from zero, so zero belongs to the range. *)
Theorem kama_forgets f n p w short long lo hi : let s := unwrap_or short 2%nat in let l := unwrap_or long 30%nat in
  (0 < w)%nat -> (1 <= s <= l)%nat -> (p + w <= n)%nat -> lo <= 0 <= hi -> (forall k, (k < n)%nat -> lo <= f k <= hi) ->
  (forall i, (w - 1 <= i < n)%nat -> path w f i <> 0) ->
  exists o o', kama (xseries f n) w short long = Ok o /\ kama (xseries (late p f) (n - p)) w short long = Ok o' /\
  fades o o' n p (w - 1) (fun k => (1 - (2 / (INR l + 1)) ^ 2) ^ k * (hi - lo)).
Proof.
  intros s l Hw Hs Hn H0 H HP. assert (HP' : forall i, (w - 1 <= i < n - p)%nat -> path w (late p f) i <> 0) by (intros i Hi; rewrite path_late by lia; apply HP; lia).
  destruct (kama_real f n w short long Hw HP) as (o & E & A). destruct (kama_real (late p f) (n - p) w short long Hw HP') as (o' & E' & A'). fold s l in A, A'.
  exists o, o'. split; [exact E|]. split; [exact E'|]. eapply fade; [exact A|exact A'|lia|lia|]. intros m Hm. cbv beta.
  assert (I : 1 <= INR s <= INR l) by (split; [apply (le_INR 1)|apply le_INR]; lia).
  assert (Q : forall q, 1 <= q -> 0 < 2 / (q + 1) <= 1) by (intros q Hq; split; [apply Rdiv_lt_0_compat; lra|apply Rmult_le_reg_r with (q + 1); [lra|]; unfold Rdiv; rewrite Rmult_assoc, Rinv_l; lra]).
  pose proof (Q (INR l) ltac:(lra)) as Ql. apply adaptive_late with (n := n); [split; nra|exact H0| | |exact Hm].
  - intros i Hi Hp. split; [|reflexivity]. unfold kama_gain. rewrite path_late by lia. unfold late. replace (p + (i + 1 - w))%nat with (p + i + 1 - w)%nat by lia. reflexivity.
  - intros i Hi. split; [|apply H; lia]. split; [|apply kama_gain_unit; try lia; apply HP; lia].
    unfold kama_gain. pose proof (path_nonneg w f i) as P. pose proof (HP i ltac:(lia)) as Pn. pose proof (Rabs_pos (f i - f (i + 1 - w)%nat)) as Pa.
    assert (Er : 0 <= Rabs (f i - f (i + 1 - w)%nat) / path w f i) by (unfold Rdiv; apply Rmult_le_pos; [easy|]; apply Rlt_le, Rinv_0_lt_compat; lra).
    rewrite !plus_INR. cbn [INR]. pose proof (Q (INR s) ltac:(lra)) as Qs. set (er := Rabs _ / _) in *.
    assert (2 / (INR l + 1) <= 2 / (INR s + 1)) by (unfold Rdiv; apply Rmult_le_compat_l; [lra|]; apply Rinv_le_contravar; lra).
    cbv zeta. apply pow_incr. split; [lra|]. set (x := 2 / (INR s + 1)) in *. set (y := 2 / (INR l + 1)) in *. assert (0 <= er * (x - y)) by (apply Rmult_le_pos; lra). lra.
Qed.

(** ** Heikin-Ashi candles *)
(** The opens halve their distance from bar to bar; the closes do not look back. *)
Theorem heikin_ashi_forgets op h l c n p lo hi : (p < n)%nat -> (forall k, (k < n)%nat -> lo <= l k /\ h k <= hi /\ l k <= op k <= h k /\ l k <= c k <= h k) ->
  exists o o', heikin_ashi (xseries op n) (xseries h n) (xseries l n) (xseries c n) = Ok o /\
  heikin_ashi (xseries (late p op) (n - p)) (xseries (late p h) (n - p)) (xseries (late p l) (n - p)) (xseries (late p c) (n - p)) = Ok o' /\
  fades (map (fun '(x, _, _, _) => x) o) (map (fun '(x, _, _, _) => x) o') n p 0 (fun k => (1 / 2) ^ k * (hi - lo)) /\
  fades (map (fun '(_, x, _, _) => x) o) (map (fun '(_, x, _, _) => x) o') n p 0 (fun k => (1 / 2) ^ k * (hi - lo)) /\
  fades (map (fun '(_, _, x, _) => x) o) (map (fun '(_, _, x, _) => x) o') n p 0 (fun k => (1 / 2) ^ k * (hi - lo)) /\
  fades (map (fun '(_, _, _, x) => x) o) (map (fun '(_, _, _, x) => x) o') n p 0 (fun _ => 0).
Proof.
  intros Hp H. destruct (heikin_ashi_real op h l c n) as (o & a & b & t & s & E & A & Eb & Ea0 & Ea & Et0 & Es0 & Ets & _); [lia|].
  destruct (heikin_ashi_real (late p op) (late p h) (late p l) (late p c) (n - p)) as (o' & a' & b' & t' & s' & E' & A' & Eb' & Ea0' & Ea' & Et0' & Es0' & Ets' & _); [lia|].
  exists o, o'. split; [exact E|]. split; [exact E'|].
  assert (B : forall m, b' m = b (p + m)%nat) by (intros m; rewrite Eb, Eb'; reflexivity).
  assert (Bin : forall k, (k < n)%nat -> lo <= b k <= hi) by (intros k Hk; rewrite Eb; pose proof (H k Hk); lra).
  assert (Ain : forall k, (k < n)%nat -> lo <= a k <= hi).
  { induction k as [|k IH]; intros Hk; [rewrite Ea0; pose proof (H 0%nat ltac:(lia)); lra|]. rewrite Ea. pose proof (Bin k ltac:(lia)). specialize (IH ltac:(lia)). lra. }
  assert (D : forall m, (p + m < n)%nat -> Rabs (a (p + m)%nat - a' m) <= (1 / 2) ^ m * (hi - lo)).
  { induction m as [|m IH]; intros Hm.
    - cbn [pow]. rewrite Rmult_1_l. apply in_range; [apply Ain; lia|]. rewrite Ea0'. unfold late. rewrite Nat.add_0_r. pose proof (H p Hp). lra.
    - specialize (IH ltac:(lia)). rewrite Ea', B. replace (p + S m)%nat with (S (p + m)) by lia. rewrite Ea. replace ((a (p + m)%nat + b (p + m)%nat) / 2 - (a' m + b (p + m)%nat) / 2) with (1 / 2 * (a (p + m)%nat - a' m)) by field.
      cbn [pow]. rewrite Rmult_assoc. apply abs_scale; [lra|exact IH]. }
  assert (X : forall u v u' v' x y x' y' : R, is_max [x; u; v] y -> is_max [x'; u'; v'] y' -> x = x' -> v = v' -> Rabs (y - y') <= Rabs (u - u')).
  { clear. intros u v u' v' x y x' y' [I M] [I' M'] <- <-. cbn [In] in I, I', M, M'.
    pose proof (M x (or_introl eq_refl)). pose proof (M u (or_intror (or_introl eq_refl))). pose proof (M v (or_intror (or_intror (or_introl eq_refl)))).
    pose proof (M' x (or_introl eq_refl)). pose proof (M' u' (or_intror (or_introl eq_refl))). pose proof (M' v (or_intror (or_intror (or_introl eq_refl)))).
    destruct I as [<-|[<-|[<-|[]]]]; destruct I' as [<-|[<-|[<-|[]]]]; unfold Rabs; repeat destruct Rcase_abs; lra. }
  assert (Y : forall u v u' v' x y x' y' : R, is_min [x; u; v] y -> is_min [x'; u'; v'] y' -> x = x' -> v = v' -> Rabs (y - y') <= Rabs (u - u')).
  { clear. intros u v u' v' x y x' y' [I M] [I' M'] <- <-. cbn [In] in I, I', M, M'.
    pose proof (M x (or_introl eq_refl)). pose proof (M u (or_intror (or_introl eq_refl))). pose proof (M v (or_intror (or_intror (or_introl eq_refl)))).
    pose proof (M' x (or_introl eq_refl)). pose proof (M' u' (or_intror (or_introl eq_refl))). pose proof (M' v (or_intror (or_intror (or_introl eq_refl)))).
    destruct I as [<-|[<-|[<-|[]]]]; destruct I' as [<-|[<-|[<-|[]]]]; unfold Rabs; repeat destruct Rcase_abs; lra. }
  assert (Tin : forall k, (k < n)%nat -> lo <= t k <= hi).
  { intros k Hk. pose proof (H k Hk). destruct k as [|k]; [rewrite Et0; lra|]. destruct (Ets k) as [[I _] _]. cbn [In] in I. pose proof (Ain (S k) Hk). pose proof (Bin (S k) Hk). destruct I as [<-|[<-|[<-|[]]]]; lra. }
  assert (Sin : forall k, (k < n)%nat -> lo <= s k <= hi).
  { intros k Hk. pose proof (H k Hk). destruct k as [|k]; [rewrite Es0; lra|]. destruct (Ets k) as [_ [I _]]. cbn [In] in I. pose proof (Ain (S k) Hk). pose proof (Bin (S k) Hk). destruct I as [<-|[<-|[<-|[]]]]; lra. }
  pose proof (aligned_map _ _ _ _ NaN _ (fun '(x, _, _, _) => x) A eq_refl : aligned _ _ _ _ (fun i => Fin (a i))) as A1.
  pose proof (aligned_map _ _ _ _ NaN _ (fun '(_, x, _, _) => x) A eq_refl : aligned _ _ _ _ (fun i => Fin (t i))) as A2.
  pose proof (aligned_map _ _ _ _ NaN _ (fun '(_, _, x, _) => x) A eq_refl : aligned _ _ _ _ (fun i => Fin (s i))) as A3.
  pose proof (aligned_map _ _ _ _ NaN _ (fun '(_, _, _, x) => x) A eq_refl : aligned _ _ _ _ (fun i => Fin (b i))) as A4.
  pose proof (aligned_map _ _ _ _ NaN _ (fun '(x, _, _, _) => x) A' eq_refl : aligned _ _ _ _ (fun i => Fin (a' i))) as B1.
  pose proof (aligned_map _ _ _ _ NaN _ (fun '(_, x, _, _) => x) A' eq_refl : aligned _ _ _ _ (fun i => Fin (t' i))) as B2.
  pose proof (aligned_map _ _ _ _ NaN _ (fun '(_, _, x, _) => x) A' eq_refl : aligned _ _ _ _ (fun i => Fin (s' i))) as B3.
  pose proof (aligned_map _ _ _ _ NaN _ (fun '(_, _, _, x) => x) A' eq_refl : aligned _ _ _ _ (fun i => Fin (b' i))) as B4.
  split; [eapply fade; [exact A1|exact B1|lia|lia|]; exact D|].
  split; [eapply fade; [exact A2|exact B2|lia|lia|]|split; [eapply fade; [exact A3|exact B3|lia|lia|]|eapply fade; [exact A4|exact B4|lia|lia|]]]; intros m Hm; cbn [plus].
  - destruct m as [|m]; [cbn [pow]; rewrite Rmult_1_l; apply in_range; [apply Tin; lia|]; rewrite Et0'; unfold late; pose proof (H (p + 0)%nat ltac:(lia)); lra|].
    eapply Rle_trans; [|exact (D (S m) Hm)]. replace (p + S m)%nat with (S (p + m)) by lia. eapply X; [apply Ets|apply Ets'| |].
    + unfold late. f_equal. lia.
    + rewrite B. f_equal. lia.
  - destruct m as [|m]; [cbn [pow]; rewrite Rmult_1_l; apply in_range; [apply Sin; lia|]; rewrite Es0'; unfold late; pose proof (H (p + 0)%nat ltac:(lia)); lra|].
    eapply Rle_trans; [|exact (D (S m) Hm)]. replace (p + S m)%nat with (S (p + m)) by lia. eapply Y; [apply Ets|apply Ets'| |].
    + unfold late. f_equal. lia.
    + rewrite B. f_equal. lia.
  - rewrite B. rewrite Rminus_diag_eq by reflexivity. rewrite Rabs_R0. lra.
Qed.

(** ** Running totals never forget *)
(** The two runs stay apart by what the first had added up when the second began. *)
Definition keeps_gap (o o' : list xr) (n p s : nat) (gap : R) : Prop :=
  forall i, (s <= i)%nat -> (p + i < n)%nat ->
  exists x, nth_error o (p + i) = Some (Fin (x + gap)) /\ nth_error o' i = Some (Fin x).
(** The same for compounded returns: a constant factor. *)
Definition keeps_factor (o o' : list xr) (n p s : nat) (r : R) : Prop :=
  forall i, (s <= i)%nat -> (p + i < n)%nat ->
  exists x, nth_error o (p + i) = Some (Fin (x * r)) /\ nth_error o' i = Some (Fin x).
Lemma sum_late d s p i : (s <= i + 1)%nat -> (0 < p + s)%nat -> sum_bars d s (p + i) = sum_bars (late p d) s i + sum_bars d s (p + s - 1).
Proof.
  intros Hs Hp. unfold sum_bars, late. rewrite map_seq_plus. replace (p + i + 1 - s)%nat with (p + (i + 1 - s))%nat by lia. replace (p + s - 1 + 1 - s)%nat with p by lia.
  rewrite seq_app, map_app, Rsum_app. rewrite (Nat.add_comm s p). ring.
Qed.
Lemma sum_bars_ext d e s i : (forall k, (s <= k <= i)%nat -> d k = e k) -> sum_bars d s i = sum_bars e s i.
Proof. intros H. unfold sum_bars. f_equal. apply map_ext_in. intros k Hk. apply in_seq in Hk. apply H. lia. Qed.

Theorem obv_forgets_never c v n p : (p < n)%nat ->
  exists o o' s, obv (xseries c n) (xseries v n) = Ok o /\ obv (xseries (late p c) (n - p)) (xseries (late p v) (n - p)) = Ok o' /\
  keeps_gap o o' n p 1 s /\ ((0 < p)%nat -> nth_error o p = Some (Fin s)).
Proof.
  intros Hp. destruct (obv_real c v n) as (o & E & A). destruct (obv_real (late p c) (late p v) (n - p)) as (o' & E' & A'). set (d := fun k => if Rltb (c k) (c (k - 1)%nat) then - v k else v k) in *.
  exists o, o', (sum_bars d 1 p). split; [exact E|]. split; [exact E'|]. split; [|intros; apply (aligned_at _ _ _ _ _ _ A); lia].
  intros i Hi Hn. rewrite (aligned_at _ _ _ _ _ _ A) by lia. rewrite (aligned_at _ _ _ _ _ _ A') by lia. eexists. split; [|reflexivity]. do 2 f_equal.
  rewrite sum_late by lia. replace (p + 1 - 1)%nat with p by lia. f_equal. apply sum_bars_ext. intros k Hk. unfold late, d. replace (p + (k - 1))%nat with (p + k - 1)%nat by lia. reflexivity.
Qed.
Theorem vpt_forgets_never c v n p : (p < n)%nat -> (forall k, (k < n)%nat -> c k <> 0) ->
  exists o o' s, vpt (xseries c n) (xseries v n) = Ok o /\ vpt (xseries (late p c) (n - p)) (xseries (late p v) (n - p)) = Ok o' /\
  keeps_gap o o' n p 1 s /\ ((0 < p)%nat -> nth_error o p = Some (Fin s)).
Proof.
  intros Hp H. destruct (vpt_real c v n) as (o & E & A); [lia|easy|]. destruct (vpt_real (late p c) (late p v) (n - p)) as (o' & E' & A'); [lia|intros; apply H; lia|]. set (d := fun k => v k * ((c k - c (k - 1)%nat) / c (k - 1)%nat)) in *.
  exists o, o', (sum_bars d 1 p). split; [exact E|]. split; [exact E'|]. split; [|intros; apply (aligned_at _ _ _ _ _ _ A); lia].
  intros i Hi Hn. rewrite (aligned_at _ _ _ _ _ _ A) by lia. rewrite (aligned_at _ _ _ _ _ _ A') by lia. eexists. split; [|reflexivity]. do 2 f_equal.
  rewrite sum_late by lia. replace (p + 1 - 1)%nat with p by lia. f_equal. apply sum_bars_ext. intros k Hk. unfold late, d. replace (p + (k - 1))%nat with (p + k - 1)%nat by lia. reflexivity.
Qed.
Theorem ad_forgets_never h l c v n p alt : unwrap_or alt false = false -> (0 < p < n)%nat -> (forall k, (k < n)%nat -> h k <> l k) ->
  exists o o' s, ad (xseries h n) (xseries l n) (xseries c n) (xseries v n) alt = Ok o /\
  ad (xseries (late p h) (n - p)) (xseries (late p l) (n - p)) (xseries (late p c) (n - p)) (xseries (late p v) (n - p)) alt = Ok o' /\
  keeps_gap o o' n p 0 s /\ nth_error o (p - 1) = Some (Fin s).
Proof.
  intros Ea Hp H. destruct (ad_real h l c v n alt Ea H) as (o & E & A). destruct (ad_real (late p h) (late p l) (late p c) (late p v) (n - p) alt Ea) as (o' & E' & A'); [intros; apply H; lia|]. set (d := fun k => clv h l c k * v k) in *.
  exists o, o', (sum_bars d 0 (p - 1)). split; [exact E|]. split; [exact E'|]. split; [|apply (aligned_at _ _ _ _ _ _ A); lia].
  intros i Hi Hn. rewrite (aligned_at _ _ _ _ _ _ A) by lia. rewrite (aligned_at _ _ _ _ _ _ A') by lia. eexists. split; [|reflexivity]. do 2 f_equal.
  rewrite sum_late by lia. rewrite Nat.add_0_r. reflexivity.
Qed.
Lemma compound_late sel sel' c p i : (forall k, (0 < k <= i)%nat -> sel' k = sel (p + k)%nat) -> compound sel c (p + i) = compound sel' (late p c) i * (compound sel c p / 100).
Proof.
  induction i as [|i IH]; intros H; [rewrite Nat.add_0_r; cbn [compound]; field|].
  replace (p + S i)%nat with (S (p + i)) by lia. cbn [compound]. rewrite IH by (intros; apply H; lia). rewrite (H (S i)) by lia. unfold late. replace (p + S i)%nat with (S (p + i)) by lia. ring.
Qed.
Theorem pvi_forgets_never c v n p : (p < n)%nat -> (forall k, (k < n)%nat -> c k <> 0) ->
  exists r, keeps_factor (pvi (xseries c n) (xseries v n)) (pvi (xseries (late p c) (n - p)) (xseries (late p v) (n - p))) n p 1 r /\
  ((0 < p)%nat -> nth_error (pvi (xseries c n) (xseries v n)) p = Some (Fin (100 * r))).
Proof.
  intros Hp H. pose proof (pvi_real c v n H) as A. pose proof (pvi_real (late p c) (late p v) (n - p) ltac:(intros; apply H; lia)) as A'. set (sel := fun k => Rltb (v (k - 1)%nat) (v k)) in *.
  exists (compound sel c p / 100). split.
  - intros i Hi Hn. rewrite (aligned_at _ _ _ _ _ _ A) by lia. rewrite (aligned_at _ _ _ _ _ _ A') by lia. eexists. split; [|reflexivity]. do 2 f_equal. apply compound_late.
    intros k Hk. unfold sel, late. replace (p + (k - 1))%nat with (p + k - 1)%nat by lia. reflexivity.
  - intros H0. rewrite (aligned_at _ _ _ _ _ _ A) by lia. do 2 f_equal. field.
Qed.
Theorem nvi_forgets_never c v n p : (p < n)%nat -> (forall k, (k < n)%nat -> c k <> 0) ->
  exists r, keeps_factor (nvi (xseries c n) (xseries v n)) (nvi (xseries (late p c) (n - p)) (xseries (late p v) (n - p))) n p 1 r /\
  ((0 < p)%nat -> nth_error (nvi (xseries c n) (xseries v n)) p = Some (Fin (100 * r))).
Proof.
  intros Hp H. pose proof (nvi_real c v n H) as A. pose proof (nvi_real (late p c) (late p v) (n - p) ltac:(intros; apply H; lia)) as A'. set (sel := fun k => Rltb (v k) (v (k - 1)%nat)) in *.
  exists (compound sel c p / 100). split.
  - intros i Hi Hn. rewrite (aligned_at _ _ _ _ _ _ A) by lia. rewrite (aligned_at _ _ _ _ _ _ A') by lia. eexists. split; [|reflexivity]. do 2 f_equal. apply compound_late.
    intros k Hk. unfold sel, late. replace (p + (k - 1))%nat with (p + k - 1)%nat by lia. reflexivity.
  - intros H0. rewrite (aligned_at _ _ _ _ _ _ A) by lia. do 2 f_equal. field.
Qed.

(** ** Nor do the averages forget altogether *)
(** What is left of the difference of the first bar is exactly its share. *)
Definition remembers (o o' : list xr) (n p s : nat) (rest : nat -> R) : Prop :=
  forall i, (s <= i)%nat -> (p + i < n)%nat ->
  exists x y x0 y0, nth_error o (p + i) = Some (Fin x) /\ nth_error o' i = Some (Fin y) /\
  nth_error o (p + s) = Some (Fin x0) /\ nth_error o' s = Some (Fin y0) /\ x - y = rest (i - s)%nat * (x0 - y0).
Theorem ewma_remembers f n p w : (0 < w)%nat -> (p + w <= n)%nat ->
  exists o o', ewma (xseries f n) w = Ok o /\ ewma (xseries (late p f) (n - p)) w = Ok o' /\ remembers o o' n p (w - 1) (ewma_rest w).
Proof.
  intros Hw Hn. destruct (ewma_from_at f w 0 n) as (o & E & A); [lia|]. destruct (ewma_from_at (late p f) w 0 (n - p)) as (o' & E' & A'); [lia|].
  exists o, o'. split; [exact E|]. split; [exact E'|]. intros i Hi Hp. eexists _, _, _, _.
  split; [apply (aligned_at _ _ _ _ _ _ A); lia|]. split; [apply (aligned_at _ _ _ _ _ _ A'); lia|]. split; [apply (aligned_at _ _ _ _ _ _ A); lia|]. split; [apply (aligned_at _ _ _ _ _ _ A'); lia|].
  cbn [plus]. replace i with (w - 1 + (i - (w - 1)))%nat at 1 2 by lia. generalize (i - (w - 1))%nat. intros m. induction m as [|m IH]; [unfold ewma_rest; cbn [pow]; rewrite Nat.add_0_r; ring|].
  replace (p + (w - 1 + S m))%nat with (S (p + (w - 1 + m))) by lia. replace (w - 1 + S m)%nat with (S (w - 1 + m)) by lia. rewrite !ewma_from_next by lia.
  replace (late p f (S (w - 1 + m))) with (f (S (p + (w - 1 + m)))) by (unfold late; f_equal; lia). rewrite ewma_rest_S, Rmult_assoc, <- IH. ring.
Qed.
Theorem wilder_remembers f n p w : (0 < w)%nat -> (p + w <= n)%nat ->
  exists o o', wilder (xseries f n) w = Ok o /\ wilder (xseries (late p f) (n - p)) w = Ok o' /\ remembers o o' n p (w - 1) (wilder_rest w).
Proof.
  intros Hw Hn. destruct (wilder_from_at f w 0 n) as (o & E & A); [lia|]. destruct (wilder_from_at (late p f) w 0 (n - p)) as (o' & E' & A'); [lia|].
  exists o, o'. split; [exact E|]. split; [exact E'|]. intros i Hi Hp. eexists _, _, _, _.
  split; [apply (aligned_at _ _ _ _ _ _ A); lia|]. split; [apply (aligned_at _ _ _ _ _ _ A'); lia|]. split; [apply (aligned_at _ _ _ _ _ _ A); lia|]. split; [apply (aligned_at _ _ _ _ _ _ A'); lia|].
  cbn [plus]. replace i with (w - 1 + (i - (w - 1)))%nat at 1 2 by lia. generalize (i - (w - 1))%nat. intros m. induction m as [|m IH]; [unfold wilder_rest; cbn [pow]; rewrite Nat.add_0_r; ring|].
  replace (p + (w - 1 + S m))%nat with (S (p + (w - 1 + m))) by lia. replace (w - 1 + S m)%nat with (S (w - 1 + m)) by lia. rewrite !wilder_from_next by lia.
  replace (late p f (S (w - 1 + m))) with (f (S (p + (w - 1 + m)))) by (unfold late; f_equal; lia). unfold wilder_rest in *. cbn [pow]. rewrite Rmult_assoc, <- IH. ring.
Qed.

(** ** In f64 *)
(** The same share of the range, and the rounding of both runs. *)
Theorem ewma_f64_forgets m (f : nat -> f64) n p w M lo hi : (1 <= w)%nat -> (p + w <= n)%nat -> small_window w -> sized M ->
  (forall k, (k < n)%nat -> fin (f k) /\ Rabs (B2R (f k)) <= M /\ lo <= B2R (f k) <= hi) ->
  exists o o', @ewma f64 (B64 m) (series f n) w = Ok o /\ @ewma f64 (B64 m) (series (late p f) (n - p)) w = Ok o' /\
  forall i, (w - 1 <= i)%nat -> (p + i < n)%nat -> exists x y, nth_error o (p + i) = Some x /\ nth_error o' i = Some y /\ fin x /\ fin y /\
  Rabs (B2R x - B2R y) <= ewma_rest w (i - (w - 1)) * (hi - lo) + 12 * (INR w + 1) * uu * M.
Proof.
  intros Hw Hn Sw HM H. destruct (ewma_f64_error m f n w M) as (o & E & V); try easy; [lia|intros k Hk; destruct (H k Hk) as (? & ? & _); easy|].
  destruct (ewma_f64_error m (late p f) (n - p) w M) as (o' & E' & V'); try easy; [lia|intros k Hk; destruct (H (p + k)%nat ltac:(lia)) as (? & ? & _); easy|].
  exists o, o'. split; [exact E|]. split; [exact E'|]. intros i Hi Hp. destruct (V (p + i)%nat ltac:(lia)) as (x & Ex & Fx & Dx). destruct (V' i ltac:(lia)) as (y & Ey & Fy & Dy).
  exists x, y. do 4 (split; [easy|]). pose proof (ewma_late w 0 p n (fun k => B2R (f k)) lo hi (i - (w - 1)) ltac:(lia)) as L. cbn [plus] in L. replace (w - 1 + (i - (w - 1)))%nat with i in L by lia.
  specialize (L ltac:(intros j Hj; apply H; lia) ltac:(lia)). change (fun k => B2R (late p f k)) with (late p (fun k => B2R (f k))) in Dy.
  set (u := ewma_from w 0 (fun k => B2R (f k)) (p + i)) in *. set (v := ewma_from w 0 (late p _) i) in *.
  replace (B2R x - B2R y) with ((u - v) - ((B2R y - v) - (B2R x - u))) by ring. replace (12 * (INR w + 1) * uu * M) with (6 * (INR w + 1) * uu * M + 6 * (INR w + 1) * uu * M) by ring.
  apply abs2; [exact L|]. now apply abs2.
Qed.
Theorem wilder_f64_forgets m (f : nat -> f64) n p w M lo hi : (1 <= w)%nat -> (p + w <= n)%nat -> small_window w -> sized M ->
  (forall k, (k < n)%nat -> fin (f k) /\ Rabs (B2R (f k)) <= M /\ lo <= B2R (f k) <= hi) ->
  exists o o', @wilder f64 (B64 m) (series f n) w = Ok o /\ @wilder f64 (B64 m) (series (late p f) (n - p)) w = Ok o' /\
  forall i, (w - 1 <= i)%nat -> (p + i < n)%nat -> exists x y, nth_error o (p + i) = Some x /\ nth_error o' i = Some y /\ fin x /\ fin y /\
  Rabs (B2R x - B2R y) <= wilder_rest w (i - (w - 1)) * (hi - lo) + 16 * INR w * uu * M.
Proof.
  intros Hw Hn Sw HM H. destruct (wilder_f64_error m f n w M) as (o & E & V); try easy; [lia|intros k Hk; destruct (H k Hk) as (? & ? & _); easy|].
  destruct (wilder_f64_error m (late p f) (n - p) w M) as (o' & E' & V'); try easy; [lia|intros k Hk; destruct (H (p + k)%nat ltac:(lia)) as (? & ? & _); easy|].
  exists o, o'. split; [exact E|]. split; [exact E'|]. intros i Hi Hp. destruct (V (p + i)%nat ltac:(lia)) as (x & Ex & Fx & Dx). destruct (V' i ltac:(lia)) as (y & Ey & Fy & Dy).
  exists x, y. do 4 (split; [easy|]). pose proof (wilder_late w 0 p n (fun k => B2R (f k)) lo hi (i - (w - 1)) ltac:(lia)) as L. cbn [plus] in L. replace (w - 1 + (i - (w - 1)))%nat with i in L by lia.
  specialize (L ltac:(intros j Hj; apply H; lia) ltac:(lia)). change (fun k => B2R (late p f k)) with (late p (fun k => B2R (f k))) in Dy.
  set (u := wilder_from w 0 (fun k => B2R (f k)) (p + i)) in *. set (v := wilder_from w 0 (late p _) i) in *.
  replace (B2R x - B2R y) with ((u - v) - ((B2R y - v) - (B2R x - u))) by ring. replace (16 * INR w * uu * M) with (8 * INR w * uu * M + 8 * INR w * uu * M) by ring.
  apply abs2; [exact L|]. now apply abs2.
Qed.
