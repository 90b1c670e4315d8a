(** * Dispatch: the average named by a mode is the average computed (C19). *)
From Coq Require Import Reals Lra Lia.
From Verif Require Import Tac SmoothReal SmoothReal2 Smooth SmoothVals RSpec XRFacts Bars DistReal VolatReal MomReal Adaptive.
Local Unset Implicit Arguments.
Local Open Scope R_scope.

Section Table.
  Context {F : Type} {FO : FOps F}.
  (** Each mode and the function of the API it stands for, bit for bit. *)
  Definition mode_table : list (MaMode * (list F -> nat -> result (list F))) :=
    [(SMA, sma); (EWMA, ewma); (DEMA, dema); (TEMA, tema); (WMA, wma); (Hull, hull); (LinReg, lrf);
     (Pascal, pwma); (Triangle, trima); (Variable_, vma); (Vidya, vidya); (Wilder, wilder); (ZeroLag, zlma)].
  Theorem ma_dispatch mode : exists f, In (mode, f) mode_table /\ (forall g, In (mode, g) mode_table -> g = f) /\
    forall data w, ma data w mode = f data w.
  Proof.
    unfold mode_table. destruct mode; cbn [In ma];
      (eexists; split; [repeat (first [left; reflexivity|right])|split; [|reflexivity]]);
      intros g H; repeat (destruct H as [H|H]; [now inversion H|]); destruct H.
  Qed.
End Table.

(** What each name means in the literature, over the reals: when it is defined,
    from which bar, and the value at a bar. *)
Definition mode_ok (mode : MaMode) (w : nat) (f : nat -> R) (n : nat) : Prop :=
  match mode with
  | SMA => (0 < w)%nat
  | EWMA => (0 < w <= n)%nat
  | DEMA => (0 < w)%nat /\ (2 * w - 1 <= n)%nat
  | TEMA => (0 < w)%nat /\ (3 * w - 2 <= n)%nat
  | WMA => (0 < w)%nat /\ (N.of_nat w < 2 ^ 32)%N
  | Hull => (0 < w)%nat /\ (N.of_nat w < 2 ^ 32)%N /\ (w + Nat.sqrt w - 2 <= n)%nat
  | LinReg => (2 <= w)%nat /\ (N.of_nat w < 2 ^ 31)%N
  | Pascal => (0 < w < 64)%nat
  | Triangle => (0 < w <= n + 1)%nat
  | Variable_ => forall i, (9 <= i < n)%nat -> Rsum (last_bars 9 (up_move f) i) + Rsum (last_bars 9 (down_move f) i) <> 0
  | Vidya => forall i, (23 <= i < n)%nat -> mean (last_bars 20 (fun k => sd (last_bars 5 f k)) i) <> 0
  | Wilder => (2 <= w <= n)%nat
  | ZeroLag => (0 < w)%nat /\ ((w - 1) / 2 + w <= n)%nat
  end.
Definition mode_start (mode : MaMode) (w : nat) : nat :=
  match mode with
  | DEMA => 2 * w - 2
  | TEMA => 3 * w - 3
  | Hull => w + Nat.sqrt w - 2
  | Variable_ => Nat.max w 9
  | Vidya => 23
  | ZeroLag => (w - 1) / 2 + w - 1
  | _ => w - 1
  end.
Definition mode_value (mode : MaMode) (w : nat) (f : nat -> R) (i : nat) (v : R) : Prop :=
  match mode with
  | SMA => v = mean (last_bars w f i)
  | EWMA => v = ewma_from w 0 f i
  | DEMA => let e1 := ewma_from w 0 f in v = 2 * e1 i - ewma_from w (w - 1) e1 i
  | TEMA => let e1 := ewma_from w 0 f in let e2 := ewma_from w (w - 1) e1 in
            v = 3 * e1 i - 3 * e2 i + ewma_from w (2 * w - 2) e2 i
  | WMA => v = wmean (map INR (seq 1 w)) (last_bars w f i)
  | Hull => let lw m := fun j => wmean (map INR (seq 1 m)) (last_bars m f j) in
            v = wmean (map INR (seq 1 (Nat.sqrt w))) (last_bars (Nat.sqrt w) (fun j => 2 * lw ((w + 1) / 2)%nat j - lw w j) i)
  | LinReg => exists m b, v = m * INR w + b /\
              forall m' b', (m', b') <> (m, b) -> sq_err m b (last_bars w f i) < sq_err m' b' (last_bars w f i)
  | Pascal => v = wmean (map (fun k => IZR (Z.of_N (binom (w - 1) k))) (seq 0 w)) (last_bars w f i)
  | Triangle => let w1 := ((w + 1) / 2)%nat in
                v = mean (last_bars (w + 1 - w1) (fun j => mean (last_bars w1 f j)) i)
  | Variable_ => v = adaptive (vma_gain w f) f 9 i
  | Vidya => v = adaptive (vidya_gain w f) f 23 i
  | Wilder => v = wilder_from w 0 f i
  | ZeroLag => let lag := ((w - 1) / 2)%nat in v = ewma_from w lag (fun j => 2 * f j - f (j - lag)%nat) i
  end.

Lemma xseries_map f n : xseries f n = map Fin (series f n).
Proof. unfold xseries, series. now rewrite map_map. Qed.
Lemma nth_series0 f n j : (j < n)%nat -> nth j (series f n) 0 = f j.
Proof.
  intros H. unfold series. rewrite nth_indep with (d' := f 0%nat) by now rewrite map_length, seq_length.
  rewrite map_nth, seq_nth by easy. reflexivity.
Qed.
Lemma ewma_from_ext w k f g i : (0 < w)%nat -> (k + w - 1 <= i)%nat -> (forall j, (k <= j <= i)%nat -> f j = g j) -> ewma_from w k f i = ewma_from w k g i.
Proof.
  intros Hw Hi H. unfold ewma_from. f_equal; [f_equal|]; apply map_ext_in; intros j Hj; apply in_seq in Hj; apply H; lia.
Qed.

Theorem ma_textbook mode f n w : mode_ok mode w f n ->
  exists o val, ma (xseries f n) w mode = Ok o /\ aligned o n (mode_start mode w) NaN (fun i => Fin (val i)) /\
  forall i, (mode_start mode w <= i < n)%nat -> mode_value mode w f i (val i).
Proof.
  assert (Ls : length (series f n) = n) by (unfold series; now rewrite map_length, seq_length).
  intros Hok. destruct mode; cbn [mode_ok mode_start mode_value ma] in *.
  - destruct (sma_real (series f n) w Hok) as (o & E & A). rewrite <- xseries_map in E. rewrite Ls in A.
    exists o. eexists. split; [exact E|]. split; [exact A|]. intros i Hi. cbv beta. now rewrite last_bars_win by lia.
  - destruct (ewma_from_at f w 0 n Hok) as (o & E & A). exists o. eexists. split; [exact E|]. split; [exact A|]. reflexivity.
  - destruct Hok as [H1 H2]. destruct (dema_real (series f n) w H1) as (o & E & A); [lia|]. rewrite <- xseries_map in E. rewrite Ls in A.
    exists o. eexists. split; [exact E|]. split; [exact A|]. intros i Hi. cbv beta zeta.
    assert (X : forall j, (w - 1 <= j <= i)%nat -> ewma_from w 0 (fun j => nth j (series f n) 0) j = ewma_from w 0 f j) by (intros j Hj; apply ewma_from_ext; [lia|lia|]; intros; apply nth_series0; lia).
    rewrite (X i) by lia. f_equal. apply ewma_from_ext; [lia|lia|]. intros j Hj. apply X. lia.
  - destruct Hok as [H1 H2]. destruct (tema_real (series f n) w H1) as (o & E & A); [lia|]. rewrite <- xseries_map in E. rewrite Ls in A.
    exists o. eexists. split; [exact E|]. split; [exact A|]. intros i Hi. cbv beta zeta.
    assert (X : forall j, (w - 1 <= j <= i)%nat -> ewma_from w 0 (fun j => nth j (series f n) 0) j = ewma_from w 0 f j) by (intros j Hj; apply ewma_from_ext; [lia|lia|]; intros; apply nth_series0; lia).
    assert (Y : forall j, (2 * w - 2 <= j <= i)%nat -> ewma_from w (w - 1) (ewma_from w 0 (fun j => nth j (series f n) 0)) j = ewma_from w (w - 1) (ewma_from w 0 f) j) by (intros j Hj; apply ewma_from_ext; [lia|lia|]; intros; apply X; lia).
    rewrite (X i), (Y i) by lia. f_equal. apply ewma_from_ext; [lia|lia|]. intros j Hj. apply Y. lia.
  - destruct Hok as [H1 H2]. destruct (wma_real (series f n) w H1 H2) as (o & E & A). rewrite <- xseries_map in E. rewrite Ls in A.
    exists o. eexists. split; [exact E|]. split; [exact A|]. intros i Hi. cbv beta. now rewrite last_bars_win by lia.
  - destruct Hok as (H1 & H2 & H3). destruct (hull_real (series f n) w H1 H2) as (o & E & A); [lia|]. rewrite <- xseries_map in E. rewrite Ls in A.
    exists o. eexists. split; [exact E|]. split; [exact A|]. intros i Hi. cbv beta zeta. f_equal. unfold last_bars at 1.
    assert (Q : (1 <= Nat.sqrt w)%nat) by (apply Nat.sqrt_le_square; lia).
    assert (H : ((w + 1) / 2 <= w)%nat) by (apply Nat.lt_succ_r; apply Nat.div_lt_upper_bound; lia).
    apply map_ext_in. intros j Hj. apply in_seq in Hj. rewrite !last_bars_win by lia. reflexivity.
  - destruct Hok as [H1 H2]. destruct (lrf_real (series f n) w H1 H2) as (o & m & b & E & A & M). rewrite <- xseries_map in E. rewrite Ls in *.
    exists o. eexists. split; [exact E|]. split; [exact A|]. intros i Hi. cbv beta. exists (m i), (b i). split; [reflexivity|].
    intros m' b' H. specialize (M i Hi m' b' H). now rewrite !last_bars_win in M by lia.
  - destruct (pwma_real (series f n) w Hok) as (o & E & A). rewrite <- xseries_map in E. rewrite Ls in A.
    exists o. eexists. split; [exact E|]. split; [exact A|]. intros i Hi. cbv beta. now rewrite last_bars_win by lia.
  - destruct (trima_real (series f n) w) as (o & E & A); [lia|]. rewrite <- xseries_map in E. rewrite Ls in A.
    exists o. eexists. split; [exact E|]. split; [exact A|]. intros i Hi. cbv beta zeta. f_equal. unfold last_bars at 1.
    assert (H : ((w + 1) / 2 <= w)%nat) by (apply Nat.lt_succ_r; apply Nat.div_lt_upper_bound; lia).
    assert (H' : (0 < (w + 1) / 2)%nat) by (apply Nat.div_str_pos; lia).
    apply map_ext_in. intros j Hj. apply in_seq in Hj. rewrite !last_bars_win by lia. reflexivity.
  - destruct (vma_real f n w Hok) as (o & E & A). exists o. eexists. split; [exact E|]. split; [exact A|]. reflexivity.
  - destruct (vidya_real f n w Hok) as (o & E & A). exists o. eexists. split; [exact E|]. split; [exact A|]. reflexivity.
  - unfold xseries, series. rewrite (wilder_bars f w 0 n) by lia. eexists. eexists. split; [reflexivity|]. split; [|intros i Hi; reflexivity].
    apply aligned_bars. lia.
  - destruct Hok as [H1 H2]. destruct (zlma_real (series f n) w H1) as (o & E & A); [lia|]. rewrite <- xseries_map in E. rewrite Ls in A.
    exists o. eexists. split; [exact E|]. split; [exact A|]. intros i Hi. cbv beta zeta. apply ewma_from_ext; [lia|lia|].
    intros j Hj. rewrite !nth_series0 by lia. reflexivity.
Qed.
