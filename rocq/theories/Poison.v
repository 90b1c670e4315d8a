(** * Poison: what one NaN bar, or one stretch of flat prices, does to later
    outputs.  Every theorem of the section holds for binary64 and for exact
    arithmetic alike (class [FNan] of NaN.v). *)

From Coq Require Import Reals Lra Lia.
From Flocq Require Import Core IEEE754.BinarySingleNaN.
From Verif Require Import NaN Bars F64.
Local Unset Implicit Arguments.

Section Poison.
  Context {F : Type} {FO : FOps F} {N : FNan FO}.
  Local Open Scope F_scope.

  (** From a bar that makes the state NaN on, the outputs are NaN. *)
  Lemma scan_poison {A} (g : F -> A -> F) (b : nat -> A) s a n p : (a <= p)%nat ->
    (forall s, g s (b p) = fnan) -> (forall i, (p < i)%nat -> g fnan (b i) = fnan) ->
    forall i, (p <= i < a + n)%nat -> nth_error (scan (fun s x => (g s x, g s x)) s (map b (seq a n))) (i - a) = Some fnan.
  Proof.
    intros Hp H1 H2.
    assert (L : forall n a, (p < a)%nat -> forall i, (i < n)%nat -> nth_error (scan (fun s x => (g s x, g s x)) fnan (map b (seq a n))) i = Some fnan).
    { clear n s a Hp. induction n as [|n IH]; intros a Ha i Hi; [lia|]. cbn [seq map scan]. rewrite H2 by lia.
      destruct i as [|i]; [easy|]. cbn [nth_error]. apply IH; lia. }
    revert s a Hp. induction n as [|n IH]; intros s a Hp i Hi; [lia|]. cbn [seq map scan].
    destruct (Nat.eq_dec a p) as [->|D].
    - rewrite H1. destruct (i - p)%nat as [|j] eqn:Ej; [easy|]. cbn [nth_error]. apply L; lia.
    - replace (i - a)%nat with (S (i - S a)) by lia. cbn [nth_error]. apply IH; lia.
  Qed.

  Lemma follows_poison {A} (f : nat -> A) n o k init (g : F -> A -> F) p : follows o (series f n) k fnan init g ->
    (p < n)%nat -> (k < p \/ p <= k /\ init = fnan)%nat ->
    (forall s, (k < p)%nat -> g s (f p) = fnan) -> (forall i, g fnan (f i) = fnan) ->
    forall i, (p <= i)%nat -> (k <= i < n)%nat -> nth_error o i = Some fnan.
  Proof.
    intros (L & W & I & R) Hp Hk H1 H2. rewrite length_series in L.
    assert (B : forall j, (j < n)%nat -> nth_error (series f n) j = Some (f j)).
    { intros j Hj. unfold series. rewrite nth_error_map, (nth_error_nth' _ 0%nat) by now rewrite seq_length. now rewrite seq_nth. }
    induction i as [|i IH]; intros Hpi Hi.
    - destruct Hk as [Hk|[_ ->]]; [lia|]. now replace 0%nat with k by lia.
    - destruct (Nat.eq_dec k (S i)) as [E0|D].
      { subst k. destruct Hk as [Hk|[_ ->]]; [lia|easy]. }
      destruct (le_lt_dec p i) as [Hpi'|Hpi'].
      + rewrite (R i fnan (f (S i))); [now rewrite H2|lia|apply IH; lia|apply B; lia].
      + replace p with (S i) in * by lia. destruct (@nth_error_is_Some F o i ltac:(lia)) as [y Hy].
        rewrite (R i y (f (S i))); [now rewrite H1 by lia|lia|easy|apply B; lia].
  Qed.

  Lemma in_head (f : nat -> F) n p w : (p < w)%nat -> (p < n)%nat -> f p = fnan -> In fnan (firstn w (series f n)).
  Proof.
    intros H1 H2 E. unfold series. rewrite firstn_bars. rewrite <- E. apply in_map, in_seq. lia.
  Qed.

  (** One NaN bar: every later output of the recursive averages is NaN. *)
  Theorem ewma_nan_forever (f : nat -> F) n w p : (0 < w <= n)%nat -> (p < n)%nat -> f p = fnan ->
    exists o, ewma (series f n) w = Ok o /\ forall i, (p <= i)%nat -> (w - 1 <= i < n)%nat -> nth_error o i = Some fnan.
  Proof.
    intros Hw Hp E. destruct (ewma_values (series f n) w) as (o & Eo & Fo); [now rewrite length_series|].
    exists o. split; [easy|]. eapply follows_poison; [exact Fo|easy| | |].
    - destruct (le_lt_dec p (w - 1)); [right|now left]. split; [easy|].
      change (fold_left fadd ?l fsum0) with (fsum l). rewrite fsum_nan; [now nans|]. apply (in_head f n p); auto; lia.
    - intros s _. rewrite E. now nans.
    - intros i. now nans.
  Qed.
  Theorem wilder_nan_forever (f : nat -> F) n w p : (2 <= w <= n)%nat -> (p < n)%nat -> f p = fnan ->
    exists o, wilder (series f n) w = Ok o /\ forall i, (p <= i)%nat -> (w - 1 <= i < n)%nat -> nth_error o i = Some fnan.
  Proof.
    intros Hw Hp E. destruct (wilder_values (series f n) w) as (o & x & Eo & Ex & Fo); [now rewrite length_series|].
    exists o. split; [easy|]. eapply follows_poison; [exact Fo|easy| | |].
    - destruct (le_lt_dec p (w - 1)) as [L|L]; [right|now left]. split; [easy|].
      destruct (Nat.eq_dec p (w - 1)) as [->|D].
      + assert (x = fnan) as ->. { unfold series in Ex. rewrite nth_error_map, (nth_error_nth' _ 0%nat) in Ex by (rewrite seq_length; lia). rewrite seq_nth in Ex by lia. injection Ex as <-. exact E. }
        now nans.
      + change (fold_left fadd ?l fsum0) with (fsum l). rewrite fsum_nan; [now nans|]. apply (in_head f n p); auto; lia.
    - intros s _. rewrite E. now nans.
    - intros i. now nans.
  Qed.

  (** The windowed averages are NaN exactly while the NaN bar is in the window
      (see [sma_windowed] and its companions for the other half). *)
  Lemma in_win (f : nat -> F) w i p : (i + 1 - w <= p <= i)%nat -> (w <= i + 1)%nat -> f p = fnan -> In fnan (last_bars w f i).
  Proof. intros H Hw E. unfold last_bars. rewrite <- E. apply in_map, in_seq. lia. Qed.
  Theorem sma_nan (f : nat -> F) n w i p : (0 < w)%nat -> (w - 1 <= i < n)%nat -> (i + 1 - w <= p <= i)%nat -> f p = fnan ->
    exists o, sma (series f n) w = Ok o /\ nth_error o i = Some fnan.
  Proof.
    intros Hw Hi Hp E. destruct (sma_values (series f n) w Hw) as (o & Eo & A). exists o. split; [easy|].
    rewrite length_series in A. destruct A as (_ & _ & V). rewrite V by easy. f_equal. rewrite last_bars_win by lia.
    change (fold_left fadd ?l fsum0) with (fsum l). rewrite fsum_nan; [now nans|]. eapply in_win; eauto. lia.
  Qed.
  Lemma wdot_nan weights (x : list F) p : (p < length x)%nat -> (p < length weights)%nat -> nth_error x p = Some fnan -> wdot weights x = fnan.
  Proof.
    intros Hx Hw E. unfold wdot. change (fold_left fadd ?l fsum0) with (fsum l). apply fsum_nan.
    destruct (nth_error_is_Some Hw) as [c Ec]. apply in_map_iff. exists (fnan, c). split; [now nans|].
    revert x weights E Ec Hx Hw. induction p as [|p IH]; intros [|a x] [|b ws] E Ec Hx Hw; try easy; cbn in *.
    - left. congruence.
    - right. apply IH; auto; lia.
  Qed.
  Lemma last_bars_nth {A} (f : nat -> A) w i p : (i + 1 - w <= p <= i)%nat -> (w <= i + 1)%nat -> nth_error (last_bars w f i) (p - (i + 1 - w)) = Some (f p).
  Proof.
    intros H Hw. unfold last_bars. rewrite nth_error_map, (nth_error_nth' _ 0%nat) by (rewrite seq_length; lia).
    cbn. f_equal. f_equal. rewrite seq_nth by lia. lia.
  Qed.
  Theorem wma_nan (f : nat -> F) n w i p : (0 < w)%nat -> (N.of_nat w < 2 ^ 32)%N -> (w - 1 <= i < n)%nat -> (i + 1 - w <= p <= i)%nat -> f p = fnan ->
    exists o, wma (series f n) w = Ok o /\ nth_error o i = Some fnan.
  Proof.
    intros Hw Hb Hi Hp E. destruct (wma_values (series f n) w Hw Hb) as (o & Eo & A). exists o. split; [easy|].
    rewrite length_series in A. destruct A as (_ & _ & V). rewrite V by easy. f_equal. rewrite last_bars_win by lia.
    apply wdot_nan with (p - (i + 1 - w))%nat; rewrite ?last_bars_nth, ?E; try easy; try lia; unfold last_bars; rewrite map_length, seq_length; lia.
  Qed.
  Theorem pwma_nan (f : nat -> F) n w i p : (0 < w < 64)%nat -> (w - 1 <= i < n)%nat -> (i + 1 - w <= p <= i)%nat -> f p = fnan ->
    exists o, pwma (series f n) w = Ok o /\ nth_error o i = Some fnan.
  Proof.
    intros Hw Hi Hp E. destruct (pwma_values (series f n) w Hw) as (o & Eo & A). exists o. split; [easy|].
    rewrite length_series in A. destruct A as (_ & _ & V). rewrite V by easy. f_equal. rewrite last_bars_win by lia.
    apply wdot_nan with (p - (i + 1 - w))%nat; rewrite ?last_bars_nth, ?E; try easy; try lia; unfold last_bars; rewrite map_length, seq_length; lia.
  Qed.
  Theorem fwma_nan (f : nat -> F) n w i p : (2 <= w)%nat -> (w - 1 <= i < n)%nat -> (i + 1 - w <= p <= i)%nat -> f p = fnan ->
    exists o, fwma (series f n) w = Ok o /\ nth_error o i = Some fnan.
  Proof.
    intros Hw Hi Hp E. destruct (fwma_values (series f n) w Hw) as (o & Eo & A). exists o. split; [easy|].
    rewrite length_series in A. destruct A as (_ & _ & V). rewrite V by easy. f_equal. rewrite last_bars_win by lia.
    apply wdot_nan with (p - (i + 1 - w))%nat; rewrite ?last_bars_nth, ?E; try easy; try lia.
    - unfold last_bars; rewrite map_length, seq_length; lia.
    - unfold fib_weights, fib_seq. rewrite map_length. cbn [length]. rewrite length_scan, seq_length. lia.
  Qed.

  (** ** Flat prices *)

  Lemma abs_self (x : F) : fabs (x - x) = #0 \/ fabs (x - x) = fnan.
  Proof. destruct (self_sub x) as [-> | ->]; rewrite ?zero_abs; nans; auto. Qed.

  Lemma flat_path (l : list (list F)) x : (forall p, In p l -> p = [x; x]) ->
    fold_left (fun acc p => acc + fabs (at_ p 0 - at_ p 1)) l #0 = #0 \/
    fold_left (fun acc p => acc + fabs (at_ p 0 - at_ p 1)) l #0 = fnan.
  Proof.
    induction l as [|a l IH]; intros H; [now left|]. cbn [fold_left]. rewrite (H a) by now left. cbn [at_ nth].
    destruct (abs_self x) as [-> | ->].
    - rewrite zero_add. apply IH. intros p Hp. apply H. now right.
    - right. rewrite nan_add_r. apply fold_nan. intros y _. apply nan_add_l.
  Qed.

  Lemma repeat_bars {A} (f : nat -> A) x a n : (forall k, (a <= k < a + n)%nat -> f k = x) -> map f (seq a n) = repeat x n.
  Proof.
    revert a. induction n as [|n IH]; intros a H; [easy|]. cbn. rewrite H by lia. f_equal. apply IH. intros k Hk. apply H. lia.
  Qed.
  Lemma in_windows_repeat {A} w (x : A) n l : In l (windows w (repeat x n)) -> l = repeat x w.
  Proof.
    unfold windows. rewrite repeat_length. intros I. apply in_map_iff in I as (i & <- & Hi). apply in_seq in Hi.
    replace (repeat x n) with (map (fun _ => x) (seq 0 n)) by (apply repeat_bars; easy).
    rewrite skipn_bars, firstn_bars. rewrite (repeat_bars (fun _ => x) x) by easy. f_equal. lia.
  Qed.

  Lemma nth_rep {A} (x d : A) i n : (i < n)%nat -> nth i (repeat x n) d = x.
  Proof. revert i. induction n as [|n IH]; intros [|i] H; try lia; cbn; [easy|]. apply IH. lia. Qed.

  (** kama: once its window has held [w] equal prices, every output is NaN for
      good; with [w = 1] that is from the very first output on. *)
  Theorem kama_flat_forever (f : nat -> F) n w short long p : (0 < w)%nat -> (w - 1 <= p)%nat ->
    (forall k, (p + 1 - w <= k <= p)%nat -> f k = f p) ->
    exists o, kama (series f n) w short long = Ok o /\ forall i, (p <= i < n)%nat -> nth_error o i = Some fnan.
  Proof.
    intros Hw Hp Flat. unfold kama, usub. rewrite (proj2 (Nat.leb_le 1 w)) by lia. cbn [bind].
    unfold series. rewrite rwindows_bars by lia. cbn [bind plus]. eexists. split; [reflexivity|]. intros i Hi.
    rewrite nth_error_app2 by (unfold pad; rewrite repeat_length; lia). unfold pad. rewrite repeat_length.
    set (sh := #2 / fofnat (unwrap_or short 2 + 1)). set (lo := #2 / fofnat (unwrap_or long 30 + 1)). clearbody sh lo.
    apply (scan_poison (fun s x => fst (kama_step sh lo s x)) (last_bars w f) #0 (w - 1) (n + 1 - w) p); [lia| | |lia].
    - intros s. unfold last_bars. rewrite (repeat_bars f (f p)) by (intros k Hk; apply Flat; lia).
      unfold kama_step. cbn [fst].
      replace (last_ (repeat (f p) w)) with (f p) by (unfold last_; rewrite repeat_length; symmetry; apply nth_rep; lia).
      replace (at_ (repeat (f p) w) 0) with (f p) by (symmetry; apply nth_rep; lia).
      assert (Z : fabs (f p - f p) / fold_left (fun acc p => acc + fabs (at_ p 0 - at_ p 1)) (windows 2 (repeat (f p) w)) #0 = fnan).
      { destruct (abs_self (f p)) as [-> | ->]; [|now nans].
        destruct (flat_path (windows 2 (repeat (f p) w)) (f p)) as [-> | ->]; [|now rewrite zero_div|now nans].
        intros q Hq. apply in_windows_repeat in Hq. exact Hq. }
      rewrite Z. unfold powi2. now nans.
    - intros j _. unfold kama_step. cbn [fst]. now nans.
  Qed.
End Poison.

Section Flat2.
  Context {F : Type} {FO : FOps F} {N : FNan FO}.
  Local Open Scope F_scope.

  Lemma scan_fst {A} (g : F -> A -> F * F) s l : (forall s x, g s x = (fst (g s x), fst (g s x))) ->
    scan g s l = scan (fun s x => (fst (g s x), fst (g s x))) s l.
  Proof. intros H. revert s. induction l as [|a l IH]; intros s; [easy|]. cbn [scan]. rewrite (H s a) at 1. now rewrite IH. Qed.
  Lemma firstn_rep {A} (x : A) k n : firstn k (repeat x n) = repeat x (Nat.min k n).
  Proof. revert n. induction k as [|k IH]; intros [|n]; cbn; try easy. now rewrite IH. Qed.
  Lemma rev_repeat {A} (x : A) n : rev (repeat x n) = repeat x n.
  Proof.
    induction n as [|n IH]; [easy|]. cbn. rewrite IH. clear IH. induction n as [|n IH]; [easy|]. cbn. now rewrite IH.
  Qed.

  (** The running gains and losses after bar [i]. *)
  Fixpoint run_up (f : nat -> F) (i : nat) : F :=
    match i with O => #0 | S j => run_up f j + fmax #0 (f (S j) - f j) end.
  Fixpoint run_down (f : nat -> F) (i : nat) : F :=
    match i with O => #0 | S j => run_down f j + fmax #0 (f j - f (S j)) end.

  Lemma cmo_cum_bars (f : nat -> F) n : (0 < n)%nat -> cmo_cum (series f n) = map (fun i => (run_up f i, run_down f i)) (seq 0 n).
  Proof.
    intros Hn. unfold cmo_cum. rewrite windows2_series. replace n with (S (n - 1)) at 2 by lia. cbn [seq map]. f_equal.
    apply (scan_inv_bars _ (fun i => (run_up f (i - 1), run_down f (i - 1)))); [easy|].
    intros i Hi. destruct i as [|j]; [lia|]. replace (S j - 1)%nat with j by lia. replace (S (S j) - 1)%nat with (S j) by lia. reflexivity.
  Qed.
  Lemma cmo_raw_bars (f : nat -> F) n w : (0 < w < n)%nat -> cmo_raw (series f n) w = map (fun i =>
    let g := run_up f i - run_up f (i - w) in let l := run_down f i - run_down f (i - w) in (g - l) / (g + l)) (seq w (n - w)).
  Proof.
    intros Hw. unfold cmo_raw. rewrite cmo_cum_bars by lia. rewrite windows_bars by lia. rewrite map_map.
    replace (0 + (w + 1) - 1)%nat with w by lia. replace (n + 1 - (w + 1))%nat with (n - w)%nat by lia.
    apply map_ext_in. intros i Hi. apply in_seq in Hi. unfold cmo_win. rewrite length_last_bars.
    pose proof (last_bars_nth (fun i => (run_up f i, run_down f i)) (w + 1) i i ltac:(lia) ltac:(lia)) as A.
    pose proof (last_bars_nth (fun i => (run_up f i, run_down f i)) (w + 1) i (i - w) ltac:(lia) ltac:(lia)) as B.
    replace (i - (i + 1 - (w + 1)))%nat with (w + 1 - 1)%nat in A by lia. replace (i - w - (i + 1 - (w + 1)))%nat with 0%nat in B by lia.
    apply (nth_error_nth _ _ (fnan, fnan)) in A. apply (nth_error_nth _ _ (fnan, fnan)) in B. now rewrite A, B.
  Qed.

  Lemma fmax0_self (x : F) : fmax #0 (x - x) = #0.
  Proof.
    destruct (self_sub x) as [-> | ->]; [|apply fmax_nan_r]. unfold fmax.
    destruct (fisnan #0) eqn:E; [easy|]. now rewrite zero_lt.
  Qed.
  Lemma flat_run (r : nat -> F) a d : (forall k, (k < d)%nat -> r (S (a + k)) = r (a + k)%nat + #0) ->
    r (a + d)%nat - r a = #0 \/ r (a + d)%nat - r a = fnan.
  Proof.
    intros H. destruct d as [|d]; [rewrite Nat.add_0_r; apply self_sub|].
    assert (E : forall k, (k <= d)%nat -> r (S (a + k)) = r a + #0).
    { induction k as [|k IH]; intros Hk; [rewrite H, Nat.add_0_r by lia; easy|].
      rewrite H by lia. replace (a + S k)%nat with (S (a + k)) by lia. rewrite IH by lia. apply zero_idem. }
    rewrite <- Nat.add_succ_comm. cbn [plus]. rewrite E by lia. apply zero_sub.
  Qed.

  (** vma: its volatility index is a momentum over 9 bars, so 10 equal prices in
      a row end it. *)
  Theorem vma_flat_forever (f : nat -> F) n w p : (9 <= p)%nat -> (forall k, (p - 9 <= k <= p)%nat -> f k = f p) ->
    exists o, vma (series f n) w = Ok o /\ forall i, (p <= i < n)%nat -> nth_error o i = Some fnan.
  Proof.
    intros Hp Flat. unfold vma. eexists. split; [reflexivity|]. intros i Hi.
    rewrite cmo_raw_bars by lia. unfold series. rewrite skipn_bars, combine_bars, Nat.min_id. cbn [plus].
    set (al := #2 / fofnat (w + 1)). clearbody al.
    destruct (le_lt_dec (Nat.max w 9) i) as [L|L]; [|rewrite nth_error_app1 by (unfold pad; rewrite repeat_length; lia); now apply nth_error_pad].
    rewrite nth_error_app2 by (unfold pad; rewrite repeat_length; lia). unfold pad. rewrite repeat_length, nth_error_skipn.
    replace (Nat.max w 9 - 9 + (i - Nat.max w 9))%nat with (i - 9)%nat by lia.
    match goal with |- context [map ?b _] => set (b0 := b) end.
    rewrite scan_fst by (intros ? []; reflexivity).
    apply (scan_poison (fun s x => fst (vma_step al s x)) b0 #0 9 (n - 9) p); [easy| | |lia].
    - intros s. unfold b0, vma_step. cbn [fst]. cbv zeta.
      assert (U : run_up f p - run_up f (p - 9) = #0 \/ run_up f p - run_up f (p - 9) = fnan).
      { replace p with (p - 9 + 9)%nat at 1 3 by lia. apply (flat_run (run_up f)). intros k Hk. cbn [run_up].
        rewrite (Flat (S (p - 9 + k))), (Flat (p - 9 + k)%nat) by lia. now rewrite fmax0_self. }
      assert (D : run_down f p - run_down f (p - 9) = #0 \/ run_down f p - run_down f (p - 9) = fnan).
      { replace p with (p - 9 + 9)%nat at 1 3 by lia. apply (flat_run (run_down f)). intros k Hk. cbn [run_down].
        rewrite (Flat (S (p - 9 + k))), (Flat (p - 9 + k)%nat) by lia. now rewrite fmax0_self. }
      destruct U as [-> | ->]; [|now nans]. destruct D as [-> | ->]; [|now nans].
      rewrite zero_add. destruct (self_sub #0) as [-> | ->]; rewrite ?zero_div; now nans.
    - intros j _. unfold b0, vma_step. cbn [fst]. now nans.
  Qed.

  (** frama: [w] equal prices in a row make the logarithm of the fractal
      dimension [ln 0 - ln 0]. *)
  Theorem frama_flat_forever (f : nat -> F) n w p : (2 <= w)%nat -> (w mod 2 = 0)%nat -> (w - 1 <= p)%nat ->
    (forall k, (p + 1 - w <= k <= p)%nat -> f k = f p) ->
    fmax fminval (f p) = f p -> fmin fmaxval (f p) = f p -> f p - f p = #0 ->
    fln #0 - fln #0 = fnan -> fexp fnan = (fnan : F) ->
    exists o, frama (series f n) w = Ok (Some o) /\ forall i, (p <= i < n)%nat -> nth_error o i = Some fnan.
  Proof.
    intros Hw Ev Hp Flat Mx Mn Z Ln Ex. unfold frama. rewrite (proj2 (Nat.eqb_eq _ _) Ev). cbn [negb].
    unfold usub. rewrite (proj2 (Nat.leb_le 1 w)) by lia. cbn [bind]. unfold series. rewrite rwindows_bars by lia. cbn [bind plus].
    eexists. split; [reflexivity|]. intros i Hi.
    rewrite nth_error_app2 by (unfold pad; rewrite repeat_length; lia). unfold pad. rewrite repeat_length.
    rewrite scan_fst by (intros s l; unfold frama_step; now destruct (fold_left _ _ _) as [[[a1 a2] a3] a4]).
    apply (scan_poison (fun s x => fst (frama_step w s x)) (last_bars w f) #0 (w - 1) (n + 1 - w) p); [lia| | |lia].
    - intros s. unfold last_bars. rewrite (repeat_bars f (f p)) by (intros k Hk; apply Flat; lia). set (x := f p) in *. clearbody x.
      assert (M : (1 <= w / 2 <= w)%nat). { split; [apply Nat.div_le_lower_bound; lia|apply Nat.div_le_upper_bound; lia]. }
      assert (Nx : fisnan x = false). { destruct (fisnan x) eqn:E; [|easy]. apply isnan_spec in E. rewrite E, nan_sub_l in Z. pose proof zero_num as Q. rewrite <- Z, isnan_nan in Q. easy. }
      assert (XX : fmax x x = x) by (unfold fmax; rewrite Nx; now destruct (x <? x)).
      assert (XN : fmin x x = x) by (unfold fmin; rewrite Nx; now destruct (x <? x)).
      unfold frama_step.
      assert (Fd : forall k, (1 <= k)%nat -> fold_left (fun '(hh1, ll1, hh2, ll2) '(x1, x2) => (fmax hh1 x1, fmin ll1 x1, fmax hh2 x2, fmin ll2 x2))
                (combine (repeat x k) (repeat x k)) (fminval, fmaxval, fminval, fmaxval) = (x, x, x, x)).
      { intros [|k] Hk; [lia|]. cbn [repeat combine fold_left]. rewrite Mx, Mn. clear Hk.
        induction k as [|k IH]; [easy|]. cbn [repeat combine fold_left]. now rewrite XX, XN. }
      rewrite rev_repeat, firstn_rep, Nat.min_l, Fd by lia. cbn [fst]. rewrite XX, XN, Z, !zero_div_nat, zero_add by lia.
      rewrite Ln. nans. rewrite Ex, fclamp_val_nan. now nans.
    - intros j _. unfold frama_step. destruct (fold_left _ _ _) as [[[a1 a2] a3] a4]. cbn [fst]. now nans.
  Qed.
End Flat2.

Section Mama.
  Context {F : Type} {FO : FOps F} {N : FNan FO}.
  Local Open Scope F_scope.

  (** A NaN price reaches the smoothed price of its own bar. *)
  Lemma mama_sm_nan (f : nat -> F) n i : (3 <= i < n)%nat -> f i = fnan ->
    at_ (pad 3 #0 ++ map mama_smooth (windows 4 (series f n))) i = fnan.
  Proof.
    intros Hi E. unfold at_, series. rewrite windows_bars, map_map by lia. rewrite app_nth2 by (unfold pad; rewrite repeat_length; lia).
    unfold pad. rewrite repeat_length. replace (0 + 4 - 1)%nat with 3%nat by lia.
    rewrite (nth_indep _ fnan (mama_smooth (last_bars 4 f 0))) by (rewrite map_length, seq_length; lia).
    rewrite (map_nth (fun i => mama_smooth (last_bars 4 f i)) _ 0%nat).
    rewrite seq_nth by lia. replace (3 + (i - 3))%nat with i by lia.
    unfold mama_smooth, at_, last_bars. replace (i + 1 - 4)%nat with (i - 3)%nat by lia. cbn [seq map nth].
    replace (S (S (S (i - 3)))) with i by lia. rewrite E. now nans.
  Qed.

  Lemma hilbert_nan (a b c t : F) : hilbert fnan a b c t = fnan.
  Proof. unfold hilbert. now nans. Qed.

  (** The step that reads the NaN price either panics or leaves a NaN period. *)
  Lemma mama_step_nan fast slow sm data s i : at_ sm i = (fnan : F) -> fatan fnan = (fnan : F) ->
    mama_step fast slow sm data s i = Panic \/
    exists s' out, mama_step fast slow sm data s i = Ok (s', out) /\ ms_period s' = fnan.
  Proof.
    intros E A. unfold mama_step. rewrite E, hilbert_nan. cbv zeta.
    set (tw := flit 75 1000 * ms_period s + flit 54 100).
    set (dt := push7 fnan (ms_dtrend s)). set (q1 := push7 (hilbert (at_ dt 0) _ _ _ tw) (ms_q1q s)).
    set (i1 := push7 (at_ dt 3) (ms_i1q s)).
    assert (D0 : at_ dt 0 = fnan) by easy. assert (Q0 : at_ q1 0 = fnan) by (unfold q1; rewrite D0, hilbert_nan; easy).
    rewrite Q0, hilbert_nan. nans. rewrite A. unfold fneb. nans. unfold fclamp.
    destruct (flit 67 100 * ms_period s <=? flit 15 10 * ms_period s); [|now left]. right. cbn [bind].
    eexists _, _. split; [reflexivity|]. cbn [ms_period]. rewrite !fclamp_val_nan. now nans.
  Qed.
  (** With a NaN period the next step panics. *)
  Lemma mama_step_panic fast slow sm data s i : ms_period s = (fnan : F) -> mama_step fast slow sm data s i = Panic.
  Proof. intros E. unfold mama_step. rewrite E. unfold fclamp. cbv zeta. now nans. Qed.

  Theorem mama_nan_panics (f : nat -> F) n fast slow p : (6 <= p)%nat -> (p + 1 < n)%nat -> f p = fnan ->
    fatan fnan = (fnan : F) -> mama (series f n) fast slow = Panic.
  Proof.
    intros Hp Hn E A. unfold mama. rewrite length_series.
    set (fa := unwrap_or fast _). set (sl := unwrap_or slow _). set (sm := pad 3 _ ++ _).
    assert (S0 : at_ sm p = fnan) by (apply mama_sm_nan; [lia|easy]). clearbody sm fa sl.
    enough (R : forall s a m, (a <= p)%nat -> (p + 1 < a + m)%nat -> rscan (mama_step fa sl sm (series f n)) s (seq a m) = Panic).
    { now rewrite R by lia. }
    intros s a m. revert s a. induction m as [|m IH]; intros s a H1 H2; [lia|]. cbn [seq rscan].
    destruct (Nat.eq_dec a p) as [->|D].
    - destruct (mama_step_nan fa sl sm (series f n) s p S0 A) as [-> |(s' & out & -> & P)]; [easy|]. cbn [bind].
      destruct m as [|m]; [lia|]. cbn [seq rscan]. now rewrite mama_step_panic.
    - destruct (mama_step _ _ _ _ s a) as [[s' out]|]; [|easy]. cbn [bind]. now rewrite IH by lia.
  Qed.
End Mama.
