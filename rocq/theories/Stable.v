(** * Stable: small changes of the prices, small changes of the result.

    The same function is run on two series that are nowhere further apart than
    [e].  For the averages and channels the results are nowhere further apart than
    a fixed multiple of [e], whatever the series and its length.  For the counters
    and the ratios of moves no such multiple exists: prices as close as one likes
    give results a fixed amount apart. *)

From Coq Require Import Reals Lra Lia List Permutation Sorted.
From Verif Require Import Base Num XReal Spec RSpec Bars BaseFacts XRFacts Smooth Volume Volatility Momentum Trend Distribution.
From Verif Require Scale.
From Flocq Require Import Core.Raux.
From Verif Require Import SmoothReal SmoothReal2 DistReal OrderStat CorrReal MomReal VolatReal VolumeReal TrendReal Convex F64Rec Dispatch Forget.
Import ListNotations.
Local Unset Implicit Arguments.
Local Open Scope R_scope.

(** ** Specification *)

(** Nowhere further apart than [e] on the first [n] bars. *)
Definition close (e : R) (n : nat) (f g : nat -> R) : Prop := forall k, (k < n)%nat -> Rabs (f k - g k) <= e.
(** Both results are numbers from bar [k] on, nowhere further apart than [e]. *)
Definition steady (e : R) (n k : nat) (o o' : list xr) : Prop :=
  forall i, (k <= i < n)%nat -> exists x y, nth_error o i = Some (Fin x) /\ nth_error o' i = Some (Fin y) /\ Rabs (x - y) <= e.

(** ** Means and extremes *)
Lemma steady_of e n k k' na na' o o' (F G : nat -> R) s : aligned o n k na (fun i => Fin (F i)) -> aligned o' n k' na' (fun i => Fin (G i)) -> (k <= s)%nat -> (k' <= s)%nat ->
  (forall i, (s <= i < n)%nat -> Rabs (F i - G i) <= e) -> steady e n s o o'.
Proof.
  intros A A' Hk Hk' H i Hi. rewrite (aligned_at _ _ _ _ _ _ A) by lia. rewrite (aligned_at _ _ _ _ _ _ A') by lia. eexists _, _. split; [reflexivity|]. split; [reflexivity|]. now apply H.
Qed.
Lemma close_pos e n f g : (0 < n)%nat -> close e n f g -> 0 <= e.
Proof. intros Hn H. pose proof (H 0%nat Hn). pose proof (Rabs_pos (f 0%nat - g 0%nat)). lra. Qed.
Lemma map_close {A} e (f g : A -> R) l : (forall k, In k l -> Rabs (f k - g k) <= e) -> Forall2 (fun x y => Rabs (x - y) <= e) (map f l) (map g l).
Proof. induction l as [|a l IH]; intros H; cbn; constructor; [apply H; now left|]. apply IH. intros k Hk. apply H. now right. Qed.
Lemma mean_close {A} e (f g : A -> R) l : 0 <= e -> (forall k, In k l -> Rabs (f k - g k) <= e) -> Rabs (mean (map f l) - mean (map g l)) <= e.
Proof. intros He H. apply mean_perturb; [easy|]. now apply map_close. Qed.
Lemma mean_bars_close e w f g i : 0 <= e -> (w <= i + 1)%nat -> (forall k, (k <= i)%nat -> (i < k + w)%nat -> Rabs (f k - g k) <= e) -> Rabs (mean (last_bars w f i) - mean (last_bars w g i)) <= e.
Proof. intros He Hw H. apply mean_close; [easy|]. intros k Hk. apply in_seq in Hk. apply H; lia. Qed.
Lemma wsum_close e ws : (forall x, In x ws -> 0 <= x) -> forall xs ys, 0 <= e -> length xs = length ws -> Forall2 (fun x y => Rabs (x - y) <= e) xs ys -> Rabs (wsum ws xs - wsum ws ys) <= Rsum ws * e.
Proof.
  induction ws as [|a ws IH]; intros P xs ys He L H; [destruct xs; [|easy]; inversion H; unfold wsum; cbn [combine map]; rewrite !Rsum_nil, Rminus_diag_eq, Rabs_R0 by reflexivity; lra|].
  destruct xs as [|x xs]; [easy|]. inversion H; subst. unfold wsum in *. cbn [combine map fst snd]. rewrite !Rsum_cons. specialize (IH ltac:(intros; apply P; now right) xs l' He ltac:(now injection L) ltac:(easy)).
  pose proof (P a (or_introl eq_refl)). replace (a * x + Rsum _ - (a * y + Rsum _)) with (a * (x - y) + (Rsum (map (fun p => fst p * snd p) (combine ws xs)) - Rsum (map (fun p => fst p * snd p) (combine ws l')))) by ring.
  eapply Rle_trans; [apply Rabs_triang|]. rewrite Rmult_plus_distr_r. apply Rplus_le_compat; [|exact IH]. now apply abs_scale.
Qed.
Lemma wmean_close e ws xs ys : (forall x, In x ws -> 0 <= x) -> 0 < Rsum ws -> 0 <= e -> length xs = length ws -> Forall2 (fun x y => Rabs (x - y) <= e) xs ys -> Rabs (wmean ws xs - wmean ws ys) <= e.
Proof.
  intros P S He L H. unfold wmean. replace (wsum ws xs / Rsum ws - wsum ws ys / Rsum ws) with (/ Rsum ws * (wsum ws xs - wsum ws ys)) by (field; lra).
  assert (0 < / Rsum ws) by now apply Rinv_0_lt_compat. eapply Rle_trans; [apply abs_scale; [lra|now apply (wsum_close e)]|]. rewrite <- Rmult_assoc, Rinv_l by lra. lra.
Qed.
Lemma wmean_bars_close e ws w f g i : (forall x, In x ws -> 0 <= x) -> 0 < Rsum ws -> length ws = w -> 0 <= e -> (w <= i + 1)%nat ->
  (forall k, (k <= i)%nat -> (i < k + w)%nat -> Rabs (f k - g k) <= e) -> Rabs (wmean ws (last_bars w f i) - wmean ws (last_bars w g i)) <= e.
Proof.
  intros P S L He Hw H. apply wmean_close; [easy|easy|easy| |]; [unfold last_bars; rewrite map_length, seq_length; lia|]. apply map_close. intros k Hk. apply in_seq in Hk. apply H; lia.
Qed.
Lemma highest_close e w f g i : (0 < w <= i + 1)%nat -> (forall k, (k <= i)%nat -> (i < k + w)%nat -> Rabs (f k - g k) <= e) -> Rabs (highest w f i - highest w g i) <= e.
Proof.
  intros Hw H. destruct (highest_spec w f i Hw) as [(a & A1 & A2 & Ea) A]. destruct (highest_spec w g i Hw) as [(b & B1 & B2 & Eb) B]. pose proof (B a A1 A2). pose proof (A b B1 B2).
  pose proof (H a A1 A2) as Ha. pose proof (H b B1 B2) as Hb. revert Ha Hb. unfold Rabs. repeat destruct Rcase_abs; lra.
Qed.
Lemma lowest_close e w f g i : (0 < w <= i + 1)%nat -> (forall k, (k <= i)%nat -> (i < k + w)%nat -> Rabs (f k - g k) <= e) -> Rabs (lowest w f i - lowest w g i) <= e.
Proof.
  intros Hw H. destruct (lowest_spec w f i Hw) as [(a & A1 & A2 & Ea) A]. destruct (lowest_spec w g i Hw) as [(b & B1 & B2 & Eb) B]. pose proof (B a A1 A2). pose proof (A b B1 B2).
  pose proof (H a A1 A2) as Ha. pose proof (H b B1 B2) as Hb. revert Ha Hb. unfold Rabs. repeat destruct Rcase_abs; lra.
Qed.

(** ** Averages *)
Theorem sma_stable e n f g w : (0 < w)%nat -> close e n f g -> exists o o', sma (xseries f n) w = Ok o /\ sma (xseries g n) w = Ok o' /\ steady e n (w - 1) o o'.
Proof.
  intros Hw H. destruct (sma_from f w 0 n Hw) as (o & E & A). destruct (sma_from g w 0 n Hw) as (o' & E' & A'). exists o, o'. split; [exact E|]. split; [exact E'|].
  eapply steady_of; [exact A|exact A'|lia|lia|]. intros i Hi. cbn [plus]. apply mean_bars_close; [apply (close_pos e n f g); [lia|easy]|lia|]. intros k K1 K2. apply H. lia.
Qed.
(** A weighted mean over the window. *)
Lemma weighted_steady e n f g w (fn : list xr -> result (list xr)) ws : (0 < w)%nat -> close e n f g -> (forall x, In x ws -> 0 <= x) -> 0 < Rsum ws -> length ws = w ->
  (forall l, exists o, fn (map Fin l) = Ok o /\ aligned o (length l) (w - 1) NaN (fun i => Fin (wmean ws (win w l i)))) ->
  exists o o', fn (xseries f n) = Ok o /\ fn (xseries g n) = Ok o' /\ steady e n (w - 1) o o'.
Proof.
  intros Hw H P S L R. rewrite !xseries_map. destruct (R (series f n)) as (o & E & A). destruct (R (series g n)) as (o' & E' & A'). exists o, o'. split; [exact E|]. split; [exact E'|].
  rewrite series_length in A, A'. eapply steady_of; [exact A|exact A'|lia|lia|]. intros i Hi. cbv beta. rewrite !last_bars_win by lia. apply wmean_bars_close; try easy; [apply (close_pos e n f g); [lia|easy]|lia|]. intros k K1 K2. apply H. lia.
Qed.
Lemma INR_weights w : (0 < w)%nat -> (forall x, In x (map INR (seq 1 w)) -> 0 <= x) /\ 0 < Rsum (map INR (seq 1 w)).
Proof.
  intros Hw. assert (P : forall x, In x (map INR (seq 1 w)) -> 0 < x) by (intros x Hx; apply in_map_iff in Hx as (k & <- & Hk); apply in_seq in Hk; apply lt_0_INR; lia).
  split; [intros x Hx; apply Rlt_le; auto|]. apply Rsum_pos; [easy|]. destruct w; [lia|easy].
Qed.
Theorem wma_stable e n f g w : (0 < w)%nat -> (N.of_nat w < 2 ^ 32)%N -> close e n f g ->
  exists o o', wma (xseries f n) w = Ok o /\ wma (xseries g n) w = Ok o' /\ steady e n (w - 1) o o'.
Proof.
  intros Hw Hb H. destruct (INR_weights w Hw) as [P S]. apply (weighted_steady e n f g w (fun l => wma l w) (map INR (seq 1 w))); try easy; [now rewrite map_length, seq_length|]. intros l. now apply wma_real.
Qed.
Theorem pwma_stable e n f g w : (0 < w < 64)%nat -> close e n f g ->
  exists o o', pwma (xseries f n) w = Ok o /\ pwma (xseries g n) w = Ok o' /\ steady e n (w - 1) o o'.
Proof.
  intros Hw H. set (ws := map (fun k => IZR (Z.of_N (binom (w - 1) k))) (seq 0 w)). assert (P : forall x, In x ws -> 0 <= x) by (intros x Hx; apply in_map_iff in Hx as (k & <- & _); apply IZR_le; lia).
  assert (S : 0 < Rsum ws).
  { unfold ws. destruct w as [|w']; [lia|]. cbn [seq map]. rewrite Rsum_cons. assert (0 <= Rsum (map (fun k => IZR (Z.of_N (binom (S w' - 1) k))) (seq 1 w'))) by (apply Rsum_nonneg; intros x Hx; apply in_map_iff in Hx as (k & <- & _); apply IZR_le; lia).
    replace (binom (S w' - 1) 0) with 1%N by (destruct (S w' - 1)%nat; reflexivity). change (IZR (Z.of_N 1)) with 1. lra. }
  apply (weighted_steady e n f g w (fun l => pwma l w) ws); try easy; [unfold ws; now rewrite map_length, seq_length|]. intros l. now apply pwma_real.
Qed.
Theorem fwma_stable e n f g w : (2 <= w)%nat -> close e n f g ->
  exists o o', fwma (xseries f n) w = Ok o /\ fwma (xseries g n) w = Ok o' /\ steady e n (w - 1) o o'.
Proof.
  intros Hw H. set (ws := map (fun k => INR (fib k)) (seq 1 w)). assert (P : forall x, In x ws -> 0 <= x) by (intros x Hx; apply in_map_iff in Hx as (k & <- & _); apply pos_INR).
  assert (S : 0 < Rsum ws).
  { unfold ws. destruct w as [|w']; [lia|]. cbn [seq map]. rewrite Rsum_cons. assert (0 <= Rsum (map (fun k => INR (fib k)) (seq 2 w'))) by (apply Rsum_nonneg; intros x Hx; apply in_map_iff in Hx as (k & <- & _); apply pos_INR).
    change (INR (fib 1)) with 1. lra. }
  apply (weighted_steady e n f g w (fun l => fwma l w) ws); try easy; [lia|unfold ws; now rewrite map_length, seq_length|]. intros l. now apply fwma_real.
Qed.
Theorem trima_stable e n f g w : (0 < w <= n)%nat -> close e n f g ->
  exists o o', trima (xseries f n) w = Ok o /\ trima (xseries g n) w = Ok o' /\ steady e n (w - 1) o o'.
Proof.
  intros Hw H. pose proof (close_pos e n f g ltac:(lia) H) as He. rewrite !xseries_map. destruct (trima_real (series f n) w) as (o & E & A); [rewrite series_length; lia|]. destruct (trima_real (series g n) w) as (o' & E' & A'); [rewrite series_length; lia|].
  exists o, o'. split; [exact E|]. split; [exact E'|]. rewrite series_length in A, A'. eapply steady_of; [exact A|exact A'|lia|lia|]. intros i Hi. cbv beta zeta.
  set (w1 := ((w + 1) / 2)%nat). assert (W : (2 * w1 <= w + 1 < 2 * w1 + 2)%nat) by (pose proof (Nat.div_mod (w + 1) 2 ltac:(lia)); pose proof (Nat.mod_upper_bound (w + 1) 2 ltac:(lia)); unfold w1; lia).
  apply mean_close; [easy|]. intros j Hj. apply in_seq in Hj. rewrite !last_bars_win by lia. apply mean_bars_close; [easy|lia|]. intros k K1 K2. apply H. lia.
Qed.
Theorem hull_stable e n f g w : (0 < w)%nat -> (N.of_nat w < 2 ^ 32)%N -> (w + Nat.sqrt w - 1 <= n)%nat -> close e n f g ->
  exists o o', hull (xseries f n) w = Ok o /\ hull (xseries g n) w = Ok o' /\ steady (3 * e) n (w + Nat.sqrt w - 2) o o'.
Proof.
  intros Hw Hb Hn H. pose proof (sqrt_pos_le w Hw) as Hq. pose proof (close_pos e n f g ltac:(lia) H) as He. rewrite !xseries_map. destruct (hull_real (series f n) w) as (o & E & A); try easy; [rewrite series_length; lia|]. destruct (hull_real (series g n) w) as (o' & E' & A'); try easy; [rewrite series_length; lia|].
  exists o, o'. split; [exact E|]. split; [exact E'|]. rewrite series_length in A, A'. eapply steady_of; [exact A|exact A'|lia|lia|]. intros i Hi. cbv beta zeta. set (q := Nat.sqrt w) in *.
  set (h := ((w + 1) / 2)%nat). assert (W : (2 * h <= w + 1 < 2 * h + 2)%nat) by (pose proof (Nat.div_mod (w + 1) 2 ltac:(lia)); pose proof (Nat.mod_upper_bound (w + 1) 2 ltac:(lia)); unfold h; lia).
  destruct (INR_weights q ltac:(lia)) as [P S]. apply wmean_close; try easy; [lra|rewrite !map_length, !seq_length; reflexivity|]. apply map_close. intros j Hj. apply in_seq in Hj. rewrite !last_bars_win by lia.
  destruct (INR_weights h ltac:(lia)) as [P1 S1]. destruct (INR_weights w Hw) as [P2 S2].
  pose proof (wmean_bars_close e (map INR (seq 1 h)) h f g j P1 S1 ltac:(now rewrite map_length, seq_length) He ltac:(lia) ltac:(intros; apply H; lia)) as D1.
  pose proof (wmean_bars_close e (map INR (seq 1 w)) w f g j P2 S2 ltac:(now rewrite map_length, seq_length) He ltac:(lia) ltac:(intros; apply H; lia)) as D2.
  set (a := wmean _ (last_bars h f j)) in *. set (b := wmean _ (last_bars h g j)) in *. set (c := wmean _ (last_bars w f j)) in *. set (d := wmean _ (last_bars w g j)) in *.
  replace (2 * a - c - (2 * b - d)) with (2 * (a - b) - (c - d)) by ring. replace (3 * e) with (2 * e + e) by ring. apply abs2; [apply abs_scale; [lra|assumption]|easy].
Qed.
Theorem ewma_stable e n f g w : (0 < w <= n)%nat -> close e n f g -> exists o o', ewma (xseries f n) w = Ok o /\ ewma (xseries g n) w = Ok o' /\ steady e n (w - 1) o o'.
Proof.
  intros Hw H. destruct (ewma_from_at f w 0 n Hw) as (o & E & A). destruct (ewma_from_at g w 0 n Hw) as (o' & E' & A'). exists o, o'. split; [exact E|]. split; [exact E'|].
  eapply steady_of; [exact A|exact A'|lia|lia|]. intros i Hi. cbn [plus]. apply ewma_from_perturb; try lia. intros k K. apply H. lia.
Qed.
Theorem wilder_stable e n f g w : (0 < w <= n)%nat -> close e n f g -> exists o o', wilder (xseries f n) w = Ok o /\ wilder (xseries g n) w = Ok o' /\ steady e n (w - 1) o o'.
Proof.
  intros Hw H. destruct (wilder_from_at f w 0 n Hw) as (o & E & A). destruct (wilder_from_at g w 0 n Hw) as (o' & E' & A'). exists o, o'. split; [exact E|]. split; [exact E'|].
  eapply steady_of; [exact A|exact A'|lia|lia|]. intros i Hi. cbn [plus]. apply wilder_from_perturb; try lia. intros k K. apply H. lia.
Qed.
Lemma series_close e n f g j : close e n f g -> (j < n)%nat -> Rabs (nth j (series f n) 0 - nth j (series g n) 0) <= e.
Proof. intros H Hj. rewrite !nth_series0 by easy. now apply H. Qed.
Theorem dema_stable e n f g w : (0 < w)%nat -> (2 * w - 1 <= n)%nat -> close e n f g ->
  exists o o', dema (xseries f n) w = Ok o /\ dema (xseries g n) w = Ok o' /\ steady (3 * e) n (2 * w - 2) o o'.
Proof.
  intros Hw Hn H. rewrite !xseries_map. destruct (dema_real (series f n) w Hw) as (o & E & A); [rewrite series_length; lia|]. destruct (dema_real (series g n) w Hw) as (o' & E' & A'); [rewrite series_length; lia|].
  exists o, o'. split; [exact E|]. split; [exact E'|]. rewrite series_length in A, A'. eapply steady_of; [exact A|exact A'|lia|lia|]. intros i Hi. cbv beta zeta.
  set (a := ewma_from w 0 (fun j => nth j (series f n) 0)). set (b := ewma_from w 0 (fun j => nth j (series g n) 0)).
  assert (D1 : forall j, (w - 1 <= j <= i)%nat -> Rabs (a j - b j) <= e) by (intros j Hj; apply ewma_from_perturb; try lia; intros; apply series_close; [easy|lia]).
  assert (D2 : Rabs (ewma_from w (w - 1) a i - ewma_from w (w - 1) b i) <= e) by (apply ewma_from_perturb; try lia; intros; apply D1; lia).
  specialize (D1 i ltac:(lia)). set (c := ewma_from w (w - 1) a i) in *. set (d := ewma_from w (w - 1) b i) in *. set (x := a i) in *. set (y := b i) in *.
  replace (2 * x - c - (2 * y - d)) with (2 * (x - y) - (c - d)) by ring. replace (3 * e) with (2 * e + e) by ring. apply abs2; [apply abs_scale; [lra|assumption]|easy].
Qed.
Theorem tema_stable e n f g w : (0 < w)%nat -> (3 * w - 2 <= n)%nat -> close e n f g ->
  exists o o', tema (xseries f n) w = Ok o /\ tema (xseries g n) w = Ok o' /\ steady (7 * e) n (3 * w - 3) o o'.
Proof.
  intros Hw Hn H. rewrite !xseries_map. destruct (tema_real (series f n) w Hw) as (o & E & A); [rewrite series_length; lia|]. destruct (tema_real (series g n) w Hw) as (o' & E' & A'); [rewrite series_length; lia|].
  exists o, o'. split; [exact E|]. split; [exact E'|]. rewrite series_length in A, A'. eapply steady_of; [exact A|exact A'|lia|lia|]. intros i Hi. cbv beta zeta.
  set (a := ewma_from w 0 (fun j => nth j (series f n) 0)). set (b := ewma_from w 0 (fun j => nth j (series g n) 0)).
  assert (D1 : forall j, (w - 1 <= j <= i)%nat -> Rabs (a j - b j) <= e) by (intros j Hj; apply ewma_from_perturb; try lia; intros; apply series_close; [easy|lia]).
  set (a2 := ewma_from w (w - 1) a). set (b2 := ewma_from w (w - 1) b).
  assert (D2 : forall j, (2 * w - 2 <= j <= i)%nat -> Rabs (a2 j - b2 j) <= e) by (intros j Hj; apply ewma_from_perturb; try lia; intros; apply D1; lia).
  assert (D3 : Rabs (ewma_from w (2 * w - 2) a2 i - ewma_from w (2 * w - 2) b2 i) <= e) by (apply ewma_from_perturb; try lia; intros; apply D2; lia).
  specialize (D1 i ltac:(lia)). specialize (D2 i ltac:(lia)). set (a3 := ewma_from w (2 * w - 2) a2 i) in *. set (b3 := ewma_from w (2 * w - 2) b2 i) in *.
  set (x := a i) in *. set (y := b i) in *. set (x2 := a2 i) in *. set (y2 := b2 i) in *.
  replace (3 * x - 3 * x2 + a3 - (3 * y - 3 * y2 + b3)) with (3 * (x - y) - (3 * (x2 - y2) - (a3 - b3))) by ring. replace (7 * e) with (3 * e + (3 * e + e)) by ring.
  apply abs2; [apply abs_scale; [lra|assumption]|]. apply abs2; [apply abs_scale; [lra|assumption]|easy].
Qed.
(** The weights of Tillson's average add up to 1, their sizes to (1 + 2 v)^3. *)
Theorem t3_stable e n f g w factor : (0 < w)%nat -> (6 * w - 5 <= n)%nat -> close e n f g ->
  let v := clamp01 (match factor with Some v => v | None => 7 / 10 end) in
  exists o o', t3 (xseries f n) w (option_map Fin factor) = Ok o /\ t3 (xseries g n) w (option_map Fin factor) = Ok o' /\ steady ((1 + 2 * v) ^ 3 * e) n (6 * w - 6) o o'.
Proof.
  intros Hw Hn H v0. rewrite !xseries_map. destruct (t3_real (series f n) w factor Hw) as (o & E & A); [rewrite series_length; lia|]. destruct (t3_real (series g n) w factor Hw) as (o' & E' & A'); [rewrite series_length; lia|].
  exists o, o'. split; [exact E|]. split; [exact E'|]. rewrite series_length in A, A'. cbv zeta in A, A'. fold v0 in A, A'. eapply steady_of; [exact A|exact A'|lia|lia|]. intros i Hi. cbv beta.
  assert (V : 0 <= v0 <= 1) by (unfold v0, clamp01; unfold Rmax, Rmin; repeat destruct Rle_dec; lra).
  set (a1 := ewma_from w 0 (fun j => nth j (series f n) 0)). set (b1 := ewma_from w 0 (fun j => nth j (series g n) 0)).
  assert (D1 : forall j, (w - 1 <= j <= i)%nat -> Rabs (a1 j - b1 j) <= e) by (intros j Hj; apply ewma_from_perturb; try lia; intros; apply series_close; [easy|lia]).
  set (a2 := ewma_from w (w - 1) a1). set (b2 := ewma_from w (w - 1) b1).
  assert (D2 : forall j, (2 * (w - 1) <= j <= i)%nat -> Rabs (a2 j - b2 j) <= e) by (intros j Hj; apply ewma_from_perturb; try lia; intros; apply D1; lia).
  set (a3 := ewma_from w (2 * (w - 1)) a2). set (b3 := ewma_from w (2 * (w - 1)) b2).
  assert (D3 : forall j, (3 * (w - 1) <= j <= i)%nat -> Rabs (a3 j - b3 j) <= e) by (intros j Hj; apply ewma_from_perturb; try lia; intros; apply D2; lia).
  set (a4 := ewma_from w (3 * (w - 1)) a3). set (b4 := ewma_from w (3 * (w - 1)) b3).
  assert (D4 : forall j, (4 * (w - 1) <= j <= i)%nat -> Rabs (a4 j - b4 j) <= e) by (intros j Hj; apply ewma_from_perturb; try lia; intros; apply D3; lia).
  set (a5 := ewma_from w (4 * (w - 1)) a4). set (b5 := ewma_from w (4 * (w - 1)) b4).
  assert (D5 : forall j, (5 * (w - 1) <= j <= i)%nat -> Rabs (a5 j - b5 j) <= e) by (intros j Hj; apply ewma_from_perturb; try lia; intros; apply D4; lia).
  assert (D6 : Rabs (ewma_from w (5 * (w - 1)) a5 i - ewma_from w (5 * (w - 1)) b5 i) <= e) by (apply ewma_from_perturb; try lia; intros; apply D5; lia).
  specialize (D3 i ltac:(lia)). specialize (D4 i ltac:(lia)). specialize (D5 i ltac:(lia)).
  set (a6 := ewma_from w (5 * (w - 1)) a5 i) in *. set (b6 := ewma_from w (5 * (w - 1)) b5 i) in *. set (x3 := a3 i) in *. set (y3 := b3 i) in *. set (x4 := a4 i) in *. set (y4 := b4 i) in *. set (x5 := a5 i) in *. set (y5 := b5 i) in *.
  match goal with |- Rabs ?z <= _ => replace z with ((1 + 3 * v0 + 3 * v0 ^ 2 + v0 ^ 3) * (x3 - y3) - ((3 * v0 + 6 * v0 ^ 2 + 3 * v0 ^ 3) * (x4 - y4) - ((3 * v0 ^ 2 + 3 * v0 ^ 3) * (x5 - y5) - v0 ^ 3 * (a6 - b6)))) by ring end.
  replace ((1 + 2 * v0) ^ 3 * e) with ((1 + 3 * v0 + 3 * v0 ^ 2 + v0 ^ 3) * e + ((3 * v0 + 6 * v0 ^ 2 + 3 * v0 ^ 3) * e + ((3 * v0 ^ 2 + 3 * v0 ^ 3) * e + v0 ^ 3 * e))) by ring.
  pose proof (pow_le v0 2 (proj1 V)). pose proof (pow_le v0 3 (proj1 V)).
  repeat apply abs2; apply abs_scale; try easy; lra.
Qed.
Theorem zlma_stable e n f g w : (0 < w)%nat -> ((w - 1) / 2 + w <= n)%nat -> close e n f g ->
  exists o o', zlma (xseries f n) w = Ok o /\ zlma (xseries g n) w = Ok o' /\ steady (3 * e) n ((w - 1) / 2 + w - 1) o o'.
Proof.
  intros Hw Hn H. rewrite !xseries_map. destruct (zlma_real (series f n) w Hw) as (o & E & A); [rewrite series_length; lia|]. destruct (zlma_real (series g n) w Hw) as (o' & E' & A'); [rewrite series_length; lia|].
  exists o, o'. split; [exact E|]. split; [exact E'|]. rewrite series_length in A, A'. eapply steady_of; [exact A|exact A'|lia|lia|]. intros i Hi. cbv beta zeta. set (lag := ((w - 1) / 2)%nat) in *.
  apply ewma_from_perturb; try lia. intros j Hj. pose proof (series_close e n f g j H ltac:(lia)) as D1. pose proof (series_close e n f g (j - lag) H ltac:(lia)) as D2.
  set (a := nth j _ 0) in *. set (b := nth j (series g n) 0) in *. set (c := nth (j - lag) _ 0) in *. set (d := nth (j - lag) (series g n) 0) in *.
  replace (2 * a - c - (2 * b - d)) with (2 * (a - b) - (c - d)) by ring. replace (3 * e) with (2 * e + e) by ring. apply abs2; [apply abs_scale; [lra|assumption]|easy].
Qed.

(** Weighted by volumes, the volumes being the same. *)
Theorem vwma_stable e n f g v w : (0 < w)%nat -> close e n f g -> (forall k, (k < n)%nat -> 0 < v k) ->
  exists o o', vwma (xseries f n) (xseries v n) w = Ok o /\ vwma (xseries g n) (xseries v n) w = Ok o' /\ steady e n (w - 1) o o'.
Proof.
  intros Hw H V. assert (P : forall i, (w - 1 <= i < n)%nat -> (forall x, In x (last_bars w v i) -> 0 < x)) by (intros i Hi x Hx; apply In_last_bars in Hx as (k & K1 & K2 & ->); [apply V; lia|lia]).
  assert (Q : forall i, (w - 1 <= i < n)%nat -> 0 < Rsum (last_bars w v i)) by (intros i Hi; apply Rsum_pos; [now apply P|now apply last_bars_nonempty]).
  destruct (vwma_real f v n w Hw) as (o & E & A); [intros i Hi; apply Rgt_not_eq, Q; lia|]. destruct (vwma_real g v n w Hw) as (o' & E' & A'); [intros i Hi; apply Rgt_not_eq, Q; lia|].
  exists o, o'. split; [exact E|]. split; [exact E'|]. eapply steady_of; [exact A|exact A'|lia|lia|]. intros i Hi. cbv beta.
  apply wmean_bars_close; [intros x Hx; apply Rlt_le; now apply (P i Hi)|now apply Q|unfold last_bars; now rewrite map_length, seq_length|apply (close_pos e n f g); [lia|easy]|lia|]. intros k K1 K2. apply H. lia.
Qed.
Theorem macd_stable e n f g s l : (0 < s <= n)%nat -> (0 < l <= n)%nat -> close e n f g ->
  exists o o', macd (xseries f n) s l = Ok o /\ macd (xseries g n) s l = Ok o' /\ steady (2 * e) n (Nat.max s l - 1) o o'.
Proof.
  intros Hs Hl H. destruct (macd_real f n s l Hs Hl) as (o & E & A). destruct (macd_real g n s l Hs Hl) as (o' & E' & A'). exists o, o'. split; [exact E|]. split; [exact E'|].
  eapply steady_of; [exact A|exact A'|lia|lia|]. intros i Hi. cbv beta.
  assert (D1 : Rabs (ewma_from s 0 f i - ewma_from s 0 g i) <= e) by (apply ewma_from_perturb; try lia; intros; apply H; lia).
  assert (D2 : Rabs (ewma_from l 0 f i - ewma_from l 0 g i) <= e) by (apply ewma_from_perturb; try lia; intros; apply H; lia).
  match goal with |- Rabs (?a - ?b - (?c - ?d)) <= _ => replace (a - b - (c - d)) with ((a - c) - (b - d)) by ring end. replace (2 * e) with (e + e) by ring. now apply abs2.
Qed.
Theorem qstick_stable e n f g f' g' w : (0 < w <= n)%nat -> close e n f f' -> close e n g g' ->
  exists o o', qstick (xseries f n) (xseries g n) w = Ok o /\ qstick (xseries f' n) (xseries g' n) w = Ok o' /\ steady (2 * e) n (w - 1) o o'.
Proof.
  intros Hw H H'. destruct (qstick_real f g n w Hw) as (o & E & A). destruct (qstick_real f' g' n w Hw) as (o' & E' & A'). exists o, o'. split; [exact E|]. split; [exact E'|].
  eapply steady_of; [exact A|exact A'|lia|lia|]. intros i Hi. cbv beta. apply ewma_from_perturb; try lia. intros k K.
  replace (g k - f k - (g' k - f' k)) with ((g k - g' k) - (f k - f' k)) by ring. replace (2 * e) with (e + e) by ring. apply abs2; [apply H'|apply H]; lia.
Qed.
Lemma max_close e a b a' b' : Rabs (a - a') <= e -> Rabs (b - b') <= e -> Rabs (Rmax a b - Rmax a' b') <= e.
Proof. unfold Rmax, Rabs. repeat destruct Rle_dec; repeat destruct Rcase_abs; lra. Qed.
Lemma min_close e a b a' b' : Rabs (a - a') <= e -> Rabs (b - b') <= e -> Rabs (Rmin a b - Rmin a' b') <= e.
Proof. unfold Rmin, Rabs. repeat destruct Rle_dec; repeat destruct Rcase_abs; lra. Qed.

Section Bars.
  Context (e : R) (n : nat) (h l c h' l' c' : nat -> R) (Hh : close e n h h') (Hl : close e n l l') (Hc : close e n c c').
  Context (B : forall k, (k < n)%nat -> l k <= h k) (B' : forall k, (k < n)%nat -> l' k <= h' k).
  Lemma tr_close k : (k < n)%nat -> Rabs (true_range_of h l c k - true_range_of h' l' c' k) <= 2 * e.
  Proof.
    intros Hk. unfold true_range_of. match goal with |- Rabs (?a - ?b - (?x - ?y)) <= _ => replace (a - b - (x - y)) with ((a - x) - (b - y)) by ring end. replace (2 * e) with (e + e) by ring.
    apply abs2; [apply max_close|apply min_close]; [apply Hh|apply Hc|apply Hl|apply Hc]; lia.
  Qed.
  Lemma atr_close w i : (0 < w)%nat -> (w <= i < n)%nat -> Rabs (wilder_from w 1 (true_range_of h l c) i - wilder_from w 1 (true_range_of h' l' c') i) <= 2 * e.
  Proof. intros Hw Hi. apply wilder_from_perturb; try lia. intros k K. apply tr_close. lia. Qed.
  Theorem atr_stable w : (0 < w < n)%nat -> exists o o', atr (xseries h n) (xseries l n) (xseries c n) w = Ok o /\ atr (xseries h' n) (xseries l' n) (xseries c' n) w = Ok o' /\
    steady (2 * e) n w o o'.
  Proof.
    intros Hw. destruct (atr_real h l c n w Hw B) as (o & E & A). destruct (atr_real h' l' c' n w Hw B') as (o' & E' & A'). exists o, o'. split; [exact E|]. split; [exact E'|].
    eapply steady_of; [exact A|exact A'|lia|lia|]. intros i Hi. apply atr_close; lia.
  Qed.
  (** The middle of the channel moves by at most [e], its edges by [5 e]. *)
  Theorem keltner_stable w : (0 < w < n)%nat -> exists o o', keltner (xseries h n) (xseries l n) (xseries c n) w = Ok o /\ keltner (xseries h' n) (xseries l' n) (xseries c' n) w = Ok o' /\
    steady e n (w - 1) (map (fun '(m, _, _) => m) o) (map (fun '(m, _, _) => m) o') /\
    steady (5 * e) n w (map (fun '(_, u, _) => u) o) (map (fun '(_, u, _) => u) o') /\ steady (5 * e) n w (map (fun '(_, _, b) => b) o) (map (fun '(_, _, b) => b) o').
  Proof.
    intros Hw. destruct (keltner_real h l c n w Hw B) as (o & E & A1 & A2 & A3). destruct (keltner_real h' l' c' n w Hw B') as (o' & E' & A1' & A2' & A3'). exists o, o'. split; [exact E|]. split; [exact E'|].
    assert (M : forall i, (w - 1 <= i < n)%nat -> Rabs (ewma_from w 0 c i - ewma_from w 0 c' i) <= e) by (intros i Hi; apply ewma_from_perturb; try lia; intros; apply Hc; lia).
    split; [eapply steady_of; [exact A1|exact A1'|lia|lia|exact M]|].
    split; [eapply steady_of; [exact A2|exact A2'|lia|lia|]|eapply steady_of; [exact A3|exact A3'|lia|lia|]]; intros i Hi; cbv beta; specialize (M i ltac:(lia)); pose proof (atr_close w i ltac:(lia) Hi) as T.
    - match goal with |- Rabs (?a + 2 * ?b - (?x + 2 * ?y)) <= _ => replace (a + 2 * b - (x + 2 * y)) with ((a - x) - 2 * (y - b)) by ring end. replace (5 * e) with (e + 2 * (2 * e)) by ring. apply abs2; [easy|apply abs_scale; [lra|]; now rewrite Rabs_minus_sym].
    - match goal with |- Rabs (?a - 2 * ?b - (?x - 2 * ?y)) <= _ => replace (a - 2 * b - (x - 2 * y)) with ((a - x) - 2 * (b - y)) by ring end. replace (5 * e) with (e + 2 * (2 * e)) by ring. apply abs2; [easy|apply abs_scale; [lra|exact T]].
  Qed.
End Bars.

(** The channel and its middle. *)
Theorem donchian_stable e n h l h' l' w : (0 < w)%nat -> close e n h h' -> close e n l l' ->
  exists o o', donchian (xseries h n) (xseries l n) w = Ok o /\ donchian (xseries h' n) (xseries l' n) w = Ok o' /\
  steady e n (w - 1) (map (fun '(u, _, _) => u) o) (map (fun '(u, _, _) => u) o') /\ steady e n (w - 1) (map (fun '(_, m, _) => m) o) (map (fun '(_, m, _) => m) o') /\
  steady e n (w - 1) (map (fun '(_, _, b) => b) o) (map (fun '(_, _, b) => b) o').
Proof.
  intros Hw Hh Hl. destruct (donchian_real h l n w Hw) as (o & E & A). destruct (donchian_real h' l' n w Hw) as (o' & E' & A'). exists o, o'. split; [exact E|]. split; [exact E'|].
  assert (D1 : forall i, (w - 1 <= i < n)%nat -> Rabs (highest w h i - highest w h' i) <= e) by (intros i Hi; apply highest_close; [lia|intros; apply Hh; lia]).
  assert (D2 : forall i, (w - 1 <= i < n)%nat -> Rabs (lowest w l i - lowest w l' i) <= e) by (intros i Hi; apply lowest_close; [lia|intros; apply Hl; lia]).
  pose proof (aligned_map _ _ _ _ NaN _ (fun '(u, _, _) => u) A eq_refl : aligned _ _ _ _ (fun i => Fin (highest w h i))) as A1.
  pose proof (aligned_map _ _ _ _ NaN _ (fun '(_, m, _) => m) A eq_refl : aligned _ _ _ _ (fun i => Fin ((highest w h i + lowest w l i) / 2))) as A2.
  pose proof (aligned_map _ _ _ _ NaN _ (fun '(_, _, b) => b) A eq_refl : aligned _ _ _ _ (fun i => Fin (lowest w l i))) as A3.
  pose proof (aligned_map _ _ _ _ NaN _ (fun '(u, _, _) => u) A' eq_refl : aligned _ _ _ _ (fun i => Fin (highest w h' i))) as B1.
  pose proof (aligned_map _ _ _ _ NaN _ (fun '(_, m, _) => m) A' eq_refl : aligned _ _ _ _ (fun i => Fin ((highest w h' i + lowest w l' i) / 2))) as B2.
  pose proof (aligned_map _ _ _ _ NaN _ (fun '(_, _, b) => b) A' eq_refl : aligned _ _ _ _ (fun i => Fin (lowest w l' i))) as B3.
  split; [eapply steady_of; [exact A1|exact B1|lia|lia|exact D1]|]. split; [|eapply steady_of; [exact A3|exact B3|lia|lia|exact D2]].
  eapply steady_of; [exact A2|exact B2|lia|lia|]. intros i Hi. specialize (D1 i Hi). specialize (D2 i Hi). cbv beta. set (a := highest w h i) in *. set (b := highest w h' i) in *. set (x := lowest w l i) in *. set (y := lowest w l' i) in *.
  replace ((a + x) / 2 - (b + y) / 2) with (/ 2 * (a - b) - / 2 * (y - x)) by field. replace e with (/ 2 * e + / 2 * e) by field. apply abs2; apply abs_scale; try lra. now rewrite Rabs_minus_sym.
Qed.

(** ** Spread *)
Lemma norm_close (a b c : R) : 0 <= a -> 0 <= b -> c ^ 2 <= a * b -> (sqrt a - sqrt b) ^ 2 <= a - 2 * c + b.
Proof.
  intros Ha Hb H. assert (Sa : sqrt a ^ 2 = a) by (rewrite <- Rsqr_pow2; now apply Rsqr_sqrt). assert (Sb : sqrt b ^ 2 = b) by (rewrite <- Rsqr_pow2; now apply Rsqr_sqrt).
  assert (Pa := sqrt_pos a). assert (Pb := sqrt_pos b). assert (K : c <= sqrt a * sqrt b).
  { rewrite <- sqrt_mult by easy. destruct (Rle_dec c 0) as [N|N]; [eapply Rle_trans; [exact N|apply sqrt_pos]|]. rewrite <- (sqrt_pow2 c) by lra. now apply sqrt_le_1_alt. }
  nra.
Qed.
Lemma sd_close (l : list nat) f g e : l <> [] -> 0 <= e -> (forall k, In k l -> Rabs (f k - g k) <= e) -> Rabs (sqrt (var (map f l)) - sqrt (var (map g l))) <= e.
Proof.
  intros Hl He H. assert (N : 0 < INR (length l)) by (apply lt_0_INR; destruct l; [easy|cbn; lia]).
  set (p := mean (map f l)). set (q := mean (map g l)). set (u := fun k => f k - p). set (v := fun k => g k - q).
  assert (Ep : Rsum (map f l) = INR (length l) * p) by (unfold p, mean; rewrite map_length; field; lra). assert (Eq : Rsum (map g l) = INR (length l) * q) by (unfold q, mean; rewrite map_length; field; lra).
  set (A := Rsum (map (fun k => u k ^ 2) l)). set (B := Rsum (map (fun k => v k ^ 2) l)). set (C := Rsum (map (fun k => u k * v k) l)).
  assert (PA : 0 <= A) by (apply Rsum_nonneg; intros x Hx; apply in_map_iff in Hx as (k & <- & _); apply pow2_ge_0). assert (PB : 0 <= B) by (apply Rsum_nonneg; intros x Hx; apply in_map_iff in Hx as (k & <- & _); apply pow2_ge_0).
  assert (VA : var (map f l) = A / INR (length l)) by (unfold var, mean at 1; fold p; now rewrite map_map, !map_length).
  assert (VB : var (map g l) = B / INR (length l)) by (unfold var, mean at 1; fold q; now rewrite map_map, !map_length).
  assert (CS : C ^ 2 <= A * B) by apply cauchy_schwarz.
  assert (D : A - 2 * C + B = Rsum (map (fun k => (f k - g k) ^ 2) l) - INR (length l) * (p - q) ^ 2).
  { assert (Z : A - 2 * C + B = Rsum (map (fun k => (u k - v k) ^ 2) l)).
    { unfold A, B, C. rewrite <- Rsum_map_scale, <- Rsum_map_sub, <- Rsum_map_add. f_equal. apply map_ext. intros k. ring. }
    rewrite Z. rewrite (map_ext _ (fun k => ((f k - g k) ^ 2 - 2 * (p - q) * (f k - g k)) + (p - q) ^ 2)) by (intros k; unfold u, v; ring).
    rewrite Rsum_map_add, Rsum_map_sub, Rsum_map_scale, Rsum_map_sub, Rsum_const, Ep, Eq. ring. }
  assert (S : Rsum (map (fun k => (f k - g k) ^ 2) l) <= INR (length l) * e ^ 2).
  { rewrite <- (Rsum_const (e ^ 2) l). apply Rsum_le. intros k Hk. rewrite <- (pow2_abs (f k - g k)). apply pow_incr. split; [apply Rabs_pos|now apply H]. }
  rewrite VA, VB. assert (I : 0 < / INR (length l)) by now apply Rinv_0_lt_compat. assert (M : (sqrt (A / INR (length l)) - sqrt (B / INR (length l))) ^ 2 <= e ^ 2).
  { eapply Rle_trans; [apply (norm_close _ _ (C / INR (length l)))|].
    - apply Rmult_le_pos; lra.
    - apply Rmult_le_pos; lra.
    - unfold Rdiv. replace ((C * / INR (length l)) ^ 2) with (C ^ 2 * (/ INR (length l) * / INR (length l))) by ring. replace (A * / INR (length l) * (B * / INR (length l))) with (A * B * (/ INR (length l) * / INR (length l))) by ring. apply Rmult_le_compat_r; [|exact CS]. nra.
    - replace (A / INR (length l) - 2 * (C / INR (length l)) + B / INR (length l)) with (/ INR (length l) * (A - 2 * C + B)) by (field; lra). rewrite D.
      apply Rle_trans with (/ INR (length l) * (INR (length l) * e ^ 2)); [apply Rmult_le_compat_l; [lra|]; pose proof (pow2_ge_0 (p - q)); nra|]. rewrite <- Rmult_assoc, Rinv_l by lra. lra. }
  rewrite <- (Rabs_pos_eq e He). rewrite <- !Rsqr_pow2 in M. now apply Rsqr_le_abs_0 in M.
Qed.
Theorem std_dev_stable e n f g w : (0 < w)%nat -> close e n f g -> exists o o', std_dev (xseries f n) w = Ok o /\ std_dev (xseries g n) w = Ok o' /\ steady e n (w - 1) o o'.
Proof.
  intros Hw H. rewrite !xseries_map. destruct (std_dev_real (series f n) w Hw) as (o & E & A). destruct (std_dev_real (series g n) w Hw) as (o' & E' & A'). exists o, o'. split; [exact E|]. split; [exact E'|].
  rewrite series_length in A, A'. eapply steady_of; [exact A|exact A'|lia|lia|]. intros i Hi. cbv beta. rewrite !last_bars_win by lia. apply sd_close; [destruct w; [lia|easy]|apply (close_pos e n f g); [lia|easy]|].
  intros k Hk. apply in_seq in Hk. apply H. lia.
Qed.
(** The middle moves by at most [e], each edge by at most [(1 + |dev|) e]. *)
Theorem bbands_stable e n f g w dev : (0 < w <= n)%nat -> close e n f g -> exists o o', bbands (xseries f n) w (option_map Fin dev) None = Ok o /\ bbands (xseries g n) w (option_map Fin dev) None = Ok o' /\
  steady ((1 + Rabs (unwrap_or dev 2)) * e) n (w - 1) (map (fun '(u, _, _) => u) o) (map (fun '(u, _, _) => u) o') /\ steady e n (w - 1) (map (fun '(_, m, _) => m) o) (map (fun '(_, m, _) => m) o') /\
  steady ((1 + Rabs (unwrap_or dev 2)) * e) n (w - 1) (map (fun '(_, _, b) => b) o) (map (fun '(_, _, b) => b) o').
Proof.
  intros Hw H. assert (He : 0 <= e) by (apply (close_pos e n f g); [lia|easy]). destruct (bbands_real f n w dev Hw) as (o & E & A). destruct (bbands_real g n w dev Hw) as (o' & E' & A'). exists o, o'. split; [exact E|]. split; [exact E'|]. cbv zeta in A, A'. set (d := unwrap_or dev 2) in *.
  assert (D1 : forall i, (w - 1 <= i < n)%nat -> Rabs (ewma_from w 0 f i - ewma_from w 0 g i) <= e) by (intros i Hi; apply ewma_from_perturb; try lia; intros; apply H; lia).
  assert (D2 : forall i, (w - 1 <= i < n)%nat -> Rabs (d * sqrt (var (last_bars w f i)) - d * sqrt (var (last_bars w g i))) <= Rabs d * e).
  { intros i Hi. replace (d * sqrt (var (last_bars w f i)) - d * sqrt (var (last_bars w g i))) with (d * (sqrt (var (last_bars w f i)) - sqrt (var (last_bars w g i)))) by ring. rewrite Rabs_mult. apply Rmult_le_compat_l; [apply Rabs_pos|].
    apply sd_close; [destruct w; [lia|easy]|easy|]. intros k Hk. apply in_seq in Hk. apply H. lia. }
  pose proof (aligned_map _ _ _ _ NaN _ (fun '(u, _, _) => u) A eq_refl : aligned _ _ _ _ (fun i => Fin (ewma_from w 0 f i + d * sqrt (var (last_bars w f i))))) as A1.
  pose proof (aligned_map _ _ _ _ NaN _ (fun '(_, m, _) => m) A eq_refl : aligned _ _ _ _ (fun i => Fin (ewma_from w 0 f i))) as A2.
  pose proof (aligned_map _ _ _ _ NaN _ (fun '(_, _, b) => b) A eq_refl : aligned _ _ _ _ (fun i => Fin (ewma_from w 0 f i - d * sqrt (var (last_bars w f i))))) as A3.
  pose proof (aligned_map _ _ _ _ NaN _ (fun '(u, _, _) => u) A' eq_refl : aligned _ _ _ _ (fun i => Fin (ewma_from w 0 g i + d * sqrt (var (last_bars w g i))))) as B1.
  pose proof (aligned_map _ _ _ _ NaN _ (fun '(_, m, _) => m) A' eq_refl : aligned _ _ _ _ (fun i => Fin (ewma_from w 0 g i))) as B2.
  pose proof (aligned_map _ _ _ _ NaN _ (fun '(_, _, b) => b) A' eq_refl : aligned _ _ _ _ (fun i => Fin (ewma_from w 0 g i - d * sqrt (var (last_bars w g i))))) as B3.
  split; [|split]; [eapply steady_of; [exact A1|exact B1|lia|lia|]|eapply steady_of; [exact A2|exact B2|lia|lia|exact D1]|eapply steady_of; [exact A3|exact B3|lia|lia|]]; intros i Hi; cbv beta; specialize (D1 i Hi); specialize (D2 i Hi);
    set (x := ewma_from w 0 f i) in *; set (y := ewma_from w 0 g i) in *; set (s := d * sqrt (var (last_bars w f i))) in *; set (t := d * sqrt (var (last_bars w g i))) in *; replace ((1 + Rabs d) * e) with (e + Rabs d * e) by ring.
  - replace (x + s - (y + t)) with ((x - y) - (t - s)) by ring. apply abs2; [easy|now rewrite Rabs_minus_sym].
  - replace (x - s - (y - t)) with ((x - y) - (s - t)) by ring. now apply abs2.
Qed.
Theorem mad_stable e n f g w : (0 < w)%nat -> close e n f g -> exists o o', mad (xseries f n) w = Ok o /\ mad (xseries g n) w = Ok o' /\ steady (2 * e) n (w - 1) o o'.
Proof.
  intros Hw H. rewrite !xseries_map. destruct (mad_real (series f n) w Hw) as (o & E & A). destruct (mad_real (series g n) w Hw) as (o' & E' & A'). exists o, o'. split; [exact E|]. split; [exact E'|].
  rewrite series_length in A, A'. eapply steady_of; [exact A|exact A'|lia|lia|]. intros i Hi. assert (He : 0 <= e) by (apply (close_pos e n f g); [lia|easy]). cbv beta. rewrite !last_bars_win by lia. unfold mean_abs_dev, last_bars. rewrite !map_map.
  assert (M : Rabs (mean (map f (seq (i + 1 - w) w)) - mean (map g (seq (i + 1 - w) w))) <= e) by (apply mean_close; [easy|intros k Hk; apply in_seq in Hk; apply H; lia]).
  set (p := mean (map f _)) in *. set (q := mean (map g _)) in *. apply mean_close; [lra|]. intros k Hk. apply in_seq in Hk.
  eapply Rle_trans; [apply Rabs_triang_inv2|]. replace (f k - p - (g k - q)) with ((f k - g k) - (p - q)) by ring. replace (2 * e) with (e + e) by ring. apply abs2; [apply H; lia|exact M].
Qed.

(** ** Order statistics *)
Lemma count_close e x l l' : Forall2 (fun a b => Rabs (a - b) <= e) l l' -> (count (fun y => Rleb y x) l <= count (fun y => Rleb y (x + e)%R) l')%nat.
Proof.
  induction 1 as [|a b l l' H F IH]; [easy|]. cbn [count filter length] in *. unfold count in *. cbn [filter]. destruct (Rleb a x) eqn:E.
  - apply Rleb_true in E. replace (Rleb b (x + e)) with true; [cbn [length]; lia|]. symmetry. apply Rleb_true. revert H. unfold Rabs. destruct Rcase_abs; lra.
  - destruct (Rleb b (x + e)); cbn [length]; lia.
Qed.
Lemma sorted_close e l l' s s' k : Forall2 (fun a b => Rabs (a - b) <= e) l l' -> Permutation l s -> Permutation l' s' -> StronglySorted Rle s -> StronglySorted Rle s' -> (k < length l)%nat -> nth k s' 0 <= nth k s 0 + e.
Proof.
  intros H P P' S S' Hk. assert (Ls : length s = length l) by now rewrite P. assert (Ls' : length s' = length l) by (rewrite <- P'; clear - H; induction H; cbn; congruence). destruct (Rle_dec (nth k s' 0) (nth k s 0 + e)) as [|N]; [easy|exfalso].
  assert (C : (k + 1 <= count (fun y => Rleb y (nth k s 0%R)) s)%nat).
  { rewrite <- (firstn_skipn (k + 1) s), count_app, (count_all _ (firstn (k + 1) s)); [rewrite firstn_length; lia|]. intros x Hx. apply Rleb_true. apply In_nth_error in Hx as [j Hj].
    assert (j < length (firstn (k + 1) s))%nat by (apply nth_error_Some; congruence). rewrite firstn_length in H0. rewrite nth_error_firstn in Hj by lia. rewrite <- (nth_error_nth _ _ 0 Hj), firstn_skipn. apply OrderStat.sorted_nth; [easy|lia]. }
  assert (C' : (count (fun y => Rleb y (nth k s 0 + e)%R) s' <= k)%nat).
  { rewrite <- (firstn_skipn k s'), count_app, (count_none _ (skipn k s')).
    - pose proof (count_le (fun x => Rleb x (nth k s 0 + e)) (firstn k s')) as Q. rewrite firstn_length in Q. lia.
    - intros x Hx. apply Rleb_false. apply In_nth_error in Hx as [j Hj]. rewrite nth_error_skipn in Hj. assert (k + j < length s')%nat by (apply nth_error_Some; congruence).
      rewrite <- (nth_error_nth _ _ 0 Hj). pose proof (OrderStat.sorted_nth s' k (k + j) S' ltac:(lia)). lra. }
  pose proof (count_close e (nth k s 0) l l' H) as Q. rewrite (count_perm _ _ _ P), (count_perm _ _ _ P') in Q. lia.
Qed.
Lemma Forall2_flip e l l' : Forall2 (fun a b => Rabs (a - b) <= e) l l' -> Forall2 (fun a b => Rabs (a - b) <= e) l' l.
Proof. induction 1; constructor; [now rewrite Rabs_minus_sym|easy]. Qed.
Lemma rank_close e l l' s s' k : Forall2 (fun a b => Rabs (a - b) <= e) l l' -> Permutation l s -> Permutation l' s' -> StronglySorted Rle s -> StronglySorted Rle s' -> (k < length l)%nat -> Rabs (nth k s 0 - nth k s' 0) <= e.
Proof.
  intros H P P' S S' Hk. pose proof (sorted_close e l l' s s' k H P P' S S' Hk) as A. assert (length l' = length l) by (clear - H; induction H; cbn; congruence). pose proof (sorted_close e l' l s' s k (Forall2_flip _ _ _ H) P' P S' S ltac:(lia)) as B. apply Rabs_le. lra.
Qed.
Lemma mix_close e t a b a' b' : 0 <= t <= 1 -> Rabs (a - a') <= e -> Rabs (b - b') <= e -> Rabs (a + t * (b - a) - (a' + t * (b' - a'))) <= e.
Proof.
  intros Ht Ha Hb. replace (a + t * (b - a) - (a' + t * (b' - a'))) with ((1 - t) * (a - a') - t * (b' - b)) by ring. replace e with ((1 - t) * e + t * e) by ring. rewrite Rabs_minus_sym in Hb. apply abs2; apply abs_scale; lra.
Qed.
Theorem median_stable e n f g w : (0 < w)%nat -> (Z.of_nat w <= 2 ^ 64)%Z -> close e n f g -> exists o o', median (xseries f n) w = Ok o /\ median (xseries g n) w = Ok o' /\ steady e n (w - 1) o o'.
Proof.
  intros Hw Hz H. rewrite !xseries_map. destruct (median_real (series f n) w Hw Hz) as (o & E & _ & _ & A). destruct (median_real (series g n) w Hw Hz) as (o' & E' & _ & _ & A'). exists o, o'. split; [exact E|]. split; [exact E'|].
  intros i Hi. rewrite series_length in A, A'. rewrite (A i (Rsort (win w (series f n) i)) Hi (Rsort_perm _) (Rsort_sorted _)), (A' i (Rsort (win w (series g n) i)) Hi (Rsort_perm _) (Rsort_sorted _)). eexists _, _. split; [reflexivity|]. split; [reflexivity|].
  rewrite !last_bars_win by lia. assert (C : Forall2 (fun a b => Rabs (a - b) <= e) (last_bars w f i) (last_bars w g i)) by (apply map_close; intros k Hk; apply in_seq in Hk; apply H; lia).
  assert (L : length (last_bars w f i) = w) by (unfold last_bars; now rewrite map_length, seq_length).
  assert (D : forall k, (k < w)%nat -> Rabs (nth k (Rsort (last_bars w f i)) 0 - nth k (Rsort (last_bars w g i)) 0) <= e) by (intros k Hk; apply (rank_close e _ _ _ _ k C (Rsort_perm _) (Rsort_perm _) (Rsort_sorted _) (Rsort_sorted _)); lia).
  pose proof (D ((w - 1) / 2)%nat ltac:(apply Nat.div_lt_upper_bound; lia)) as D1. pose proof (D (w / 2)%nat ltac:(apply Nat.div_lt_upper_bound; lia)) as D2.
  pose proof (mix_close e (/ 2) _ _ _ _ ltac:(lra) D1 D2) as M. match goal with |- Rabs ?x <= _ => match type of M with Rabs ?y <= _ => replace x with y by field end end. exact M.
Qed.
Theorem quantile_stable e n f g w q : (0 < w)%nat -> (Z.of_nat w <= 2 ^ 64)%Z -> close e n f g -> exists o o', quantile (xseries f n) w (Fin q) = Ok o /\ quantile (xseries g n) w (Fin q) = Ok o' /\ steady e n (w - 1) o o'.
Proof.
  intros Hw Hz H. rewrite !xseries_map. destruct (quantile_real (series f n) w q Hw Hz) as (o & E & _ & _ & A). destruct (quantile_real (series g n) w q Hw Hz) as (o' & E' & _ & _ & A'). exists o, o'. split; [exact E|]. split; [exact E'|].
  intros i Hi. rewrite series_length in A, A'. rewrite (A i (Rsort (win w (series f n) i)) Hi (Rsort_perm _) (Rsort_sorted _)), (A' i (Rsort (win w (series g n) i)) Hi (Rsort_perm _) (Rsort_sorted _)). eexists _, _. split; [reflexivity|]. split; [reflexivity|].
  rewrite !last_bars_win by lia. assert (C : Forall2 (fun a b => Rabs (a - b) <= e) (last_bars w f i) (last_bars w g i)) by (apply map_close; intros k Hk; apply in_seq in Hk; apply H; lia).
  assert (L : length (last_bars w f i) = w) by (unfold last_bars; now rewrite map_length, seq_length).
  assert (D : forall k, (k < w)%nat -> Rabs (nth k (Rsort (last_bars w f i)) 0 - nth k (Rsort (last_bars w g i)) 0) <= e) by (intros k Hk; apply (rank_close e _ _ _ _ k C (Rsort_perm _) (Rsort_perm _) (Rsort_sorted _) (Rsort_sorted _)); lia).
  unfold interpolate. set (p := INR (w - 1) * (OrderStat.clamp q 0 100 / 100)).
  assert (P : 0 <= p <= INR (w - 1)). { unfold p. pose proof (pos_INR (w - 1)). assert (0 <= OrderStat.clamp q 0 100 / 100 <= 1) by (unfold OrderStat.clamp, Rmax, Rmin; repeat destruct Rle_dec; lra). nra. }
  assert (F : 0 <= p - IZR (Zfloor p) <= 1) by (pose proof (Zfloor_lb p); pose proof (Zfloor_ub p); lra).
  assert (F0 : (0 <= Zfloor p)%Z) by (apply Zfloor_lub; cbn; lra). assert (C0 : (Zceil p <= Z.of_nat (w - 1))%Z) by (apply Zceil_glb; rewrite <- INR_IZR_INZ; lra).
  assert (FC : (Zfloor p <= Zceil p)%Z). { apply le_IZR. pose proof (Zfloor_lb p). pose proof (Zceil_ub p). lra. }
  apply mix_close; [exact F|apply D|apply D]; lia.
Qed.

(** ** Prices against an average *)
Theorem typical_stable e n h l c h' l' c' w : (0 < w)%nat -> close e n h h' -> close e n l l' -> close e n c c' ->
  exists o o', typical (xseries h n) (xseries l n) (xseries c n) w = Ok o /\ typical (xseries h' n) (xseries l' n) (xseries c' n) w = Ok o' /\ steady e n (w - 1) o o'.
Proof.
  intros Hw Hh Hl Hc. destruct (typical_real h l c n w Hw) as (o & E & A). destruct (typical_real h' l' c' n w Hw) as (o' & E' & A'). exists o, o'. split; [exact E|]. split; [exact E'|].
  eapply steady_of; [exact A|exact A'|lia|lia|]. intros i Hi. cbv beta. apply mean_bars_close; [apply (close_pos e n c c'); [lia|easy]|lia|]. intros k K1 K2.
  specialize (Hh k ltac:(lia)). specialize (Hl k ltac:(lia)). specialize (Hc k ltac:(lia)). unfold typical_price. revert Hh Hl Hc. unfold Rabs. repeat destruct Rcase_abs; lra.
Qed.
Theorem elder_ray_stable e n h l c h' l' c' w : (0 < w <= n)%nat -> close e n h h' -> close e n l l' -> close e n c c' ->
  exists o o', elder_ray (xseries h n) (xseries l n) (xseries c n) w = Ok o /\ elder_ray (xseries h' n) (xseries l' n) (xseries c' n) w = Ok o' /\
  steady (2 * e) n (w - 1) (map fst o) (map fst o') /\ steady (2 * e) n (w - 1) (map snd o) (map snd o').
Proof.
  intros Hw Hh Hl Hc. destruct (elder_ray_real h l c n w Hw) as (o & E & A). destruct (elder_ray_real h' l' c' n w Hw) as (o' & E' & A'). exists o, o'. split; [exact E|]. split; [exact E'|].
  assert (D : forall i, (w - 1 <= i < n)%nat -> Rabs (ewma_from w 0 c i - ewma_from w 0 c' i) <= e) by (intros i Hi; apply ewma_from_perturb; try lia; intros; apply Hc; lia).
  pose proof (aligned_map _ _ _ _ NaN _ fst A eq_refl : aligned _ _ _ _ (fun i => Fin (h i - ewma_from w 0 c i))) as A1. pose proof (aligned_map _ _ _ _ NaN _ snd A eq_refl : aligned _ _ _ _ (fun i => Fin (l i - ewma_from w 0 c i))) as A2.
  pose proof (aligned_map _ _ _ _ NaN _ fst A' eq_refl : aligned _ _ _ _ (fun i => Fin (h' i - ewma_from w 0 c' i))) as B1. pose proof (aligned_map _ _ _ _ NaN _ snd A' eq_refl : aligned _ _ _ _ (fun i => Fin (l' i - ewma_from w 0 c' i))) as B2.
  replace (2 * e) with (e + e) by ring. split; [eapply steady_of; [exact A1|exact B1|lia|lia|]|eapply steady_of; [exact A2|exact B2|lia|lia|]]; intros i Hi; cbv beta;
    match goal with |- Rabs (?a - ?b - (?x - ?y)) <= _ => replace (a - b - (x - y)) with ((a - x) - (b - y)) by ring end; (apply abs2; [first [apply Hh; lia|apply Hl; lia]|now apply D]).
Qed.
Theorem dpo_stable e n f g w : (3 <= w <= n)%nat -> close e n f g -> exists o o', dpo (xseries f n) w None = Ok o /\ dpo (xseries g n) w None = Ok o' /\ steady (2 * e) n (w - 1) o o'.
Proof.
  intros Hw H. destruct (dpo_real f n w Hw) as (o & E & A). destruct (dpo_real g n w Hw) as (o' & E' & A'). exists o, o'. split; [exact E|]. split; [exact E'|].
  eapply steady_of; [exact A|exact A'|lia|lia|]. intros i Hi. cbv beta. match goal with |- Rabs (?a - ?b - (?x - ?y)) <= _ => replace (a - b - (x - y)) with ((a - x) - (b - y)) by ring end. replace (2 * e) with (e + e) by ring.
  apply abs2; [apply H; lia|]. apply mean_bars_close; [apply (close_pos e n f g); [lia|easy]|lia|]. intros k K1 K2. apply H. lia.
Qed.

Section Stops.
  Context (e : R) (n : nat) (h l c h' l' c' : nat -> R) (Hh : close e n h h') (Hl : close e n l l') (Hc : close e n c c').
  Context (B : forall k, (k < n)%nat -> l k <= h k) (B' : forall k, (k < n)%nat -> l' k <= h' k).
  Lemma mult_close d w i : (0 < w)%nat -> (w <= i < n)%nat -> Rabs (d * wilder_from w 1 (true_range_of h l c) i - d * wilder_from w 1 (true_range_of h' l' c') i) <= Rabs d * (2 * e).
  Proof. intros Hw Hi. rewrite <- Rmult_minus_distr_l, Rabs_mult. apply Rmult_le_compat_l; [apply Rabs_pos|]. now apply (atr_close e n). Qed.
  Theorem chandelier_stable w mult : (0 < w < n)%nat -> exists o o',
    chandelier (xseries h n) (xseries l n) (xseries c n) w (option_map Fin mult) = Ok o /\ chandelier (xseries h' n) (xseries l' n) (xseries c' n) w (option_map Fin mult) = Ok o' /\
    steady ((1 + 2 * Rabs (unwrap_or mult 3)) * e) n w (map fst o) (map fst o') /\ steady ((1 + 2 * Rabs (unwrap_or mult 3)) * e) n w (map snd o) (map snd o').
  Proof.
    intros Hw. destruct (chandelier_real h l c n w mult Hw B) as (o & E & A). destruct (chandelier_real h' l' c' n w mult Hw B') as (o' & E' & A'). exists o, o'. split; [exact E|]. split; [exact E'|]. cbv zeta in A, A'. set (d := unwrap_or mult 3) in *.
    replace ((1 + 2 * Rabs d) * e) with (e + Rabs d * (2 * e)) by ring.
    pose proof (aligned_map _ _ _ _ NaN _ fst A eq_refl : aligned _ _ _ _ (fun i => Fin (highest w h i - d * wilder_from w 1 (true_range_of h l c) i))) as A1. pose proof (aligned_map _ _ _ _ NaN _ snd A eq_refl : aligned _ _ _ _ (fun i => Fin (lowest w l i + d * wilder_from w 1 (true_range_of h l c) i))) as A2.
    pose proof (aligned_map _ _ _ _ NaN _ fst A' eq_refl : aligned _ _ _ _ (fun i => Fin (highest w h' i - d * wilder_from w 1 (true_range_of h' l' c') i))) as B1. pose proof (aligned_map _ _ _ _ NaN _ snd A' eq_refl : aligned _ _ _ _ (fun i => Fin (lowest w l' i + d * wilder_from w 1 (true_range_of h' l' c') i))) as B2.
    split; [eapply steady_of; [exact A1|exact B1|lia|lia|]|eapply steady_of; [exact A2|exact B2|lia|lia|]]; intros i Hi; cbv beta; pose proof (mult_close d w i ltac:(lia) Hi) as M.
    - match goal with |- Rabs (?a - ?b - (?x - ?y)) <= _ => replace (a - b - (x - y)) with ((a - x) - (b - y)) by ring end. apply abs2; [|exact M]. apply highest_close; [lia|]. intros; apply Hh; lia.
    - match goal with |- Rabs (?a + ?b - (?x + ?y)) <= _ => replace (a + b - (x + y)) with ((a - x) - (y - b)) by ring end. apply abs2; [|now rewrite Rabs_minus_sym]. apply lowest_close; [lia|]. intros; apply Hl; lia.
  Qed.
  Theorem starc_stable w mw mult : (0 < w < n)%nat -> (0 < mw <= n)%nat -> exists o o',
    starc (xseries h n) (xseries l n) (xseries c n) w mw (option_map Fin mult) = Ok o /\ starc (xseries h' n) (xseries l' n) (xseries c' n) w mw (option_map Fin mult) = Ok o' /\
    steady ((1 + 2 * Rabs (unwrap_or mult (12 / 10))) * e) n (Nat.max w (mw - 1)) (map fst o) (map fst o') /\ steady ((1 + 2 * Rabs (unwrap_or mult (12 / 10))) * e) n (Nat.max w (mw - 1)) (map snd o) (map snd o').
  Proof.
    intros Hw Hm. destruct (starc_real h l c n w mw mult Hw Hm B) as (o & E & A). destruct (starc_real h' l' c' n w mw mult Hw Hm B') as (o' & E' & A'). exists o, o'. split; [exact E|]. split; [exact E'|]. cbv zeta in A, A'. set (d := unwrap_or mult (12 / 10)) in *.
    replace ((1 + 2 * Rabs d) * e) with (e + Rabs d * (2 * e)) by ring.
    pose proof (aligned_map _ _ _ _ NaN _ fst A eq_refl : aligned _ _ _ _ (fun i => Fin (mean (last_bars mw c i) + d * wilder_from w 1 (true_range_of h l c) i))) as A1. pose proof (aligned_map _ _ _ _ NaN _ snd A eq_refl : aligned _ _ _ _ (fun i => Fin (mean (last_bars mw c i) - d * wilder_from w 1 (true_range_of h l c) i))) as A2.
    pose proof (aligned_map _ _ _ _ NaN _ fst A' eq_refl : aligned _ _ _ _ (fun i => Fin (mean (last_bars mw c' i) + d * wilder_from w 1 (true_range_of h' l' c') i))) as B1. pose proof (aligned_map _ _ _ _ NaN _ snd A' eq_refl : aligned _ _ _ _ (fun i => Fin (mean (last_bars mw c' i) - d * wilder_from w 1 (true_range_of h' l' c') i))) as B2.
    assert (D : forall i, (mw - 1 <= i < n)%nat -> Rabs (mean (last_bars mw c i) - mean (last_bars mw c' i)) <= e) by (intros i Hi; apply mean_bars_close; [apply (close_pos e n c c'); [lia|easy]|lia|]; intros; apply Hc; lia).
    split; [eapply steady_of; [exact A1|exact B1|lia|lia|]|eapply steady_of; [exact A2|exact B2|lia|lia|]]; intros i Hi; cbv beta; pose proof (mult_close d w i ltac:(lia) ltac:(lia)) as M; specialize (D i ltac:(lia)).
    - match goal with |- Rabs (?a + ?b - (?x + ?y)) <= _ => replace (a + b - (x + y)) with ((a - x) - (y - b)) by ring end. apply abs2; [exact D|now rewrite Rabs_minus_sym].
    - match goal with |- Rabs (?a - ?b - (?x - ?y)) <= _ => replace (a - b - (x - y)) with ((a - x) - (b - y)) by ring end. now apply abs2.
  Qed.
End Stops.

(** ** No such bound *)

(** A rise and a fall by [d] a bar. *)
Definition rising (d : R) (k : nat) : R := d * INR k.
Definition falling (d : R) (k : nat) : R := - (d * INR k).
Lemma slow n e : 0 < e -> exists d, 0 < d /\ close e n (rising d) (falling d).
Proof.
  intros He. exists (e / (2 * INR (n + 1))). assert (N : 0 < INR (n + 1)) by (apply lt_0_INR; lia). split; [apply Rdiv_lt_0_compat; lra|]. intros k Hk. unfold rising, falling.
  assert (K : INR k <= INR (n + 1)) by (apply le_INR; lia). pose proof (pos_INR k). replace (_ - _) with (e / INR (n + 1) * INR k) by (field; lra).
  rewrite Rabs_pos_eq by (apply Rmult_le_pos; [apply Rlt_le, Rdiv_lt_0_compat; lra|easy]). unfold Rdiv. replace e with (e * / INR (n + 1) * INR (n + 1)) at 2 by (field; lra). apply Rmult_le_compat_l; [|exact K]. apply Rlt_le, Rmult_lt_0_compat; [easy|now apply Rinv_0_lt_compat].
Qed.
Lemma rise_step d k : (0 < k)%nat -> rising d k - rising d (k - 1)%nat = d.
Proof. intros Hk. unfold rising. rewrite minus_INR by lia. cbn. ring. Qed.
Lemma fall_step d k : (0 < k)%nat -> falling d (k - 1)%nat - falling d k = d.
Proof. intros Hk. unfold falling. rewrite minus_INR by lia. cbn. ring. Qed.
Lemma rise_up d k : 0 < d -> (0 < k)%nat -> up_move (rising d) k = d.
Proof. intros Hd Hk. unfold up_move. rewrite rise_step by easy. apply Rmax_right. lra. Qed.
Lemma rise_down d k : 0 < d -> (0 < k)%nat -> down_move (rising d) k = 0.
Proof. intros Hd Hk. unfold down_move. pose proof (rise_step d k Hk). apply Rmax_left. lra. Qed.
Lemma fall_down d k : 0 < d -> (0 < k)%nat -> down_move (falling d) k = d.
Proof. intros Hd Hk. unfold down_move. rewrite fall_step by easy. apply Rmax_right. lra. Qed.
Lemma fall_up d k : 0 < d -> (0 < k)%nat -> up_move (falling d) k = 0.
Proof. intros Hd Hk. unfold up_move. pose proof (fall_step d k Hk). apply Rmax_left. lra. Qed.
Lemma wilder_level w f c i : (0 < w <= i)%nat -> (forall k, (0 < k)%nat -> f k = c) -> wilder_from w 1 f i = c.
Proof.
  intros Hw H. unfold wilder_from. assert (E : forall a n, (0 < a)%nat -> map f (seq a n) = repeat c n).
  { intros a n Ha. revert a Ha. induction n as [|n IH]; intros a Ha; [easy|]. cbn [seq map repeat]. rewrite H, IH by lia. easy. }
  rewrite !E by lia. destruct (Nat.eq_dec w 1) as [->|W].
  - replace (i + 1 - (1 + 1 - 1))%nat with (S (i - 1)) by lia. cbn [repeat]. unfold ema. cbn [fold_left]. replace (c * (1 / INR 1) + _) with c by (cbn; field). apply ema_const. intros x Hx. now apply repeat_spec in Hx.
  - replace (mean (repeat c (w - 1))) with c; [apply ema_const; intros x Hx; now apply repeat_spec in Hx|]. unfold mean. rewrite Rsum_repeat, repeat_length. field. apply not_0_INR. lia.
Qed.
Lemma sum_level w f c i : (0 < w <= i)%nat -> (forall k, (0 < k)%nat -> f k = c) -> Rsum (last_bars w f i) = INR w * c.
Proof.
  intros Hw H. replace (last_bars w f i) with (repeat c w); [apply Rsum_repeat|]. unfold last_bars. assert (E : forall n a, (0 < a)%nat -> repeat c n = map f (seq a n)).
  { intros n. induction n as [|n IH]; intros a Ha; [easy|]. cbn [seq map repeat]. rewrite H, (IH (S a)) by lia. easy. } apply E. lia.
Qed.
(** However small [e], two series nowhere further apart than [e] whose results are the two ends of the scale. *)
Definition swings (n k : nat) (a b : R) (fn : list xr -> result (list xr)) : Prop := forall e, 0 < e -> exists f g o o', close e n f g /\
  fn (xseries f n) = Ok o /\ fn (xseries g n) = Ok o' /\ forall i, (k <= i < n)%nat -> nth_error o i = Some (Fin a) /\ nth_error o' i = Some (Fin b).
Theorem rsi_jumps n w : (0 < w < n)%nat -> swings n w 100 0 (fun d => rsi d w).
Proof.
  intros Hw e He. destruct (slow n e He) as (d & Hd & C). destruct (rsi_real (rising d) n w Hw) as (o & E & A). destruct (rsi_real (falling d) n w Hw) as (o' & E' & A'). exists (rising d), (falling d), o, o'. split; [exact C|]. split; [exact E|]. split; [exact E'|].
  intros i Hi. rewrite (aligned_at _ _ _ _ _ _ A), (aligned_at _ _ _ _ _ _ A') by lia. cbv zeta. rewrite (wilder_level w (up_move (rising d)) d), (wilder_level w (down_move (rising d)) 0), (wilder_level w (up_move (falling d)) 0), (wilder_level w (down_move (falling d)) d); try lia; try (intros; first [now apply rise_up|now apply rise_down|now apply fall_up|now apply fall_down]).
  unfold Req. repeat destruct Req_EM_T; try (exfalso; lra). split; do 2 f_equal; field; lra.
Qed.
Theorem cmo_jumps n w : (0 < w < n)%nat -> swings n w 100 (-100) (fun d => cmo d w).
Proof.
  intros Hw e He. destruct (slow n e He) as (d & Hd & C). destruct (cmo_real (rising d) n w ltac:(lia)) as (o & E & A). destruct (cmo_real (falling d) n w ltac:(lia)) as (o' & E' & A'). exists (rising d), (falling d), o, o'. split; [exact C|]. split; [exact E|]. split; [exact E'|].
  intros i Hi. rewrite (aligned_at _ _ _ _ _ _ A), (aligned_at _ _ _ _ _ _ A') by lia. cbv zeta. rewrite (sum_level w (up_move (rising d)) d), (sum_level w (down_move (rising d)) 0), (sum_level w (up_move (falling d)) 0), (sum_level w (down_move (falling d)) d); try lia; try (intros; first [now apply rise_up|now apply rise_down|now apply fall_up|now apply fall_down]).
  assert (N : 0 < INR w) by (apply lt_0_INR; lia). assert (0 < INR w * d) by now apply Rmult_lt_0_compat. unfold Req. repeat destruct Req_EM_T; try (exfalso; lra). split; do 2 f_equal; field; nra.
Qed.
Lemma filter_all {A} (p : A -> bool) l : (forall x, In x l -> p x = true) -> filter p l = l.
Proof. induction l as [|a l IH]; intros H; cbn; [easy|]. rewrite (H a (or_introl eq_refl)). f_equal. apply IH. intros x Hx. apply H. now right. Qed.
Lemma filter_none {A} (p : A -> bool) l : (forall x, In x l -> p x = false) -> filter p l = [].
Proof. induction l as [|a l IH]; intros H; cbn; [easy|]. rewrite (H a (or_introl eq_refl)). apply IH. intros x Hx. apply H. now right. Qed.
Theorem psych_jumps n w : (0 < w < n)%nat -> swings n w 100 0 (fun d => psych d w).
Proof.
  intros Hw e He. destruct (slow n e He) as (d & Hd & C). destruct (psych_real (rising d) n w ltac:(lia)) as (o & E & A). destruct (psych_real (falling d) n w ltac:(lia)) as (o' & E' & A'). exists (rising d), (falling d), o, o'. split; [exact C|]. split; [exact E|]. split; [exact E'|].
  intros i Hi. rewrite (aligned_at _ _ _ _ _ _ A), (aligned_at _ _ _ _ _ _ A') by lia. assert (N : 0 < INR w) by (apply lt_0_INR; lia). rewrite (filter_all _ (seq (i + 1 - w) w)), (filter_none _ (seq (i + 1 - w) w)).
  - rewrite seq_length. cbn [length INR]. split; do 2 f_equal; field; lra.
  - intros k Hk. apply in_seq in Hk. apply Rleb_false. pose proof (fall_step d k ltac:(lia)). lra.
  - intros k Hk. apply in_seq in Hk. apply Rleb_true. pose proof (rise_step d k ltac:(lia)). lra.
Qed.
(** The volume of every bar is counted the other way. *)
Theorem obv_jumps n v e : 0 < e -> exists f g o o', close e n f g /\ obv (xseries f n) (xseries v n) = Ok o /\ obv (xseries g n) (xseries v n) = Ok o' /\
  forall i, (1 <= i < n)%nat -> nth_error o i = Some (Fin (sum_bars v 1 i)) /\ nth_error o' i = Some (Fin (- sum_bars v 1 i)).
Proof.
  intros He. destruct (slow n e He) as (d & Hd & C). destruct (obv_values (fun k => Fin (rising d k)) (fun k => Fin (v k)) n) as (o & E & A). destruct (obv_values (fun k => Fin (falling d k)) (fun k => Fin (v k)) n) as (o' & E' & A'). exists (rising d), (falling d), o, o'. split; [exact C|]. split; [exact E|]. split; [exact E'|].
  intros i Hi. rewrite (aligned_at _ _ _ _ _ _ A), (aligned_at _ _ _ _ _ _ A') by lia.
  assert (G : forall j, obv_total (fun k => Fin (rising d k)) (fun k => Fin (v k)) j = Fin (sum_bars v 1 j) /\ obv_total (fun k => Fin (falling d k)) (fun k => Fin (v k)) j = Fin (- sum_bars v 1 j)).
  { induction j as [|j [I1 I2]]; [cbn [obv_total]; rewrite x_lit; unfold sum_bars; cbn; split; f_equal; lra|]. cbn [obv_total]. rewrite I1, I2, !x_sub, !x_signum.
    pose proof (rise_step d (S j) ltac:(lia)) as S1. pose proof (fall_step d (S j) ltac:(lia)) as S2. replace (S j - 1)%nat with j in * by lia.
    replace (Rltb (rising d (S j) - rising d j) 0) with false by (symmetry; apply Rltb_false; lra). replace (Rltb (falling d (S j) - falling d j) 0) with true by (symmetry; apply Rltb_true; lra).
    assert (SB : sum_bars v 1 (S j) = sum_bars v 1 j + v (S j)) by (destruct j as [|j]; [unfold sum_bars; cbn; lra|apply sum_bars_last; lia]). rewrite !x_mul, !x_add, SB. split; f_equal; ring. }
  destruct (G i) as [-> ->]. easy.
Qed.
(** The close at the top, then at the bottom, of the window's range. *)
Lemma rise_top d w i : 0 < d -> (0 < w <= i + 1)%nat -> highest w (rising d) i = rising d i /\ lowest w (rising d) i = rising d (i + 1 - w)%nat.
Proof.
  intros Hd Hw. assert (M : forall a b, (a <= b)%nat -> rising d a <= rising d b) by (intros a b Hab; unfold rising; apply Rmult_le_compat_l; [lra|now apply le_INR]).
  destruct (highest_spec w (rising d) i Hw) as [(a & A1 & A2 & ->) A]. destruct (lowest_spec w (rising d) i Hw) as [(b & B1 & B2 & ->) B]. split; apply Rle_antisym; [apply M; lia|apply A; lia|apply B; lia|apply M; lia].
Qed.
Lemma fall_bottom d w i : 0 < d -> (0 < w <= i + 1)%nat -> lowest w (falling d) i = falling d i /\ highest w (falling d) i = falling d (i + 1 - w)%nat.
Proof.
  intros Hd Hw. assert (M : forall a b, (a <= b)%nat -> falling d b <= falling d a) by (intros a b Hab; unfold falling; apply Ropp_le_contravar, Rmult_le_compat_l; [lra|now apply le_INR]).
  destruct (highest_spec w (falling d) i Hw) as [(a & A1 & A2 & ->) A]. destruct (lowest_spec w (falling d) i Hw) as [(b & B1 & B2 & ->) B]. split; apply Rle_antisym; [apply B; lia|apply M; lia|apply M; lia|apply A; lia].
Qed.
Theorem wpr_jumps n w : (1 < w <= n)%nat -> swings n (w - 1) 0 (-100) (fun d => wpr d d d w).
Proof.
  intros Hw e He. destruct (slow n e He) as (d & Hd & C). destruct (wpr_real (rising d) (rising d) (rising d) n w ltac:(lia) ltac:(lia) ltac:(intros; lra)) as (o & E & A). destruct (wpr_real (falling d) (falling d) (falling d) n w ltac:(lia) ltac:(lia) ltac:(intros; lra)) as (o' & E' & A').
  exists (rising d), (falling d), o, o'. split; [exact C|]. split; [exact E|]. split; [exact E'|].
  intros i Hi. rewrite (aligned_at _ _ _ _ _ _ A), (aligned_at _ _ _ _ _ _ A') by lia. cbv zeta. destruct (rise_top d w i Hd ltac:(lia)) as [-> ->]. destruct (fall_bottom d w i Hd ltac:(lia)) as [-> ->].
  assert (G : 0 < rising d i - rising d (i + 1 - w)%nat). { unfold rising. rewrite <- Rmult_minus_distr_l. apply Rmult_lt_0_compat; [easy|]. pose proof (lt_INR (i + 1 - w) i ltac:(lia)). lra. }
  unfold falling. fold (rising d i) (rising d (i + 1 - w)%nat). unfold Req. repeat destruct Req_EM_T; try (exfalso; lra). split; do 2 f_equal; field; lra.
Qed.
(** "bars since the high" goes from none to all of them. *)
Theorem aroon_jumps n w : (0 < w < n)%nat -> swings n w 100 0 (fun d => Scale.res_map (map fst) (aroon d d w)).
Proof.
  intros Hw e He. destruct (slow n e He) as (d & Hd & C). destruct (aroon_real (rising d) (rising d) n w ltac:(lia)) as (o & u & x & E & A & U). destruct (aroon_real (falling d) (falling d) n w ltac:(lia)) as (o' & u' & x' & E' & A' & U').
  exists (rising d), (falling d), (map fst o), (map fst o'). split; [exact C|]. split; [now rewrite E|]. split; [now rewrite E'|].
  intros i Hi. assert (N : 0 < INR w) by (apply lt_0_INR; lia). destruct (U i Hi) as [(U1 & U2 & U3) _]. destruct (U' i Hi) as [(V1 & V2 & V3) _].
  assert (Ku : u i = 0%nat). { specialize (U2 0%nat ltac:(lia)). unfold rising in U2. destruct (u i); [easy|exfalso]. pose proof (lt_INR (i - S n0) (i - 0) ltac:(lia)). nra. }
  assert (Kv : u' i = w). { specialize (V2 w ltac:(lia)). unfold falling in V2. destruct (Nat.eq_dec (u' i) w) as [|X]; [easy|exfalso]. pose proof (lt_INR (i - w) (i - u' i) ltac:(lia)). nra. }
  rewrite !nth_error_map. rewrite (aligned_at _ _ _ _ _ _ A), (aligned_at _ _ _ _ _ _ A') by lia. cbn [option_map fst]. rewrite Ku, Kv, Nat.sub_0_r, Nat.sub_diag. cbn [INR]. split; do 2 f_equal; field; lra.
Qed.
