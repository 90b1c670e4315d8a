(** * Agree: functions that print the same quantity agree with each other.

    Rust code that computes a quantity twice, in two functions, must give the same
    answer twice.  The first part holds bit for bit in every arithmetic, the second
    in exact arithmetic. *)

From Coq Require Import Reals Lra Lia Permutation Sorted.
From Verif Require Import Base Num Spec BaseFacts NaN XReal Scale Bars.
From Verif Require Import Distribution Regression Correlation Smooth Volatility Trend Momentum Volume.
Local Unset Implicit Arguments.

(** Two results combined bar by bar; a panic if one of them panics. *)
Definition bar_by_bar {A B C} (f : A -> B -> C) (r : result (list A)) (s : result (list B)) : result (list C) :=
  let* a := r in let* b := s in Ok (map (fun '(x, y) => f x y) (combine a b)).

Lemma map_pad {A B} (f : A -> B) k x : map f (pad k x) = pad k (f x).
Proof. unfold pad. induction k; cbn; [easy|]. now rewrite IHk. Qed.
Lemma combine_pad {A B} k (x : A) (y : B) l m : combine (pad k x ++ l) (pad k y ++ m) = pad k (x, y) ++ combine l m.
Proof. unfold pad. induction k; cbn; [easy|]. now rewrite IHk. Qed.
Lemma combine_map2 {A B C} (f : A -> B) (g : A -> C) l : combine (map f l) (map g l) = map (fun x => (f x, g x)) l.
Proof. induction l; cbn; [easy|]. now rewrite IHl. Qed.
Lemma combine_app2 {A B} (a c : list A) (b d : list B) : length a = length b -> combine (a ++ c) (b ++ d) = combine a b ++ combine c d.
Proof. revert b. induction a; intros [|y b]; cbn; try easy. intros [=]. now rewrite IHa. Qed.
Lemma combine_repeat_r {A B} (y : B) (l : list A) : combine l (pad (length l) y) = map (fun x => (x, y)) l.
Proof. unfold pad. induction l; cbn; [easy|]. now rewrite IHl. Qed.
Lemma map_repeat_eq {A B} (f : A -> B) y l : (forall x, f x = y) -> map f l = pad (length l) y.
Proof. intros H. unfold pad. induction l; cbn; [easy|]. now rewrite IHl, H. Qed.

Section Any.
  Context {F : Type} {FO : FOps F} {N : FNan FO}.
  Open Scope F_scope.

  Lemma windows_newest w (l : list F) : 0 < w -> skipn (w - 1)%nat l = map (fun x => at_ x (w - 1)%nat) (windows w l).
  Proof.
    intros Hw. rewrite (series_complete l fnan). generalize (fun k => nth k l fnan) (length l). intros f n.
    unfold series. rewrite windows_bars, skipn_bars by easy. rewrite map_map.
    replace (0 + w - 1)%nat with (0 + (w - 1))%nat by lia. replace (n + 1 - w)%nat with (n - (w - 1))%nat by lia.
    apply map_ext_in. intros i Hi. apply in_seq in Hi. unfold at_, last_bars.
    rewrite (nth_indep _ fnan (f 0%nat)) by (rewrite map_length, seq_length; lia).
    rewrite map_nth, seq_nth by lia. f_equal. lia.
  Qed.
  (** A series against a line of windows of itself. *)
  Lemma newest_bars {B C} (f : F -> B -> C) (g : list F -> B) na nb w (l : list F) : 0 < w -> (w <= length l + 1)%nat ->
    (forall x, f x na = nb) ->
    map (fun '(x, y) => f x y) (combine l (pad (w - 1) na ++ map g (windows w l))) =
    pad (w - 1) nb ++ map (fun x => f (at_ x (w - 1)) (g x)) (windows w l).
  Proof.
    intros Hw Hl Hn. rewrite <- (firstn_skipn (w - 1) l) at 1. rewrite combine_app2 by (rewrite firstn_length, length_pad; lia).
    rewrite map_app. f_equal.
    - replace (w - 1)%nat with (length (firstn (w - 1) l)) at 2 3 by (rewrite firstn_length; lia).
      rewrite combine_repeat_r, map_map. apply map_repeat_eq. exact Hn.
    - rewrite (windows_newest w l Hw), combine_map2, map_map. reflexivity.
  Qed.

  (** The root of the mean squared error, and of the variance. *)
  Theorem rmse_agrees data est : rmse data est = map fsqrt (mse data est).
  Proof.
    unfold rmse, mse. generalize (obs_est data est). generalize (#0 : F). intros s l. revert s.
    induction l as [|[[n x] y] l IH]; intros s; cbn [scan map]; [easy|]. now rewrite IH.
  Qed.
  Theorem std_dev_agrees data w : std_dev data w = res_map (map fsqrt) (variance data w).
  Proof.
    unfold std_dev, std_dev_raw, variance. destruct (usub w 1); [|easy]. cbn [bind]. destruct (rwindows w data); [|easy]. cbn [bind res_map].
    now rewrite map_app, map_pad, nan_sqrt, map_map.
  Qed.
  (** Deviation in per cent of the mean. *)
  Theorem cv_agrees data w : cv data w = bar_by_bar fdiv (std_dev data w) (sma data w).
  Proof.
    unfold cv, std_dev, std_dev_raw, sma, bar_by_bar. destruct (usub w 1); [|easy]. cbn [bind]. destruct (rwindows w data); [|easy]. cbn [bind].
    now rewrite combine_pad, combine_map2, map_app, map_pad, map_map, nan_div_l.
  Qed.
  (** A z-score is the distance to the moving average in standard deviations. *)
  Theorem zscore_agrees data w : (w <= length data + 1)%nat ->
    zscore data w = bar_by_bar fdiv (bar_by_bar fsub (Ok data) (sma data w)) (std_dev data w).
  Proof.
    intros Hl. unfold zscore, std_dev, std_dev_raw, sma, bar_by_bar, usub, rwindows. destruct (Nat.leb_spec 1 w); [|easy]. cbn [bind].
    destruct (Nat.eqb_spec w 0); [lia|]. cbn [bind].
    rewrite (newest_bars fsub _ _ fnan) by (easy || apply nan_sub_r).
    now rewrite combine_pad, combine_map2, map_app, map_pad, map_map, nan_div_l.
  Qed.
  (** [cci] is the distance of the typical price to its average, in units of 0.015
      mean deviations. *)
  Theorem cci_agrees h l c w : (w <= bars3 h l c + 1)%nat ->
    cci h l c w = bar_by_bar fdiv (bar_by_bar fsub (Ok (hlc3 h l c)) (typical h l c w))
      (res_map (map (fmul (flit 15 1000))) (mad (hlc3 h l c) w)).
  Proof.
    intros Hl. assert (L : (w <= length (hlc3 h l c) + 1)%nat).
    { unfold hlc3, zip3. rewrite map_length, !combine_length. unfold bars3, bars2 in Hl. lia. }
    clear Hl. unfold cci, typical. revert L. generalize (hlc3 h l c). intros t L.
    unfold mad, sma, bar_by_bar, usub, rwindows. destruct (Nat.leb_spec 1 w); [|easy]. cbn [bind].
    destruct (Nat.eqb_spec w 0); [lia|]. cbn [bind res_map].
    rewrite (newest_bars fsub _ _ fnan) by (easy || apply nan_sub_r).
    rewrite map_app, map_pad, map_map, nan_mul_r, combine_pad, combine_map2, map_app, map_pad, map_map, nan_div_l.
    do 2 f_equal. apply map_ext_in. intros x Hx. apply windows_length in Hx; [|easy]. unfold cci_win, last_. now rewrite Hx.
  Qed.
  (** The two copies of the stochastic lines, and of the difference of two averages. *)
  Theorem kdj_agrees h l c w kf df : res_map (map fst) (kdj h l c w 3 kf df) = stochastic h l c w.
  Proof.
    unfold kdj, stochastic. destruct (stoch h l c w 3) as [s|]; [|easy]. cbn [bind res_map]. rewrite map_map. f_equal.
    rewrite <- (map_id s) at 2. apply map_ext. now intros [].
  Qed.
  Theorem apo_agrees data s l : apo data s l = macd data s l.
  Proof. reflexivity. Qed.
  (** [atr] is the Wilder average of [tr] from its second bar on. *)
  Theorem atr_agrees h l c w : atr h l c w = (let* t := tr h l c in let* a := wilder (tl t) w in Ok (fnan :: a)).
  Proof. unfold atr, tr. now destruct (true_range h l c). Qed.
  (** [asi] adds up [si]. *)
  Theorem asi_agrees o h l c limit : res_map (@tl F) (asi o h l c limit) =
    res_map (fun s => scan acc_step #0 (tl s)) (si o h l c limit).
  Proof. unfold asi, si. now destruct (swing o h l c limit). Qed.
  (** The middle line of a Donchian channel is the line [ichimoku] draws with the same window. *)
  Lemma combine_at {A B} (a : list A) (b : list B) i p : nth_error (combine a b) i = Some p ->
    nth_error a i = Some (fst p) /\ nth_error b i = Some (snd p).
  Proof. revert b i. induction a as [|x a IH]; intros [|y b] [|i]; cbn; try easy; [now intros [= <-]|apply IH]. Qed.
  Lemma donchian_middle h l w : res_map (map (fun x => snd (fst x))) (donchian h l w) =
    (let* k := usub w 1 in let* m := midpoints h l w in Ok (pad k fnan ++ m)).
  Proof.
    unfold donchian, midpoints. destruct (usub w 1); [|easy]. cbn [bind]. destruct (rwindows w h); [|easy]. cbn [bind].
    destruct (rwindows w l); [|easy]. cbn [bind res_map]. rewrite map_app, map_pad, map_map. do 2 f_equal. apply map_ext. now intros [].
  Qed.
  Theorem donchian_agrees h l c cw bw lw lag o i a b x y z : ichimoku h l c cw bw lw lag = Ok o ->
    nth_error o i = Some (a, b, x, y, z) ->
    (forall d u m v, donchian h l cw = Ok d -> nth_error d i = Some (u, m, v) -> a = m) /\
    (forall d u m v, donchian h l bw = Ok d -> nth_error d i = Some (u, m, v) -> b = m).
  Proof.
    intros E G. unfold ichimoku in E.
    pose proof (donchian_middle h l cw) as D1. pose proof (donchian_middle h l bw) as D2.
    destruct (usub cw 1) as [kc|]; [|easy]. destruct (midpoints h l cw) as [mc|]; [|easy].
    destruct (usub bw 1) as [kb|]; [|easy]. destruct (midpoints h l bw) as [mb|]; [|easy].
    destruct (usub lw 1) as [kl|]; [|easy]. destruct (midpoints h l lw) as [ml|]; [|easy]. cbn [bind] in *.
    injection E as <-. unfold zip5, zip4, zip3 in G.
    apply combine_at in G as [G _]. apply combine_at in G as [G _]. apply combine_at in G as [G _]. apply combine_at in G as [G1 G2]. cbn [fst snd] in *.
    split; intros d u m v E H; rewrite E in *; cbn [res_map] in *.
    - injection D1 as D1. apply (map_nth_error (fun x => snd (fst x))) in H. cbn in H. rewrite D1 in H.
      rewrite nth_error_app1 in G1 by (apply nth_error_Some; now rewrite H). congruence.
    - injection D2 as D2. apply (map_nth_error (fun x => snd (fst x))) in H. cbn in H. rewrite D2 in H.
      rewrite nth_error_app1 in G2 by (apply nth_error_Some; now rewrite H). congruence.
  Qed.
End Any.
