(** * Lazy: what a caller sees who pulls the values one at a time.

    The functions of the crate return iterators.  The other files describe what
    comes out when such an iterator is drained; most panics happen in the call
    itself, before any value is pulled.  This file models the functions in which a
    panic can also happen while values are pulled: their closures run only when the
    consumer asks for the next value. *)

From Verif Require Import Base Num Smooth Distribution Regression Correlation Volume Trend Momentum.
Local Unset Implicit Arguments.

(** Successive answers of [next()]: a value, or a panic, after which nothing more
    is asked; the end of the list is [None]. *)
Definition stream (A : Type) : Type := list (result A).

(** [iter.collect()] *)
Fixpoint drain {A} (s : stream A) : result (list A) :=
  match s with
  | [] => Ok []
  | x :: s' => let* v := x in let* r := drain s' in Ok (v :: r)
  end.
(** [f(..).take(k).collect()], where the call [f(..)] may panic itself *)
Definition take {A} (k : nat) (r : result (stream A)) : result (list A) :=
  let* s := r in drain (firstn k s).
(** [f(..).collect()] *)
Definition collect {A} (r : result (stream A)) : result (list A) := let* s := r in drain s.

(** [iter.scan(s, f)] whose closure may panic *)
Fixpoint lscan {S A B} (f : S -> A -> result (S * B)) (s : S) (l : list A) : stream B :=
  match l with
  | [] => []
  | a :: l' => match f s a with Ok (s', b) => Ok b :: lscan f s' l' | Panic => [Panic] end
  end.
(** [iter::repeat(x).take(k)] *)
Definition lpad {A} (k : nat) (x : A) : stream A := repeat (Ok x) k.

Section Lazy.
  Context {F : Type} {FO : FOps F}.
  Local Open Scope F_scope.
  Local Open Scope nat_scope.

  (** distribution.rs:189-222 [approx_entropy]; the tolerance is computed in the call *)
  Definition approx_entropy_it (data : list F) (window : nat) (run_length : option nat) (tolerance : option F) : result (stream F) :=
    let run_length := unwrap_or run_length 2 in
    let* tol := entropy_tol data tolerance in
    let* k := usub window 1 in
    let* ws := rwindows window data in
    Ok (lpad k fnan ++ map (fun w => let* a := phi tol w (run_length + 1) in
                                     let* b := phi tol w run_length in
                                     Ok (fabs (fsub a b))) ws).

  (** distribution.rs:242-272 [sample_entropy] *)
  Definition sample_entropy_it (data : list F) (window : nat) (run_length : option nat) (tolerance : option F) : result (stream F) :=
    let run_length := unwrap_or run_length 2 in
    let* tol := entropy_tol data tolerance in
    let* k := usub window 1 in
    let* ws := rwindows window data in
    Ok (lpad k fnan ++ map (fun w => let* a := matches tol w (run_length + 1) in
                                     let* b := matches tol w run_length in
                                     Ok (fneg (fln (fdiv a b)))) ws).

  (** distribution.rs:338-354 [skew] *)
  Definition skew_it (data : list F) (window : nat) : result (stream F) :=
    let* k := usub window 1 in
    let* ws := rwindows window data in
    Ok (lpad k fnan ++ map (skew_win window) ws).

  (** distribution.rs:412-437 [quantile] *)
  Definition quantile_it (data : list F) (window : nat) (q : F) : result (stream F) :=
    let* k := usub window 1 in
    let* ws := rwindows window data in
    Ok (lpad k fnan ++ map (quantile_win window q) ws).

  (** distribution.rs:393-398 [median] *)
  Definition median_it (data : list F) (window : nat) : result (stream F) := quantile_it data window (flit 50 1).

  (** correlation.rs:271-288 [srcc] *)
  Definition srcc_it (srt : sort_oracle F) (series1 series2 : list F) (window : nat) : result (stream F) :=
    let* k := usub window 1 in
    let* ws := zip_windows window series1 series2 in
    Ok (lpad k fnan ++ map (srcc_win srt) ws).

  (** correlation.rs:317-351 [krcc] *)
  Definition krcc_it (series1 series2 : list F) (window : nat) : result (stream F) :=
    let* k := usub window 1 in
    let* ws := zip_windows window series1 series2 in
    Ok (lpad k fnan ++ map (krcc_win window) ws).

  (** correlation.rs:379-416 [hoeffd] *)
  Definition hoeffd_it (srt : sort_oracle F) (series1 series2 : list F) (window : nat) : result (stream F) :=
    let* k := usub window 1 in
    let* ws := zip_windows window series1 series2 in
    Ok (lpad k fnan ++ map (hoeffd_win srt window) ws).

  (** trend.rs:1148-1181 [hurst]; the loop over the sizes is part of the call *)
  Definition hurst_it (fuel : nat) (data : list F) (window : nat) (min_win : option nat) : option (result (stream F)) :=
    match hurst_sizes fuel window (flog10 (fofnat (unwrap_or min_win 4))) with
    | None => None
    | Some sz =>
        Some (let sizes := map N.to_nat sz ++ [window] in
              let* k := usub window 1 in
              let* ws := rwindows window data in
              Ok (lpad k fnan ++ map (hurst_win sizes) ws))
    end.

  (** volume.rs:573-582 [obv] *)
  Definition obv_it (close volume : list F) : result (stream F) :=
    Ok (Ok fnan :: lscan (obv_step volume) (flit 0 1) (enumerate (windows 2 close))).

  (** volume.rs:719-749 [vwap] *)
  Definition vwap_it (high low close volume : list F) (reset_idx : option (list nat)) : result (stream F) :=
    let resets := unwrap_or reset_idx [length close] in
    Ok (lscan vwap_step (flit 0 1, flit 0 1, resets) (enumerate (zip4 high low close volume))).

  (** smooth.rs:781-878 [mama]; the smoothed prices are collected in the call *)
  Definition mama_it (data : list F) (fast slow : option F) : result (stream (F * F)) :=
    let fast := unwrap_or fast (flit 5 10) in
    let slow := unwrap_or slow (flit 5 100) in
    let sm := pad 3 (flit 0 1) ++ map mama_smooth (windows 4 data) in
    Ok (lpad 6 (fnan, fnan) ++ lscan (mama_step fast slow sm data) mama_init (seq 6 (length data - 6))).

  (** momentum.rs:981-1015 [rainbow]; the ten averages are collected in the call *)
  Definition rainbow_it (data : list F) (window lookback : nat) : result (stream (F * F)) :=
    let* s := sma data window in
    let* smas := rainbow_smas 9 s window in
    let* k := usub window 1 in
    Ok (lpad (k * 10) (fnan, fnan) ++ map (rainbow_at data smas lookback) (seq (k * 10) (length data - k * 10))).

  (** [(1..).next()] on an [i32] counter for item [n]: the range steps ahead before it
      answers, so that it panics for [n = i32::MAX]. *)
  Definition i32_next (n : nat) : result nat :=
    if (N.of_nat n <? 2 ^ 31 - 1)%N then Ok n else Panic.

  (** regression.rs:259-269 [emae] *)
  Definition emae_it (data estimate : list F) : result (stream F) :=
    Ok (lscan (fun '(s0, s1) '(i, (actual, est)) =>
                 let* n := i32_next (i + 1) in
                 let s0' := fadd s0 (fabs (fsub actual est)) in
                 let s1' := fadd s1 (fmax actual est) in
                 Ok ((s0', s1'), fdiv (fmul (fdiv s0' s1') (flit 100 1)) (fofnat n)))
              (flit 0 1, flit 0 1) (enumerate (combine data estimate))).

  (** regression.rs:229-241 [mase]: each item of [mae(..).skip(1)] is pulled before
      the naive one it is divided by. *)
  Definition mase_it (data estimate : list F) : result (stream F) :=
    Ok (Ok fnan ::
        lscan (fun state '(i, (est, w)) =>
                 let* cnt := i32_next (i + 1) in
                 let state' := fadd state (fabs (fsub (at_ w 1) (at_ w 0))) in
                 Ok (state', fdiv est (fdiv state' (fofnat cnt))))
              (flit 0 1) (enumerate (combine (skipn 1 (mae data estimate)) (windows 2 data)))).
End Lazy.
