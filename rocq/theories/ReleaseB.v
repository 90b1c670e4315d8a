(** * ReleaseB: windows that are too small, in a build without overflow checks.

    [window - 1], [window - 2] and [window - 3] wrap around instead of panicking.  Most
    functions panic all the same, in the slice or in [windows(0)] that follows; the four
    here do not.  [Release.v] has the functions whose counters and products wrap. *)

From Coq Require Import NArith List.
From Verif Require Import Num Base Smooth Distribution Release.
Import ListNotations.
Local Unset Implicit Arguments.

Section ReleaseB.
  Context {F : Type} {FO : FOps F}.
  Local Open Scope F_scope.

  (** smooth.rs:79-94 [ewma]; the items the iterator yields.  [window + 1] does not wrap:
      a window of [2^64 - 1] is longer than every slice. *)
  Definition ewma_release (data : list F) (window : nat) : result (list F) :=
    let* head := slice_to data window in
    let initial := fsum head / fofnat window in
    let alpha := #2 / fofnat (window + 1) in
    let* rest := slice_from data window in
    Ok (pad (N.to_nat (wsub (N.of_nat window) 1)) fnan ++ initial :: scan (ewma_step alpha) initial rest).

  (** smooth.rs:571-592 [alma] *)
  Definition alma_release (data : list F) (window : nat) (sigma : F) (mu : option F) : result (list F) :=
    let mu := unwrap_or mu (flit 85 100) * fofN (wsub (N.of_nat window) 1) in
    let weights := alma_weights window sigma mu in
    Ok (pad window fnan ++
        map (fun i => weighted_mean weights (map (fun j => at_ data (i - j)) (seq 0 window)))
            (seq window (length data - window))).

  (** distribution.rs:294-309 [kurtosis]; for a window of 0 [windows(0)] panics. *)
  Definition kurtosis_release (data : list F) (window : nat) : result (list F) :=
    let W := N.of_nat window in
    let den := wmul (wsub W 2) (wsub W 3) in
    let adj1 := fofN (wmul (wmul (W + 1) W) (wsub W 1)) / fofN den in
    let adj2 := #3 * fofN (wmul (wsub W 1) (wsub W 1)) / fofN den in
    let* ws := rwindows window data in
    Ok (pad (window - 1) fnan ++ map (kurtosis_win adj1 adj2 window) ws).

  (** distribution.rs:342-352: body of the closure of [skew]. *)
  Definition skew_win_release (window : nat) (w : list F) : F :=
    let mean := win_mean window w in
    let m3 := fold_left (fun acc x => acc + powi3 (x - mean)) w #0 / fofnat window in
    let m2 := fpow (sum_dev2 mean w / fofnat window) (#3 / #2) in
    let W := N.of_nat window in
    fsqrt (fofN (wmul W (wsub W 1))) / fofN (wsub W 2) * m3 / m2.

  (** distribution.rs:338-354 [skew]; for a window of 0 [windows(0)] panics. *)
  Definition skew_release (data : list F) (window : nat) : result (list F) :=
    let* ws := rwindows window data in
    Ok (pad (window - 1) fnan ++ map (skew_win_release window) ws).
End ReleaseB.
