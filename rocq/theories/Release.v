(** * Release: the integer arithmetic of a build without overflow checks.

    [cargo build --release] does not check integer overflow: [usize] sums and products
    are taken modulo [2^64] and [u8] counters modulo [256].  The other model files
    describe a build with the checks.  Here the functions whose sums, products or
    counters can leave the range are modelled once more, without them. *)

From Coq Require Import NArith List.
From Verif Require Import Num Base Smooth Distribution Correlation.
Import ListNotations.
Local Unset Implicit Arguments.

(** [a * b], [a + b] and [a - b] on [usize], wrapping. *)
Definition wmul (a b : N) : N := ((a * b) mod two64)%N.
Definition wadd (a b : N) : N := ((a + b) mod two64)%N.
Definition wsub (a b : N) : N := ((a + two64 - b) mod two64)%N.

Section Release.
  Context {F : Type} {FO : FOps F}.
  Local Open Scope F_scope.

  (** smooth.rs:220-225: one iteration of the loop building half a row of Pascal's
      triangle.  [i - 1], [n - k] and [n - i] cannot go below 0: [1 <= i <= n / 2]. *)
  Definition pascal_step_release (n : nat) (st : list N * N) (i : nat) : result (list N * N) :=
    let '(row, denom) := st in
    let* k := usub i 1 in
    let* rk := idx row k in
    let* nk := usub n k in
    let ri := (wmul rk (N.of_nat nk) / N.of_nat (k + 1))%N in
    let* _ := idx row i in
    let row1 := upd row i ri in
    let* ni := usub n i in
    let* _ := idx row1 ni in
    Ok (upd row1 ni ri, wadd denom (wmul ri 2)).

  Fixpoint pascal_loop_release (n : nat) (is : list nat) (st : list N * N) : result (list N * N) :=
    match is with
    | [] => Ok st
    | i :: is' => let* st' := pascal_step_release n st i in pascal_loop_release n is' st'
    end.

  (** smooth.rs:217-228.  A window of 0 panics here as well: [window - 1] wraps to the
      greatest [usize], and the loop reads item 0 of an empty row. *)
  Definition pascal_row_release (window : nat) : result (list N * N) :=
    let* n := usub window 1 in
    let* '(row, denom) := pascal_loop_release n (seq 1 (n / 2)) (repeat 1%N window, 2%N) in
    if (window mod 2 =? 1)%nat then
      let* m := idx row (n / 2) in Ok (row, wsub denom m)
    else Ok (row, denom).

  (** smooth.rs:216-238 [pwma] *)
  Definition pwma_release (data : list F) (window : nat) : result (list F) :=
    let* '(row, denom) := pascal_row_release window in
    let weights := map (fun i => fofN i / fofN denom) row in
    let* k := usub window 1 in
    let* ws := rwindows window data in
    Ok (pad k fnan ++ map (dot weights) ws).

  (** distribution.rs:200-209 and 250-260: [count += b as u8], wrapping. *)
  Definition u8_count_release (l : list bool) : N :=
    fold_left (fun count (b : bool) => (count + (if b then 1 else 0)) mod 256)%N l 0%N.

  (** distribution.rs:196 and 249: [ts.len() - m + 1] wraps to 0 when [m] is one more than
      the length, and to a number past every index when it is greater still: then the
      first slice panics. *)
  Definition win_len_release (len m : nat) : result nat :=
    if (m <=? len + 1)%nat then Ok (len + 1 - m)%nat else Panic.

  (** distribution.rs:195-213 [phi] *)
  Definition phi_release (tol : F) (ts : list F) (m : nat) : result F :=
    let* win_len := win_len_release (length ts) m in
    let counts := map (fun i => u8_count_release (map (fun j => run_match tol (run ts m i) (run ts m j)) (seq 0 win_len))) (seq 0 win_len) in
    Ok (fold_left (fun cm c => cm + fln (fofN c / fofnat win_len)) counts #0 / fofnat win_len).

  (** distribution.rs:189-222 [approx_entropy]; for a window of 0 [windows(0)] panics. *)
  Definition approx_entropy_release (data : list F) (window : nat) (run_length : option nat) (tolerance : option F) : result (list F) :=
    let run_length := unwrap_or run_length 2 in
    let* tol := entropy_tol data tolerance in
    let* ws := rwindows window data in
    let* vs := rmap (fun w => let* a := phi_release tol w (run_length + 1) in let* b := phi_release tol w run_length in Ok (fabs (a - b))) ws in
    Ok (pad (window - 1) fnan ++ vs).

  (** distribution.rs:248-263 [matches] *)
  Definition matches_release (tol : F) (ts : list F) (m : nat) : result F :=
    let* win_len := win_len_release (length ts) m in
    Ok (#2 * fofN (u8_count_release (map (fun '(i, j) => run_match tol (run ts m i) (run ts m j)) (upper_pairs win_len))) + feps).

  (** distribution.rs:242-272 [sample_entropy] *)
  Definition sample_entropy_release (data : list F) (window : nat) (run_length : option nat) (tolerance : option F) : result (list F) :=
    let run_length := unwrap_or run_length 2 in
    let* tol := entropy_tol data tolerance in
    let* ws := rwindows window data in
    let* vs := rmap (fun w => let* a := matches_release tol w (run_length + 1) in let* b := matches_release tol w run_length in Ok (- fln (a / b))) ws in
    Ok (pad (window - 1) fnan ++ vs).

  (** correlation.rs:388-414: closure of [hoeffd]. *)
  Definition hoeffd_win_release (srt : sort_oracle F) (window : nat) (p : list F * list F) : result F :=
    let* rank_x := rank srt (fst p) (Some RAverage) in
    let* rank_y := rank srt (snd p) (Some RAverage) in
    let q := map (hoeffd_q rank_x rank_y) (seq 0 window) in
    let '(d1, d2, d3) := hoeffd_sums rank_x rank_y q in
    let W := N.of_nat window in
    let w2 := wsub W 2 in
    let p23 := wmul w2 (wsub W 3) in
    let m4 := wmul (wmul (wmul (wmul W (wsub W 1)) w2) (wsub W 3)) (wsub W 4) in
    Ok (#30 * (fofN p23 * d1 + d2 - #2 * fofN w2 * d3) / fofN m4).

  (** correlation.rs:379-416 [hoeffd] *)
  Definition hoeffd_release (srt : sort_oracle F) (series1 series2 : list F) (window : nat) : result (list F) :=
    let* ws := zip_windows window series1 series2 in
    let* vs := rmap (hoeffd_win_release srt window) ws in
    Ok (pad (window - 1) fnan ++ vs).
End Release.
