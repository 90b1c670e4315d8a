(** * Typed: the functions that compare elements of the caller's own number type.

    Every function of the crate is generic in the element type [T: ToPrimitive] and
    nearly all of them convert each element with [to_f64()] before doing anything
    else, so that the model takes [f64] inputs.  [median], [quantile], [rank],
    [srcc] and [hoeffd] also ask for [PartialOrd] and compare elements {e before}
    converting them.  Here they are modelled for an arbitrary [T]: [cmp] is
    [T::partial_cmp] ([None] is "incomparable"), [conv] is [to_f64().unwrap()]
    (total for the primitive number types).  For those types an element
    incomparable with something is incomparable with itself. *)

From Verif Require Export Correlation.

Section Typed.
  Context {F : Type} {O : FOps F} {T : Type}.
  Variable cmp : T -> T -> option comparison.
  Variable conv : T -> F.
  Local Open Scope F_scope.

  (** [a < b], [a != b] and "[a] is a NaN" on [T]. *)
  Definition tlt (a b : T) : bool := match cmp a b with Some Lt => true | _ => false end.
  Definition tne (a b : T) : bool := match cmp a b with Some Eq => false | _ => true end.
  Definition tnan (a : T) : bool := match cmp a a with None => true | _ => false end.

  (** distribution.rs:420-435: body of the closure of [quantile]. *)
  Definition quantile_win_t (window : nat) (q : F) (w : list T) : result F :=
    let* w1 := usub window 1 in
    let pos := fofnat w1 * (fclamp_val q #0 #100 / #100) in
    if ffract pos =? #0 then
      let* '(_, v) := quickselect tlt w (N.to_nat (ftoN pos)) in
      Ok (conv v)
    else
      let* '(w', lower) := quickselect tlt w (N.to_nat (ftoN (ffloor pos))) in
      let* rest := slice_from w' (N.to_nat (ftoN (fceil pos))) in
      let upper := fold_left (fun state x => fmin state (conv x)) rest fnan in
      Ok (conv lower * (fceil pos - pos) + upper * (pos - ffloor pos)).

  (** distribution.rs:412-437 [quantile] *)
  Definition quantile_t (data : list T) (window : nat) (q : F) : result (list F) :=
    let* k := usub window 1 in
    let* ws := rwindows window data in
    let* vs := rmap (quantile_win_t window q) ws in
    Ok (pad k fnan ++ vs).

  (** distribution.rs:393-398 [median] *)
  Definition median_t (data : list T) (window : nat) : result (list F) :=
    quantile_t data window #50.

  (** distribution.rs:471-477 [argsort]; [srt] is the permutation chosen by
      [sort_unstable_by]. *)
  Definition argsort_t (srt : list T -> list nat) (data : list T) : result (list nat) :=
    if (2 <=? length data)%nat && existsb tnan data then Panic
    else Ok (srt data).

  (** distribution.rs:524-532: [uniq_indices] *)
  Definition uniq_flags_t (sorted : list T) : result (list bool) :=
    match sorted with
    | [] => Panic
    | x1 :: rest => Ok (true :: scan (fun st x => (x, tne st x)) x1 rest)
    end.

  (** distribution.rs:510-579 [rank]; what follows the flags does not look at
      the data and is the code of [Distribution]. *)
  Definition rank_t (srt : list T -> list nat) (data : list T) (mode : option RankMode)
    : result (list F) :=
    let n := length data in
    let* indices := argsort_t srt data in
    match mode with
    | Some ROrdinal => Ok (scatter n (map fofnat (seq 1 n)) indices)
    | _ =>
        let* sorted := rmap (idx data) indices in
        let* flags := uniq_flags_t sorted in
        let* ranks :=
          match mode with
          | Some RDense => ranks_dense flags
          | Some RAverage => ranks_average (flag_counts flags n) flags
          | Some RMax => ranks_max (flag_counts flags n) flags
          | _ => Ok (ranks_min flags)
          end in
        Ok (scatter n ranks indices)
    end.

  (** correlation.rs:280-287: closure of [srcc]. *)
  Definition srcc_win_t (srt : list T -> list nat) (p : list T * list T) : result F :=
    let* rx := rank_t srt (fst p) None in
    let* ry := rank_t srt (snd p) None in
    let* '(cov_xy, std_x, std_y) := cov_stdev rx ry in
    Ok (cov_xy / (std_x * std_y)).

  (** correlation.rs:271-288 [srcc] *)
  Definition srcc_t (srt : list T -> list nat) (series1 series2 : list T) (window : nat)
    : result (list F) :=
    let* k := usub window 1 in
    let* a := rwindows window series1 in
    let* b := rwindows window series2 in
    let* vs := rmap (srcc_win_t srt) (combine a b) in
    Ok (pad k fnan ++ vs).

  (** correlation.rs:388-414: closure of [hoeffd]; the five-fold product of
      line 413 is computed in [usize]. *)
  Definition hoeffd_win_t (srt : list T -> list nat) (window : nat) (p : list T * list T)
    : result F :=
    let* rank_x := rank_t srt (fst p) (Some RAverage) in
    let* rank_y := rank_t srt (snd p) (Some RAverage) in
    let q := map (hoeffd_q rank_x rank_y) (seq 0 window) in
    let '(d1, d2, d3) := hoeffd_sums rank_x rank_y q in
    let W := N.of_nat window in
    let* w1 := usubN W 1 in
    let* w2 := usubN W 2 in
    let* w3 := usubN W 3 in
    let* p23 := umul w2 w3 in
    let* w4 := usubN W 4 in
    let* m1 := umul W w1 in
    let* m2 := umul m1 w2 in
    let* m3 := umul m2 w3 in
    let* m4 := umul m3 w4 in
    Ok (#30 * (fofN p23 * d1 + d2 - #2 * fofN w2 * d3) / fofN m4).

  (** correlation.rs:379-416 [hoeffd] *)
  Definition hoeffd_t (srt : list T -> list nat) (series1 series2 : list T) (window : nat)
    : result (list F) :=
    let* k := usub window 1 in
    let* a := rwindows window series1 in
    let* b := rwindows window series2 in
    let* vs := rmap (hoeffd_win_t srt window) (combine a b) in
    Ok (pad k fnan ++ vs).
End Typed.

(** The integer types: [i8] ... [i64], [u8] ... [u64], [usize], [isize] compare as
    the integers they denote. *)
Definition int_cmp (a b : Z) : option comparison := Some (Z.compare a b).
