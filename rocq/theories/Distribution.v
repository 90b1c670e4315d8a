(** * Model of /repo/src/statistic/distribution.rs *)

From Verif Require Export Num.

Section Distribution.
  Context {F : Type} {O : FOps F}.
  Local Open Scope F_scope.

  (** distribution.rs:31, 43, 95, 129, 161, 300, 342: the window mean. *)
  Definition win_mean (window : nat) (w : list F) : F := fsum w / fofnat window.

  (** distribution.rs:32-33 etc.: [fold(0.0, |acc, x| acc + (x - mean).powi(2))]. *)
  Definition sum_dev2 (mean : F) (w : list F) : F :=
    fold_left (fun acc x => acc + powi2 (x - mean)) w #0.

  (** distribution.rs:31-34: body of the closure of [variance]. *)
  Definition variance_win (window : nat) (w : list F) : F :=
    let mean := win_mean window w in sum_dev2 mean w / fofnat window.

  (** distribution.rs:27-36 [variance] *)
  Definition variance (data : list F) (window : nat) : result (list F) :=
    let* k := usub window 1 in
    let* ws := rwindows window data in
    Ok (pad k fnan ++ map (variance_win window) ws).

  (** distribution.rs:43-47: body of the closure of [_std_dev]. *)
  Definition std_dev_win (window : nat) (w : list F) : F :=
    let mean := win_mean window w in fsqrt (sum_dev2 mean w / fofnat window).

  (** distribution.rs:38-49 [_std_dev] (crate-private, no padding) *)
  Definition std_dev_raw (data : list F) (window : nat) : result (list F) :=
    let* ws := rwindows window data in
    Ok (map (std_dev_win window) ws).

  (** distribution.rs:66-70 [std_dev] *)
  Definition std_dev (data : list F) (window : nat) : result (list F) :=
    let* k := usub window 1 in
    let* sd := std_dev_raw data window in
    Ok (pad k fnan ++ sd).

  (** distribution.rs:95-101: body of the closure of [zscore]; [w[window - 1]]
      is in range because the slice has length [window]. *)
  Definition zscore_win (window : nat) (w : list F) : F :=
    let mean := win_mean window w in
    let stdev := fsqrt (sum_dev2 mean w / fofnat window) in
    (at_ w (window - 1) - mean) / stdev.

  (** distribution.rs:91-103 [zscore] *)
  Definition zscore (data : list F) (window : nat) : result (list F) :=
    let* k := usub window 1 in
    let* ws := rwindows window data in
    Ok (pad k fnan ++ map (zscore_win window) ws).

  (** distribution.rs:129-132: body of the closure of [mad]. *)
  Definition mad_win (window : nat) (w : list F) : F :=
    let mean := win_mean window w in
    fold_left (fun acc x => acc + fabs (x - mean)) w #0 / fofnat window.

  (** distribution.rs:125-134 [mad] *)
  Definition mad (data : list F) (window : nat) : result (list F) :=
    let* k := usub window 1 in
    let* ws := rwindows window data in
    Ok (pad k fnan ++ map (mad_win window) ws).

  (** distribution.rs:161-166: body of the closure of [cv]. *)
  Definition cv_win (window : nat) (w : list F) : F :=
    let mean := win_mean window w in
    fsqrt (sum_dev2 mean w / fofnat window) / mean.

  (** distribution.rs:157-168 [cv] *)
  Definition cv (data : list F) (window : nat) : result (list F) :=
    let* k := usub window 1 in
    let* ws := rwindows window data in
    Ok (pad k fnan ++ map (cv_win window) ws).

  (** ** Entropies *)

  (** [count += b as u8] where [count : u8] (the type is inferred from the
      right-hand side): overflows past 255. *)
  Definition u8_incr (count : N) (b : bool) : result N :=
    let c := (count + (if b then 1 else 0))%N in
    if (c <? 256)%N then Ok c else Panic.

  (** distribution.rs:201-206 and 253-258: Chebyshev distance of two runs
      compared with the tolerance; [fold(f64::NAN, f64::max)]. *)
  Definition run_match (tol : F) (a b : list F) : bool :=
    fold_left fmax (map (fun '(x, y) => fabs (x - y)) (combine a b)) fnan <=? tol.

  Fixpoint u8_count (l : list bool) (count : N) : result N :=
    match l with
    | [] => Ok count
    | b :: l' => let* c := u8_incr count b in u8_count l' c
    end.

  (** [&ts[i..i + m]] with [i + m <= ts.len()]. *)
  Definition run (ts : list F) (m i : nat) : list F := firstn m (skipn i ts).

  (** distribution.rs:195-213 [phi] *)
  Definition phi (tol : F) (ts : list F) (m : nat) : result F :=
    let* d := usub (length ts) m in
    let win_len := (d + 1)%nat in
    let* counts :=
      rmap (fun i =>
              u8_count (map (fun j => run_match tol (run ts m i) (run ts m j))
                            (seq 0 win_len)) 0)
           (seq 0 win_len) in
    Ok (fold_left (fun cm c => cm + fln (fofN c / fofnat win_len)) counts #0
        / fofnat win_len).

  (** distribution.rs:216 and 266: default tolerance,
      [_std_dev(data, data.len()).last().unwrap() * 0.2].  [_std_dev] with a
      window equal to the whole length yields exactly one item (it panics on
      empty data: [windows(0)]). *)
  Definition entropy_tol (data : list F) (tolerance : option F) : result F :=
    match tolerance with
    | Some t => Ok t
    | None =>
        let* sd := std_dev_raw data (length data) in
        let* s := idx sd (length sd - 1) in
        Ok (s * flit 2 10)
    end.

  (** distribution.rs:189-222 [approx_entropy] *)
  Definition approx_entropy (data : list F) (window : nat)
    (run_length : option nat) (tolerance : option F) : result (list F) :=
    let run_length := unwrap_or run_length 2 in
    let* tol := entropy_tol data tolerance in
    let* k := usub window 1 in
    let* ws := rwindows window data in
    let* vs := rmap (fun w =>
                       let* a := phi tol w (run_length + 1) in
                       let* b := phi tol w run_length in
                       Ok (fabs (a - b))) ws in
    Ok (pad k fnan ++ vs).

  (** distribution.rs:251-252: the pairs [(i, j)] with [i < j < win_len], in loop
      order. *)
  Definition upper_pairs (n : nat) : list (nat * nat) :=
    flat_map (fun i => map (fun j => (i, j)) (seq (i + 1) (n - (i + 1)))) (seq 0 n).

  (** distribution.rs:248-263 [matches] *)
  Definition matches (tol : F) (ts : list F) (m : nat) : result F :=
    let* d := usub (length ts) m in
    let win_len := (d + 1)%nat in
    let* count :=
      u8_count (map (fun '(i, j) => run_match tol (run ts m i) (run ts m j))
                    (upper_pairs win_len)) 0 in
    Ok (#2 * fofN count + feps).

  (** distribution.rs:242-272 [sample_entropy] *)
  Definition sample_entropy (data : list F) (window : nat)
    (run_length : option nat) (tolerance : option F) : result (list F) :=
    let run_length := unwrap_or run_length 2 in
    let* tol := entropy_tol data tolerance in
    let* k := usub window 1 in
    let* ws := rwindows window data in
    let* vs := rmap (fun w =>
                       let* a := matches tol w (run_length + 1) in
                       let* b := matches tol w run_length in
                       Ok (- fln (a / b))) ws in
    Ok (pad k fnan ++ vs).

  (** ** Moments *)

  (** distribution.rs:300-307: body of the closure of [kurtosis]. *)
  Definition kurtosis_win (adj1 adj2 : F) (window : nat) (w : list F) : F :=
    let mean := win_mean window w in
    let k4 := fold_left (fun acc x => acc + powi4 (x - mean)) w #0 in
    let k2 := sum_dev2 mean w in
    adj1 * k4 / (k2 * k2) - adj2.

  (** distribution.rs:294-309 [kurtosis] *)
  Definition kurtosis (data : list F) (window : nat) : result (list F) :=
    let W := N.of_nat window in
    let* w1 := usubN W 1 in
    let* w2 := usubN W 2 in
    let* w3 := usubN W 3 in
    let* a := umul (W + 1) W in
    let* num := umul a w1 in
    let* den := umul w2 w3 in
    let adj1 := fofN num / fofN den in
    let* sq := umul w1 w1 in
    let adj2 := #3 * fofN sq / fofN den in
    let* k := usub window 1 in
    let* ws := rwindows window data in
    Ok (pad k fnan ++ map (kurtosis_win adj1 adj2 window) ws).

  (** distribution.rs:342-352: body of the closure of [skew]. *)
  Definition skew_win (window : nat) (w : list F) : result F :=
    let mean := win_mean window w in
    let m3 := fold_left (fun acc x => acc + powi3 (x - mean)) w #0 / fofnat window in
    let m2 := fpow (sum_dev2 mean w / fofnat window) (#3 / #2) in
    let* w1 := usubN (N.of_nat window) 1 in
    let* p := umul (N.of_nat window) w1 in
    let* w2 := usub window 2 in
    Ok (fsqrt (fofN p) / fofnat w2 * m3 / m2).

  (** distribution.rs:338-354 [skew] *)
  Definition skew (data : list F) (window : nat) : result (list F) :=
    let* k := usub window 1 in
    let* ws := rwindows window data in
    let* vs := rmap (skew_win window) ws in
    Ok (pad k fnan ++ vs).
End Distribution.

(** ** Selection *)

Section Select.
  Context {T : Type} (ltb : T -> T -> bool).

  (** [data.swap(i, j)]; panics when an index is out of range. *)
  Definition swap (l : list T) (i j : nat) : result (list T) :=
    let* a := idx l i in
    let* b := idx l j in
    Ok (upd (upd l i b) j a).

  (** distribution.rs:364-369: the loop [for j in lo..hi] of the Lomuto
      partition; [js] is the list of remaining [j]. *)
  Fixpoint lomuto (pivot : T) (js : list nat) (data : list T) (i : nat)
    : result (list T * nat) :=
    match js with
    | [] => Ok (data, i)
    | j :: js' =>
        let* x := idx data j in
        if ltb x pivot then
          let* data' := swap data i j in
          lomuto pivot js' data' (i + 1)
        else lomuto pivot js' data i
    end.

  (** distribution.rs:360-377: the [while lo < hi] loop.  [None] is "out of
      fuel": excluded by [quickselect_loop_terminates]. *)
  Fixpoint quickselect_loop (fuel : nat) (data : list T) (k lo hi : nat)
    : option (result (list T * T)) :=
    if lo <? hi then
      match fuel with
      | O => None
      | S fuel' =>
          match (let* pivot := idx data hi in
                 let* '(data1, i) := lomuto pivot (seq lo (hi - lo)) data lo in
                 let* data2 := swap data1 i hi in
                 Ok (data2, i)) with
          | Panic => Some Panic
          | Ok (data2, i) =>
              match Nat.compare i k with
              | Eq => Some (let* v := idx data2 k in Ok (data2, v))
              | Gt =>
                  match usub i 1 with
                  | Panic => Some Panic
                  | Ok hi' => quickselect_loop fuel' data2 k lo hi'
                  end
              | Lt => quickselect_loop fuel' data2 k (i + 1) hi
              end
          end
      end
    else Some (let* v := idx data k in Ok (data, v)).

  (** distribution.rs:356-379 [quickselect]: the permuted buffer and the value. *)
  Definition quickselect (data : list T) (k : nat) : result (list T * T) :=
    let* hi := usub (length data) 1 in
    match quickselect_loop (length data) data k 0 hi with
    | Some r => r
    | None => Panic
    end.
End Select.

Section Distribution2.
  Context {F : Type} {O : FOps F}.
  Local Open Scope F_scope.

  (** distribution.rs:420-435: body of the closure of [quantile].  The element
      type [T] is taken to be [f64]. *)
  Definition quantile_win (window : nat) (q : F) (w : list F) : result F :=
    let* w1 := usub window 1 in
    let pos := fofnat w1 * (fclamp_val q #0 #100 / #100) in
    if ffract pos =? #0 then
      let* '(_, v) := quickselect fltb w (N.to_nat (ftoN pos)) in
      Ok v
    else
      let* '(w', lower) := quickselect fltb w (N.to_nat (ftoN (ffloor pos))) in
      let* rest := slice_from w' (N.to_nat (ftoN (fceil pos))) in
      let upper := fold_left fmin rest fnan in
      Ok (lower * (fceil pos - pos) + upper * (pos - ffloor pos)).

  (** distribution.rs:412-437 [quantile] *)
  Definition quantile (data : list F) (window : nat) (q : F) : result (list F) :=
    let* k := usub window 1 in
    let* ws := rwindows window data in
    let* vs := rmap (quantile_win window q) ws in
    Ok (pad k fnan ++ vs).

  (** distribution.rs:393-398 [median] *)
  Definition median (data : list F) (window : nat) : result (list F) :=
    quantile data window #50.

  (** distribution.rs:439-455 [cov_stdev] (crate-private) *)
  Definition cov_stdev (x y : list F) : result (F * F * F) :=
    let x_avg := fold_left (fun acc v => acc + v) x #0 / fofnat (length x) in
    let y_avg := fold_left (fun acc v => acc + v) y #0 / fofnat (length y) in
    let* nx := usub (length x) 1 in
    let* ny := usub (length y) 1 in
    Ok (fold_left (fun acc '(xi, yi) => acc + (xi - x_avg) * (yi - y_avg))
                  (combine x y) #0 / fofnat nx,
        fsqrt (sum_dev2 x_avg x / fofnat nx),
        fsqrt (sum_dev2 y_avg y / fofnat ny)).

  (** ** Ranking *)

  (** distribution.rs:458-464 [RankMode] *)
  Inductive RankMode := RAverage | RDense | RMax | RMin | ROrdinal.

  (** What [sort_unstable_by] may return: some permutation of the indices that
      sorts the data.  [srt] is the choice made by the implementation. *)
  Definition sort_oracle := list F -> list nat.

  (** distribution.rs:471-477 [argsort]: [partial_cmp(..).unwrap()] panics when
      a NaN takes part in a comparison, i.e. when there are two elements or
      more and one is NaN. *)
  Definition argsort (srt : sort_oracle) (data : list F) : result (list nat) :=
    if (2 <=? length data)%nat && existsb fisnan data then Panic
    else Ok (srt data).

  (** distribution.rs:521, 575: [for_each(|(i, val)| result[val] = i)]. *)
  Definition scatter (n : nat) (ranks : list F) (indices : list nat) : list F :=
    fold_left (fun r '(v, i) => upd r i v) (combine ranks indices) (repeat #0 n).

  (** distribution.rs:524-532: [uniq_indices] *)
  Definition uniq_flags (sorted : list F) : result (list bool) :=
    match sorted with
    | [] => Panic
    | x1 :: rest => Ok (true :: scan (fun st x => (x, fneb st x)) x1 rest)
    end.

  (** distribution.rs:541-546: [counts], the positions of the [true] flags
      followed by the length. *)
  Definition flag_counts (flags : list bool) (n : nat) : list nat :=
    map fst (filter snd (enumerate flags)) ++ [n].

  (** distribution.rs:534-539: [Dense] ranks; the counter is an [i32]. *)
  Definition ranks_dense (flags : list bool) : result (list F) :=
    rscan (fun st (take : bool) =>
             let st' := if take then (st + 1)%N else st in
             if (st' <? 2 ^ 31)%N then Ok (st', fofN st') else Panic) 0%N flags.

  (** distribution.rs:549-554: [Average] ranks. *)
  Definition ranks_average (counts : list nat) (flags : list bool) : result (list F) :=
    rscan (fun st (take : bool) =>
             let st' := if take then (st + 1)%nat else st in
             let* hi := idx counts st' in
             let* p := usub st' 1 in
             let* lo := idx counts p in
             Ok (st', fofnat (1 + hi + lo) / #2)) 0%nat flags.

  (** distribution.rs:556-561: [Max] ranks. *)
  Definition ranks_max (counts : list nat) (flags : list bool) : result (list F) :=
    rscan (fun st (take : bool) =>
             let st' := if take then (st + 1)%nat else st in
             let* hi := idx counts st' in
             Ok (st', fofnat hi)) 0%nat flags.

  (** distribution.rs:564-573: [Min] ranks. *)
  Definition ranks_min (flags : list bool) : list F :=
    scan (fun st '(rank, take) =>
            let st' := if (take : bool) then rank else st in (st', fofnat st'))
         1%nat (combine (seq 1 (length flags)) flags).

  (** distribution.rs:510-579 [rank]; [None] selects [Min]. *)
  Definition rank (srt : sort_oracle) (data : list F) (mode : option RankMode)
    : result (list F) :=
    let n := length data in
    let* indices := argsort srt data in
    match mode with
    | Some ROrdinal => Ok (scatter n (map fofnat (seq 1 n)) indices)
    | _ =>
        let* sorted := rmap (idx data) indices in
        let* flags := uniq_flags sorted in
        let* ranks :=
          match mode with
          | Some RDense => ranks_dense flags
          | Some RAverage => ranks_average (flag_counts flags n) flags
          | Some RMax => ranks_max (flag_counts flags n) flags
          | _ => Ok (ranks_min flags)
          end in
        Ok (scatter n ranks indices)
    end.
End Distribution2.
Arguments sort_oracle : clear implicits.

(** A concrete, stable choice of the sort (insertion sort of the indices), used
    to run the model. *)
Section StableSort.
  Context {F : Type} {O : FOps F}.
  Fixpoint insert_idx (data : list F) (i : nat) (l : list nat) : list nat :=
    match l with
    | [] => [i]
    | j :: l' =>
        if fltb (at_ data i) (at_ data j) then i :: l else j :: insert_idx data i l'
    end.
  Definition stable_argsort (data : list F) : list nat :=
    fold_left (fun l i => insert_idx data i l) (seq 0 (length data)) [].
End StableSort.
