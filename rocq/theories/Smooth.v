(** * Model of /repo/src/smooth.rs *)

From Verif Require Export Num Distribution.

Section Smooth.
  Context {F : Type} {O : FOps F}.
  Local Open Scope F_scope.

  (** smooth.rs:89-92: one step of [ewma]. *)
  Definition ewma_step (alpha : F) (state x : F) : F * F :=
    let s := x * alpha + state * (#1 - alpha) in (s, s).

  (** smooth.rs:79-94 [ewma] *)
  Definition ewma (data : list F) (window : nat) : result (list F) :=
    let* head := slice_to data window in
    let initial := fsum head / fofnat window in
    let alpha := #2 / fofnat (window + 1) in
    let* k := usub window 1 in
    let* rest := slice_from data window in
    Ok (pad k fnan ++ initial :: scan (ewma_step alpha) initial rest).

  (** smooth.rs:112: closure of [sma]. *)
  Definition sma_win (window : nat) (w : list F) : F := fsum w / fofnat window.

  (** smooth.rs:109-114 [sma] *)
  Definition sma (data : list F) (window : nat) : result (list F) :=
    let* k := usub window 1 in
    let* ws := rwindows window data in
    Ok (pad k fnan ++ map (sma_win window) ws).

  (** smooth.rs:134-140 [dema] *)
  Definition dema (data : list F) (window : nat) : result (list F) :=
    let* ma := ewma data window in
    let* k := usub window 1 in
    let* tl := slice_from ma k in
    let* mama := ewma tl window in
    Ok (map (fun '(ma1, ma2) => #2 * ma1 - ma2) (combine ma (pad k fnan ++ mama))).

  (** smooth.rs:160-170 [tema] *)
  Definition tema (data : list F) (window : nat) : result (list F) :=
    let* ma := ewma data window in
    let* k := usub window 1 in
    let* t1 := slice_from ma k in
    let* ma2 := ewma t1 window in
    let* t2 := slice_from ma2 k in
    let* ma3 := ewma t2 window in
    Ok (map (fun '(ma1, ma2, ma3) => #3 * ma1 - #3 * ma2 + ma3)
            (zip3 ma (pad k fnan ++ ma2) (pad (k * 2) fnan ++ ma3))).

  (** smooth.rs:191-194, 233-236, 693-696: weighted sum of a window. *)
  Definition dot (weights w : list F) : F :=
    fsum (map (fun '(value, weight) => value * weight) (combine w weights)).

  (** smooth.rs:186-187: the weights of [wma]; [window.pow(2)] overflows. *)
  Definition wma_weights (window : nat) : result (list F) :=
    let W := N.of_nat window in
    let* sq := umul W W in
    let* s := uadd sq W in
    let denom := fofN s / #2 in
    Ok (map (fun i => fofnat i / denom) (seq 1 window)).

  (** smooth.rs:185-196 [wma] *)
  Definition wma (data : list F) (window : nat) : result (list F) :=
    let* weights := wma_weights window in
    let* k := usub window 1 in
    let* ws := rwindows window data in
    Ok (pad k fnan ++ map (dot weights) ws).

  (** smooth.rs:220-225: one iteration of the loop building half a row of
      Pascal's triangle; [row] has [usize] entries. *)
  Definition pascal_step (n : nat) (st : list N * N) (i : nat) : result (list N * N) :=
    let '(row, denom) := st in
    let* k := usub i 1 in
    let* rk := idx row k in
    let* nk := usub n k in
    let* p := umul rk (N.of_nat nk) in
    let ri := (p / N.of_nat (k + 1))%N in
    let* _ := idx row i in
    let row1 := upd row i ri in
    let* ni := usub n i in
    let* _ := idx row1 ni in
    let row2 := upd row1 ni ri in
    let* d2 := umul ri 2 in
    let* denom' := uadd denom d2 in
    Ok (row2, denom').

  Fixpoint pascal_loop (n : nat) (is : list nat) (st : list N * N) : result (list N * N) :=
    match is with
    | [] => Ok st
    | i :: is' => let* st' := pascal_step n st i in pascal_loop n is' st'
    end.

  (** smooth.rs:217-228: the row and the denominator. *)
  Definition pascal_row (window : nat) : result (list N * N) :=
    let* n := usub window 1 in
    let* '(row, denom) := pascal_loop n (seq 1 (n / 2)) (repeat 1%N window, 2%N) in
    if (window mod 2 =? 1)%nat then
      let* m := idx row (n / 2) in
      let* d := usubN denom m in
      Ok (row, d)
    else Ok (row, denom).

  (** smooth.rs:216-238 [pwma] *)
  Definition pwma (data : list F) (window : nat) : result (list F) :=
    let* '(row, denom) := pascal_row window in
    let weights := map (fun i => fofN i / fofN denom) row in
    let* k := usub window 1 in
    let* ws := rwindows window data in
    Ok (pad k fnan ++ map (dot weights) ws).

  (** smooth.rs:266-269: one step of [wilder]. *)
  Definition wilder_step (window : nat) (state x : F) : F * F :=
    let s := (state * fofnat (window - 1) + x) / fofnat window in (s, s).

  (** smooth.rs:254-271 [wilder] *)
  Definition wilder (data : list F) (window : nat) : result (list F) :=
    if (window =? 1)%nat then Ok data
    else
      let* k := usub window 1 in
      let* head := slice_to data k in
      let initial := fsum head / fofnat k in
      let* rest := slice_from data k in
      Ok (pad k fnan ++ scan (wilder_step window) initial rest).

  (** smooth.rs:287-296 [hull] *)
  Definition hull (data : list F) (window : nat) : result (list F) :=
    let* ma := wma data window in
    let* ma2 := wma data (div_ceil2 window) in
    wma (map (fun '(x, y) => #2 * x - y) (combine ma2 ma))
        (N.to_nat (ftoN (ffloor (fsqrt (fofnat window))))).

  (** smooth.rs:325-328: one step of [vidya]. *)
  Definition vidya_step (alpha : F) (state : F) (p : F * F * F) : F * F :=
    let '(s20, s5, d) := p in
    let s := alpha * (s5 / s20) * (d - state) + state in (s, s).

  (** smooth.rs:312-333 [vidya] *)
  Definition vidya (data : list F) (window : nat) : result (list F) :=
    let alpha := #2 / fofnat (window + 1) in
    let* std5 := std_dev_raw data 5 in
    let* std20 := sma std5 20 in
    Ok (pad 23 fnan ++
        scan (vidya_step alpha) #0
             (zip3 (skipn 19 std20) (skipn 19 std5) (skipn 23 data))).

  (** smooth.rs:336-344: running gains and losses. *)
  Definition cmo_cum (data : list F) : list (F * F) :=
    (#0, #0) ::
    scan (fun '(g, l) w =>
            let prev := at_ w 0 in
            let curr := at_ w 1 in
            let gain := g + fmax #0 (curr - prev) in
            let loss := l + fmax #0 (prev - curr) in
            ((gain, loss), (gain, loss)))
         (#0, #0) (windows 2 data).

  (** smooth.rs:346-350: closure over [windows(window + 1)] of the running
      sums. *)
  Definition cmo_win (w : list (F * F)) : F :=
    let l := nth (length w - 1) w (fnan, fnan) in
    let f := nth 0 w (fnan, fnan) in
    let gain_sum := fst l - fst f in
    let loss_sum := snd l - snd f in
    (gain_sum - loss_sum) / (gain_sum + loss_sum).

  (** smooth.rs:335-353 [_cmo] (crate-private) *)
  Definition cmo_raw (data : list F) (window : nat) : list F :=
    map cmo_win (windows (window + 1) (cmo_cum data)).

  (** smooth.rs:374-377: one step of [vma]. *)
  Definition vma_step (alpha : F) (state : F) (p : F * F) : F * F :=
    let '(vi, d) := p in
    let s := alpha * fabs vi * (d - state) + state in (s, s).

  (** smooth.rs:368-380 [vma] *)
  Definition vma (data : list F) (window : nat) : result (list F) :=
    let alpha := #2 / fofnat (window + 1) in
    let cmo_win := 9%nat in
    let vi := cmo_raw data cmo_win in
    let m := Nat.max window cmo_win in
    Ok (pad m fnan ++
        skipn (m - cmo_win)
              (scan (vma_step alpha) #0 (combine vi (skipn cmo_win data)))).

  (** smooth.rs:407-415: closure of [lrf]. *)
  Definition lrf_win (x_sum x2_sum divisor : F) (window : nat) (indices w : list F) : F :=
    let '(y_sum, xy_sum) :=
      fold_left (fun '(ys, xys) '(count, val) => (ys + val, xys + count * val))
                (combine indices w) (#0, #0) in
    let m := (fofnat window * xy_sum - x_sum * y_sum) / divisor in
    let b := (y_sum * x2_sum - x_sum * xy_sum) / divisor in
    m * fofnat window + b.

  (** smooth.rs:398-417 [lrf] *)
  Definition lrf (data : list F) (window : nat) : result (list F) :=
    let* p := umul (N.of_nat window) (N.of_nat (window + 1)) in
    let x_sum := fofN p / #2 in
    let x2_sum := x_sum * fofnat (2 * window + 1) / #3 in
    let divisor := fofnat window * x2_sum - x_sum * x_sum in
    let indices := map fofnat (seq 1 window) in
    let* k := usub window 1 in
    let* ws := rwindows window data in
    Ok (pad k fnan ++ map (lrf_win x_sum x2_sum divisor window indices) ws).

  (** smooth.rs:432-438 [trima] *)
  Definition trima (data : list F) (window : nat) : result (list F) :=
    let win1 := div_ceil2 window in
    let win2 := if (window mod 2 =? 0)%nat then (win1 + 1)%nat else win1 in
    let* inner := sma data win1 in
    sma inner win2.

  (** smooth.rs:456-469 [zlma] *)
  Definition zlma (data : list F) (window : nat) : result (list F) :=
    let* w1 := usub window 1 in
    let lag := (w1 / 2)%nat in
    let* lagged := slice_from data lag in
    let* e := ewma (map (fun '(prev, curr) => #2 * curr - prev) (combine data lagged))
                   window in
    Ok (pad lag fnan ++ e).

  (** smooth.rs:495-499: the 256 weights of [kernel]. *)
  Definition kernel_weights (sigma : F) : list F :=
    let beta := #1 / (#2 * sigma * sigma) in
    map (fun x => fexp (- beta * fofnat (x * x))) (seq 0 256).

  (** smooth.rs:501-513, 584-590: accumulation of [sum] and [sumw]. *)
  Definition weighted_mean (weights vals : list F) : F :=
    let '(sum, sumw) :=
      fold_left (fun '(s, sw) '(w, v) => (s + w * v, sw + w))
                (combine weights vals) (#0, #0) in
    sum / sumw.

  (** smooth.rs:494-515 [kernel] *)
  Definition kernel (data : list F) (sigma : F) : result (list F) :=
    let weights := kernel_weights sigma in
    Ok (map (fun i =>
               weighted_mean weights
                 (firstn (Nat.min (i + 1) 255) (rev (firstn (i + 1) data))))
            (seq 0 (length data))).

  (** smooth.rs:544-551: one step of [kama]. *)
  Definition kama_step (short long : F) (state : F) (x : list F) : F * F :=
    let er := fabs (last_ x - at_ x 0)
              / fold_left (fun acc p => acc + fabs (at_ p 0 - at_ p 1)) (windows 2 x) #0 in
    let alpha := powi2 (er * (short - long) + long) in
    let s := alpha * (last_ x - state) + state in (s, s).

  (** smooth.rs:533-553 [kama] *)
  Definition kama (data : list F) (window : nat) (short long : option nat)
    : result (list F) :=
    let short := #2 / fofnat (unwrap_or short 2 + 1) in
    let long := #2 / fofnat (unwrap_or long 30 + 1) in
    let* k := usub window 1 in
    let* ws := rwindows window data in
    Ok (pad k fnan ++ scan (kama_step short long) #0 ws).

  (** smooth.rs:577-580: the weights of [alma]. *)
  Definition alma_weights (window : nat) (sigma mu : F) : list F :=
    map (fun x => fexp (flit (-1) 1 * powi2 (fofnat x - mu)
                        / (#2 * powi2 (fofnat window / sigma))))
        (seq 0 window).

  (** smooth.rs:571-592 [alma]; [data[i - idx]] is in range as
      [idx < window <= i < data.len()]. *)
  Definition alma (data : list F) (window : nat) (sigma : F) (mu : option F)
    : result (list F) :=
    let* k := usub window 1 in
    let mu := unwrap_or mu (flit 85 100) * fofnat k in
    let weights := alma_weights window sigma mu in
    Ok (pad window fnan ++
        map (fun i => weighted_mean weights (map (fun j => at_ data (i - j)) (seq 0 window)))
            (seq window (length data - window))).

  (** smooth.rs:614-618: one step of [mdma]. *)
  Definition mdma_step (window : nat) (state x : F) : F * F :=
    let s := state + (x - state) / (flit 6 10 * fofnat window * powi4 (x / state)) in (s, s).

  (** smooth.rs:610-620 [mdma] *)
  Definition mdma (data : list F) (window : nat) : result (list F) :=
    let* d0 := idx data 0 in
    let* rest := slice_from data 1 in
    Ok (d0 :: scan (mdma_step window) d0 rest).

  (** smooth.rs:651-658: one step of [hwma]. *)
  Definition hwma_step (alpha beta gamma : F) (st : F * F * F) (x : F) : (F * F * F) * F :=
    let '(s0, s1, s2) := st in
    let avg := (#1 - alpha) * (s0 + s1 + flit 5 10 * s2) + alpha * x in
    let trend := (#1 - beta) * (s1 + s2) + beta * (avg - s0) in
    let season := (#1 - gamma) * s2 + gamma * (trend - s1) in
    ((avg, trend, season), avg + trend + flit 5 10 * season).

  (** smooth.rs:640-659 [hwma]; the bounds of [clamp] are constants, so its
      assertion holds ([clamp_f64_ok] in MamaF64.v). *)
  Definition hwma (data : list F) (alpha beta gamma : option F) : result (list F) :=
    let alpha := fclamp_val (unwrap_or alpha (flit 2 10)) #0 #1 in
    let beta := fclamp_val (unwrap_or beta (flit 1 10)) #0 #1 in
    let gamma := fclamp_val (unwrap_or gamma (flit 1 10)) #0 #1 in
    let* d0 := idx data 0 in
    Ok (scan (hwma_step alpha beta gamma) (d0, #0, #0) data).

  (** smooth.rs:678-689: Fibonacci weights; the sequence is in [f64]. *)
  Definition fib_seq (m : nat) : list F :=
    #1 :: #1 :: scan (fun '(a, b) (_ : nat) => ((b, a + b), a + b)) (#1, #1) (seq 0 m).
  Definition fib_weights (m : nat) : list F :=
    let l := fib_seq m in
    let denom := fold_left (fun d x => d + x) (skipn 2 l) #2 in
    map (fun i => i / denom) l.

  (** smooth.rs:677-698 [fwma] *)
  Definition fwma (data : list F) (window : nat) : result (list F) :=
    let* m := usub window 2 in
    let weights := fib_weights m in
    let* k := usub window 1 in
    let* ws := rwindows window data in
    Ok (pad k fnan ++ map (dot weights) ws).

  (** smooth.rs:738-745: one step of the three-pole filter. *)
  Definition ssf3_step (a b c d : F) (st : F * F * F) (x : F) : (F * F * F) * F :=
    let '(s0, s1, s2) := st in
    let v := a * x + b * s2 + c * s1 + d * s0 in ((s1, s2, v), v).

  (** smooth.rs:755-758: one step of the two-pole filter. *)
  Definition ssf2_step (a b c : F) (st : F * F) (x : F) : (F * F) * F :=
    let '(s0, s1) := st in
    let v := a * x + b * s1 + c * s0 in ((s1, v), v).

  (** smooth.rs:717-761 [ssf] *)
  Definition ssf (data : list F) (window : nat) (tri_poles : option bool)
    : result (list F) :=
    if unwrap_or tri_poles false then
      let x := fpi / fofnat window in
      let y := fexp (- x) in
      let y2 := y * y in
      let z := #2 * y * fcos (fsqrt #3 * x) in
      let d := y2 * y2 in
      let c := - y2 * (#1 + z) in
      let b := y2 + z in
      let a := #1 - b - c - d in
      let* rest := slice_from data 3 in
      let* d0 := idx data 0 in
      let* d1 := idx data 1 in
      let* d2 := idx data 2 in
      Ok (pad 3 fnan ++ scan (ssf3_step a b c d) (d0, d1, d2) rest)
    else
      let x := fpi * fsqrt #2 / fofnat window in
      let y := fexp (- x) in
      let c := - y * y in
      let b := #2 * y * fcos x in
      let a := #1 - b - c in
      let* rest := slice_from data 2 in
      let* d0 := idx data 0 in
      let* d1 := idx data 1 in
      Ok (pad 2 fnan ++ scan (ssf2_step a b c) (d0, d1) rest).

  (** ** mama *)

  (** smooth.rs:791-797: the smoothed price. *)
  Definition mama_smooth (w : list F) : F :=
    (#4 * at_ w 3 + #3 * at_ w 2 + #2 * at_ w 1 + at_ w 0) / #10.

  (** smooth.rs:813-815, 822-824, 832, 835: the Hilbert transformer taps. *)
  Definition hilbert (x0 x2 x4 x6 tweak : F) : F :=
    ((flit 962 10000 * x0) + (flit 5769 10000 * x2) - (flit 5769 10000 * x4)
     - (flit 962 10000 * x6)) * tweak.

  (** [deque.pop_back(); deque.push_front(x)] on a deque of length 7. *)
  Definition push7 (x : F) (l : list F) : list F := x :: firstn 6 l.

  Record mama_state := {
    ms_mama : F; ms_fama : F; ms_period : F; ms_phase : F;
    ms_re : F; ms_im : F; ms_i2 : F; ms_q2 : F;
    ms_dtrend : list F; ms_i1q : list F; ms_q1q : list F
  }.
  Definition mama_init : mama_state :=
    {| ms_mama := #0; ms_fama := #0; ms_period := #0; ms_phase := #0;
       ms_re := #0; ms_im := #0; ms_i2 := #0; ms_q2 := #0;
       ms_dtrend := repeat #0 7; ms_i1q := repeat #0 7; ms_q1q := repeat #0 7 |}.

  (** smooth.rs:807-876: one step of [mama].  [sm[i]], [sm[i-2]], [sm[i-4]],
      [sm[i-6]] are in range for [6 <= i < data.len()]; the captured deques are
      part of the state.  The first [clamp] has computed bounds and can panic. *)
  Definition mama_step (fast slow : F) (sm data : list F) (s : mama_state) (i : nat)
    : result (mama_state * (F * F)) :=
    let tweak := flit 75 1000 * ms_period s + flit 54 100 in
    let dtrend := push7 (hilbert (at_ sm i) (at_ sm (i - 2)) (at_ sm (i - 4))
                                 (at_ sm (i - 6)) tweak) (ms_dtrend s) in
    let q1 := push7 (hilbert (at_ dtrend 0) (at_ dtrend 2) (at_ dtrend 4)
                             (at_ dtrend 6) tweak) (ms_q1q s) in
    let i1 := push7 (at_ dtrend 3) (ms_i1q s) in
    let ji := hilbert (at_ i1 0) (at_ i1 2) (at_ i1 4) (at_ i1 6) tweak in
    let jq := hilbert (at_ q1 0) (at_ q1 2) (at_ q1 4) (at_ q1 6) tweak in
    let i2 := flit 2 10 * (at_ i1 0 - jq) + (flit 8 10 * ms_i2 s) in
    let q2 := flit 2 10 * (at_ q1 0 + ji) + (flit 8 10 * ms_q2 s) in
    let re := flit 2 10 * ((i2 * ms_i2 s) + (q2 * ms_q2 s)) + (flit 8 10 * ms_re s) in
    let im := flit 2 10 * ((i2 * ms_q2 s) - (q2 * ms_i2 s)) + (flit 8 10 * ms_im s) in
    let pd0 := if fneb im #0 && fneb re #0 then #360 / fatan (im / re) else #0 in
    let* pd1 := fclamp pd0 (flit 67 100 * ms_period s) (flit 15 10 * ms_period s) in
    let pd2 := fclamp_val pd1 #6 #50 in
    let pd := (flit 2 10 * pd2) + (flit 8 10 * ms_period s) in
    let phase := if fneb (at_ i1 0) #0 then fatan (at_ q1 0 / at_ i1 0) else #0 in
    let delta_phase := fmax (ms_phase s - phase) #1 in
    let alpha := fmax (fast / delta_phase) slow in
    let mama := alpha * at_ data i + (#1 - alpha) * ms_mama s in
    let fama := flit 5 10 * alpha * mama + (#1 - flit 5 10 * alpha) * ms_fama s in
    Ok ({| ms_mama := mama; ms_fama := fama; ms_period := pd; ms_phase := phase;
           ms_re := re; ms_im := im; ms_i2 := i2; ms_q2 := q2;
           ms_dtrend := dtrend; ms_i1q := i1; ms_q1q := q1 |},
        (mama, fama)).

  (** smooth.rs:781-878 [mama] *)
  Definition mama (data : list F) (fast slow : option F) : result (list (F * F)) :=
    let fast := unwrap_or fast (flit 5 10) in
    let slow := unwrap_or slow (flit 5 100) in
    let sm := pad 3 #0 ++ map mama_smooth (windows 4 data) in
    let* vs := rscan (mama_step fast slow sm data) mama_init (seq 6 (length data - 6)) in
    Ok (pad 6 (fnan, fnan) ++ vs).

  (** smooth.rs:897-923 [t3] *)
  Definition t3 (data : list F) (window : nat) (factor : option F) : result (list F) :=
    let factor := fclamp_val (unwrap_or factor (flit 7 10)) #0 #1 in
    let* ma := ewma data window in
    let* k := usub window 1 in
    let* u1 := slice_from ma k in
    let* ma2 := ewma u1 window in
    let* u2 := slice_from ma2 k in
    let* ma3 := ewma u2 window in
    let* u3 := slice_from ma3 k in
    let* ma4 := ewma u3 window in
    let* u4 := slice_from ma4 k in
    let* ma5 := ewma u4 window in
    let* u5 := slice_from ma5 k in
    let* ma6 := ewma u5 window in
    let c1 := - powi3 factor in
    let c2 := #3 * powi2 factor + #3 * powi3 factor in
    let c3 := flit (-3) 1 * factor - #6 * powi2 factor - #3 * powi3 factor in
    let c4 := #1 + #3 * factor + #3 * powi2 factor + powi3 factor in
    Ok (pad (k * 2) fnan ++
        map (fun '(e3, e4, e5, e6) => c1 * e6 + c2 * e5 + c3 * e4 + c4 * e3)
            (zip4 ma3 (pad k fnan ++ ma4) (pad (k * 2) fnan ++ ma5)
                  (pad (k * 3) fnan ++ ma6))).

  (** smooth.rs:957-976: one step of [frama]. *)
  Definition frama_step (window : nat) (state : F) (w : list F) : F * F :=
    let mid := (window / 2)%nat in
    let '(hh1, ll1, hh2, ll2) :=
      fold_left (fun '(hh1, ll1, hh2, ll2) '(x1, x2) =>
                   (fmax hh1 x1, fmin ll1 x1, fmax hh2 x2, fmin ll2 x2))
                (combine (firstn mid w) (firstn mid (rev w)))
                (fminval, fmaxval, fminval, fmaxval) in
    let n1 := (hh1 - ll1) / fofnat mid in
    let n2 := (hh2 - ll2) / fofnat mid in
    let n3 := (fmax hh1 hh2 - fmin ll1 ll2) / fofnat window in
    let d := (fln (n1 + n2) - fln n3) / fln #2 in
    let alpha := fclamp_val (fexp (flit (-46) 10 * (d - #1))) (flit 1 100) #1 in
    let s := alpha * last_ w + (#1 - alpha) * state in (s, s).

  (** smooth.rs:947-977 [frama]: [Ok None] stands for the [Err] returned on an
      odd window. *)
  Definition frama (data : list F) (window : nat) : result (option (list F)) :=
    if negb (window mod 2 =? 0)%nat then Ok None
    else
      let* k := usub window 1 in
      let* ws := rwindows window data in
      Ok (Some (pad k fnan ++ scan (frama_step window) #0 ws)).

  (** smooth.rs:18-32 [MaMode] *)
  Inductive MaMode :=
  | SMA | EWMA | DEMA | TEMA | WMA | Hull | LinReg | Pascal | Triangle
  | Variable_ | Vidya | Wilder | ZeroLag.

  (** smooth.rs:43-63 [ma] *)
  Definition ma (data : list F) (window : nat) (mamode : MaMode) : result (list F) :=
    match mamode with
    | SMA => sma data window
    | EWMA => ewma data window
    | DEMA => dema data window
    | TEMA => tema data window
    | WMA => wma data window
    | Hull => hull data window
    | LinReg => lrf data window
    | Pascal => pwma data window
    | Triangle => trima data window
    | Variable_ => vma data window
    | Vidya => vidya data window
    | Wilder => wilder data window
    | ZeroLag => zlma data window
    end.
End Smooth.
