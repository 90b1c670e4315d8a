(** * Model of /repo/src/volatility.rs *)

From Verif Require Export Num Distribution Smooth.

Section Volatility.
  Context {F : Type} {O : FOps F}.
  Local Open Scope F_scope.

  (** volatility.rs:133-138, 338-343, 666-671, 724-727 and others:
      [fold(f64::NAN, max)] and [fold(f64::NAN, min)]. *)
  Definition max_of (l : list F) : F := fold_left fmax l fnan.
  Definition min_of (l : list F) : F := fold_left fmin l fnan.

  (** volatility.rs:47-51, 524-528: [high - low]. *)
  Definition hl_range (high low : list F) : list F :=
    map (fun '(h, l) => h - l) (combine high low).

  (** volatility.rs:40-66 [mass] *)
  Definition mass (high low : list F) (short long : nat) : result (list F) :=
    let* ma1 := ewma (hl_range high low) short in
    let* s1 := usub short 1 in
    let* t := slice_from ma1 s1 in
    let* ma2 := ewma t short in
    let* l1 := usub long 1 in
    let* ws := rwindows long (map (fun '(num, denom) => num / denom)
                                  (combine (skipn s1 ma1) ma2)) in
    Ok (pad (l1 + s1) fnan ++ map fsum ws).

  (** volatility.rs:124-142 [gri] *)
  Definition gri (high low : list F) (window : nat) : result (list F) :=
    let* k := usub window 1 in
    let* wh := rwindows window high in
    let* wl := rwindows window low in
    Ok (pad k fnan ++
        map (fun '(h, l) => fln (max_of h - min_of l) / fln (fofnat window))
            (combine wh wl)).

  (** volatility.rs:149-156: one true range. *)
  Definition tr_bar (h l prevc : F) : F :=
    fmax (fmax (h - l) (fabs (h - prevc))) (fabs (l - prevc)).

  (** volatility.rs:144-157 [_true_range] (crate-private) *)
  Definition true_range (high low close : list F) : result (list F) :=
    let* h := slice_from high 1 in
    let* l := slice_from low 1 in
    let* n1 := usub (length close) 1 in
    let* c := slice_to close n1 in
    Ok (map (fun '(h, l, prevc) => tr_bar h l prevc) (zip3 h l c)).

  (** volatility.rs:181-187 [tr] *)
  Definition tr (high low close : list F) : result (list F) :=
    let* t := true_range high low close in
    Ok (fnan :: t).

  (** volatility.rs:209-219 [atr] *)
  Definition atr (high low close : list F) (window : nat) : result (list F) :=
    let* t := true_range high low close in
    let* w := wilder t window in
    Ok (fnan :: w).

  (** volatility.rs:88-97 [keltner]: (middle, upper, lower) *)
  Definition keltner (high low close : list F) (window : nat)
    : result (list (F * F * F)) :=
    let* e := ewma close window in
    let* a := atr high low close window in
    Ok (map (fun '(middle, atr) => (middle, middle + #2 * atr, middle - #2 * atr))
            (combine e a)).

  (** volatility.rs:249-251: typical price of a bar. *)
  Definition hlc3 (high low close : list F) : list F :=
    map (fun '(h, l, c) => (h + l + c) / #3) (zip3 high low close).

  (** volatility.rs:241-257 [typical] *)
  Definition typical (high low close : list F) (window : nat) : result (list F) :=
    sma (hlc3 high low close) window.

  (** volatility.rs:273-280 [std_dev] *)
  Definition vstd_dev (data : list F) (window : nat) (deviations : option F)
    : result (list F) :=
    let devs := unwrap_or deviations #2 in
    let* s := std_dev data window in
    Ok (map (fun x => x * devs) s).

  (** volatility.rs:300-309 [bbands]: (upper, middle, lower) *)
  Definition bbands (data : list F) (window : nat) (deviations : option F)
    (mamode : option MaMode) : result (list (F * F * F)) :=
    let* m := ma data window (unwrap_or mamode EWMA) in
    let* s := vstd_dev data window deviations in
    Ok (map (fun '(ma, stdev) => (ma + stdev, ma, ma - stdev)) (combine m s)).

  (** volatility.rs:337-344: closure of [donchian]: (upper, middle, lower) *)
  Definition donchian_win (p : list F * list F) : F * F * F :=
    let hh := max_of (fst p) in
    let ll := min_of (snd p) in
    (hh, (hh + ll) / #2, ll).

  (** volatility.rs:330-346 [donchian] *)
  Definition donchian (high low : list F) (window : nat) : result (list (F * F * F)) :=
    let* k := usub window 1 in
    let* wh := rwindows window high in
    let* wl := rwindows window low in
    Ok (pad k (fnan, fnan, fnan) ++ map donchian_win (combine wh wl)).

  (** volatility.rs:376-386, 393-403: index of the first extreme of a window:
      later items win only when strictly beyond ([better]). *)
  Definition arg_first (better : F -> F -> bool) (w : list F) : nat :=
    fst (fold_left (fun '(bi, bx) '(i, x) => if better x bx then (i, x) else (bi, bx))
                   (enumerate w) (0%nat, at_ w 0)).

  (** volatility.rs:375-411: one step of [fbands]. *)
  Definition fbands_step (st : F * F) (p : list F * list F) : (F * F) * (F * F) :=
    let '(h, l) := p in
    let upper := if (arg_first fgtb h =? 2)%nat then at_ h 2 else fst st in
    let lower := if (arg_first fltb l =? 2)%nat then at_ l 2 else snd st in
    ((upper, lower), (upper, lower)).

  (** volatility.rs:367-414 [fbands] *)
  Definition fbands (high low : list F) : list (F * F) :=
    pad 4 (fnan, fnan) ++
    scan fbands_step (#0, #0) (combine (windows 5 high) (windows 5 low)).

  (** volatility.rs:445-447: logarithmic returns. *)
  Definition log_returns (data : list F) : list F :=
    map (fun w => fln (at_ w 1 / at_ w 0)) (windows 2 data).

  (** volatility.rs:449-453: closure of [hv]. *)
  Definition hv_win (annualize : F) (window : nat) (w : list F) : F :=
    let mean := fsum w / fofnat window in
    fsqrt (fsum (map (fun x => powi2 (x - mean)) w) * annualize / fofnat window).

  (** volatility.rs:438-456 [hv] *)
  Definition hv (data : list F) (window : nat) (deviations : option F) : result (list F) :=
    let annualize := #252 * unwrap_or deviations #1 in
    let* ws := rwindows window (log_returns data) in
    Ok (pad window fnan ++ map (hv_win annualize window) ws).

  (** volatility.rs:477-489 [starc]: (upper, lower) *)
  Definition starc (high low close : list F) (window ma_window : nat)
    (multiplier : option F) : result (list (F * F)) :=
    let multiplier := unwrap_or multiplier (flit 12 10) in
    let* a := atr high low close window in
    let* m := sma close ma_window in
    Ok (map (fun '(atr, ma) => (ma + multiplier * atr, ma - multiplier * atr))
            (combine a m)).

  (** volatility.rs:516-536 [cvi] *)
  Definition cvi (high low : list F) (window rate_of_change : nat) : result (list F) :=
    let* e := ewma (hl_range high low) window in
    Ok (pad rate_of_change fnan ++
        map (fun w => #100 * (last_ w / at_ w 0 - #1)) (windows (rate_of_change + 1) e)).

  (** volatility.rs:566-578: (gain, loss) volatility per bar. *)
  Definition rel_vol_pairs (close : list F) (window : nat) : result (list (F * F)) :=
    let* sd := std_dev_raw close window in
    let* w1 := usub window 1 in
    let* a := slice_from close w1 in
    let* w2 := usub window 2 in
    let* n1 := usub (length close) 1 in
    let* b := slice close w2 n1 in
    Ok (map (fun '(std, curr, prev) =>
               (fmax #0 (fsignum (curr - prev)) * std,
                fmax #0 (fsignum (prev - curr)) * std)) (zip3 sd a b)).

  (** volatility.rs:561-585 [relative_vol] *)
  Definition relative_vol (close : list F) (window smoothing : nat) : result (list F) :=
    let* ps := rel_vol_pairs close window in
    let* g := wilder (map fst ps) smoothing in
    let* l := wilder (map snd ps) smoothing in
    let* k := usub window 1 in
    Ok (pad k fnan ++ map (fun '(g, l) => #100 * g / (g + l)) (combine g l)).

  (** volatility.rs:612-623 [inertia] *)
  Definition inertia (close : list F) (window smoothing : nat) : result (list F) :=
    let* r := relative_vol close window window in
    lrf r smoothing.

  (** volatility.rs:651-677 [chop] *)
  Definition chop (high low close : list F) (window : nat) : result (list F) :=
    let* h1 := slice_from high 1 in
    let* l1 := slice_from low 1 in
    let* t := true_range high low close in
    let* wh := rwindows window h1 in
    let* wl := rwindows window l1 in
    let* wt := rwindows window t in
    Ok (pad window fnan ++
        map (fun '(h, l, tr) =>
               #100 * fln (fsum tr / (max_of h - min_of l)) / fln (fofnat window))
            (zip3 wh wl wt)).

  (** volatility.rs:710-716: absolute changes. *)
  Definition abs_diffs (close : list F) : list F :=
    map (fun p => fabs (at_ p 1 - at_ p 0)) (windows 2 close).

  (** volatility.rs:704-732 [vhf] *)
  Definition vhf (high low close : list F) (window : nat) : result (list F) :=
    let* wd := rwindows window (abs_diffs close) in
    let* wh := rwindows window high in
    let* wl := rwindows window low in
    Ok (pad window fnan ++
        map (fun '(diff, h, l) => (max_of h - min_of l) / fsum diff)
            (zip3 wd (skipn 1 wh) (skipn 1 wl))).

  (** volatility.rs:785-799: one step of [heikin_ashi]. *)
  Definition ha_step (st : F * F) (x : F * F * F * F) : (F * F) * (F * F * F * F) :=
    let '(prevo, prevc) := st in
    let '(o, h, l, c) := x in
    let c_i := (o + h + l + c) / #4 in
    let o_i := (prevo + prevc) / #2 in
    let h_i := fmax (fmax h o_i) c_i in
    let l_i := fmin (fmin l o_i) c_i in
    ((o_i, c_i), (o_i, h_i, l_i, c_i)).

  (** volatility.rs:760-801 [heikin_ashi]: (open, high, low, close) *)
  Definition heikin_ashi (open high low close : list F) : result (list (F * F * F * F)) :=
    let* o := idx open 0 in
    let* h := idx high 0 in
    let* l := idx low 0 in
    let* c := idx close 0 in
    let c_0 := (o + h + l + c) / #4 in
    let o_0 := (o + c) / #2 in
    let* os := slice_from open 1 in
    let* hs := slice_from high 1 in
    let* ls := slice_from low 1 in
    let* cs := slice_from close 1 in
    Ok ((o_0, h, l, c_0) :: scan ha_step (o_0, c_0) (zip4 os hs ls cs)).

  (** volatility.rs:823-831 [wcp] *)
  Definition wcp (high low close : list F) : list F :=
    map (fun '(h, l, c) => (h + l + #2 * c) / #4) (zip3 high low close).

  (** volatility.rs:865, 918: annualised root of a mean. *)
  Definition annual_win (window : nat) (w : list F) : F :=
    fsqrt (fsum w * #252 / fofnat window).

  (** volatility.rs:855-868 [cc_hv] *)
  Definition cc_hv (data : list F) (window : nat) : result (list F) :=
    let* ws := rwindows window (map (fun w => powi2 (fln (at_ w 1 / at_ w 0)))
                                    (windows 2 data)) in
    Ok (pad window fnan ++ map (annual_win window) ws).

  (** volatility.rs:905-915: Garman-Klass-Yang-Zhang term of a bar. *)
  Definition gkyz_bar (x : F * F * F * F * F) : F :=
    let '(o, h, l, c, c0) := x in
    powi2 (fln (o / c0)) + flit 5 10 * powi2 (fln (h / l))
    - (#2 * fln #2 - #1) * powi2 (fln (c / o)).

  (** volatility.rs:896-921 [gkyz_hv] *)
  Definition gkyz_hv (open high low close : list F) (window : nat) : result (list F) :=
    let* os := slice_from open 1 in
    let* hs := slice_from high 1 in
    let* ls := slice_from low 1 in
    let* cs := slice_from close 1 in
    let* ws := rwindows window (map gkyz_bar (zip5 os hs ls cs close)) in
    Ok (pad window fnan ++ map (annual_win window) ws).
End Volatility.
