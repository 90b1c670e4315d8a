(** * Model of /repo/src/trend.rs *)

From Verif Require Export Num Distribution Smooth Volatility.

Section Trend.
  Context {F : Type} {O : FOps F}.
  Local Open Scope F_scope.

  (** momentum.rs:557-571: one value of the swing index. *)
  Definition swing_bar (limit prevo o h l prevc c : F) : F :=
    let r1 := fabs (h - prevc) in
    let r2 := fabs (l - prevc) in
    let r3 := h - l in
    let r4 := fabs (prevc - prevo) / #4 in
    let max_r := fmax (fmax r1 r2) r3 in
    let r := if r1 =? max_r then r1 - r2 / #2 + r4
             else if r2 =? max_r then r2 - r1 / #2 + r4
             else r3 + r4 in
    ((c - prevc + (c - o) / #2 + (prevc - prevo) / #4) / r) * #50 * fmax r1 r2 / limit.

  (** momentum.rs:532-573 [_swing] (crate-private, used by [si] and [asi]) *)
  Definition swing (open high low close : list F) (limit : F) : result (list F) :=
    let* no := usub (length open) 1 in
    let* prevo := slice_to open no in
    let* o := slice_from open 1 in
    let* h := slice_from high 1 in
    let* l := slice_from low 1 in
    let* nc := usub (length close) 1 in
    let* prevc := slice_to close nc in
    let* c := slice_from close 1 in
    Ok (map (fun '(prevo, o, h, l, prevc, c) => swing_bar limit prevo o h l prevc c)
            (zip6 prevo o h l prevc c)).

  (** trend.rs:65, 72: the Shinohara ratio. *)
  Definition shinohara_ratio (h l c : F) : F := #100 * (h - c) / (c - l).

  (** trend.rs:45-78 [shinohara]: (strong, weak) *)
  Definition shinohara (high low close : list F) (window : nat)
    : result (list (F * F)) :=
    let* wh := rwindows window high in
    let* wl := rwindows window low in
    let* wc := rwindows window close in
    let high_win := map fsum wh in
    let low_win := map fsum wl in
    let close_win := map fsum wc in
    let weak := map (fun '(h, l, c) => shinohara_ratio h l c)
                    (zip3 high_win low_win close_win) in
    let* h1 := slice_from high_win 1 in
    let* l1 := slice_from low_win 1 in
    let* nc := usub (length close_win) 1 in
    let* c0 := slice_to close_win nc in
    let strong := map (fun '(h, l, c) => shinohara_ratio h l c) (zip3 h1 l1 c0) in
    let* k := usub window 1 in
    Ok (combine (pad window fnan ++ strong) (pad k fnan ++ weak)).

  (** trend.rs:115-120, 196-201: the five zipped slices of [adx] and [vortex]:
      (previous high, high, previous low, low, previous close). *)
  Definition bar_pairs (high low close : list F) : result (list (F * F * F * F * F)) :=
    let* nh := usub (length high) 1 in
    let* h0 := slice_to high nh in
    let* h1 := slice_from high 1 in
    let* nl := usub (length low) 1 in
    let* l0 := slice_to low nl in
    let* l1 := slice_from low 1 in
    let* nc := usub (length close) 1 in
    let* c0 := slice_to close nc in
    Ok (zip5 h0 h1 l0 l1 c0).

  (** trend.rs:129-133 and 134-138: directional movement. *)
  Definition dm_pos (x : F * F * F * F * F) : F :=
    let '(prevh, h, prevl, l, _) := x in
    if fgtb (h - prevh) (prevl - l) then fmax #0 (h - prevh) else #0.
  Definition dm_neg (x : F * F * F * F * F) : F :=
    let '(prevh, h, prevl, l, _) := x in
    if fgtb (prevl - l) (h - prevh) then fmax #0 (prevl - l) else #0.
  (** trend.rs:139, 212: true range. *)
  Definition bar_tr (x : F * F * F * F * F) : F :=
    let '(_, h, _, l, prevc) := x in tr_bar h l prevc.

  (** trend.rs:145, 148 *)
  Definition di_ratio (p : F * F) : F := let '(di, tr) := p in di / tr * #100.
  (** trend.rs:151 *)
  Definition dx_ratio (p : F * F) : F :=
    let '(pos, neg) := p in fabs (pos - neg) / (pos + neg) * #100.

  (** trend.rs:106-160 [adx]: (di+, di-, adx) *)
  Definition adx (high low close : list F) (window smoothing : nat)
    : result (list (F * F * F)) :=
    let* bars := bar_pairs high low close in
    let* atr := wilder (map bar_tr bars) window in
    let* wp := wilder (map dm_pos bars) window in
    let di_pos := map di_ratio (combine wp atr) in
    let* wn := wilder (map dm_neg bars) window in
    let di_neg := map di_ratio (combine wn atr) in
    let* k := usub window 1 in
    let* dp := slice_from di_pos k in
    let* dn := slice_from di_neg k in
    let dx := map dx_ratio (combine dp dn) in
    let* a := wilder dx smoothing in
    Ok ((fnan, fnan, fnan) :: zip3 di_pos di_neg (pad k fnan ++ a)).

  (** trend.rs:210-213 *)
  Definition vortex_bar (x : F * F * F * F * F) : F * F * F :=
    let '(prevh, h, prevl, l, prevc) := x in
    (fabs (h - prevl), fabs (l - prevh), tr_bar h l prevc).

  (** trend.rs:217-226: closure of [vortex]; [reduce] starts from the first
      item; the window is never empty. *)
  Definition vortex_win (w : list (F * F * F)) : F * F :=
    let '(p, n, t) :=
      match w with
      | [] => (fnan, fnan, fnan)
      | a :: w' => fold_left (fun '(ap, an, at') '(p, n, t) => (ap + p, an + n, at' + t))
                             w' a
      end in
    (p / t, n / t).

  (** trend.rs:188-229 [vortex]: (vi+, vi-) *)
  Definition vortex (high low close : list F) (window : nat) : result (list (F * F)) :=
    let* bars := bar_pairs high low close in
    let* ws := rwindows window (map vortex_bar bars) in
    Ok (pad window (fnan, fnan) ++ map vortex_win ws).

  (** trend.rs:264-267: one step of [asi]. *)
  Definition acc_step (acc x : F) : F * F := let s := acc + x in (s, s).

  (** trend.rs:257-268 [asi] *)
  Definition asi (open high low close : list F) (limit : F) : result (list F) :=
    let* s := swing open high low close limit in
    Ok (fnan :: scan acc_step #0 s).

  (** trend.rs:303 *)
  Definition ulcer_dd (p : F * F) : F :=
    let '(high, c) := p in powi2 (#100 * (c - high) / high).

  (** trend.rs:294-310 [ulcer] *)
  Definition ulcer (data : list F) (window : nat) : result (list F) :=
    let* ws := rwindows window data in
    let* k := usub window 1 in
    let* m := sma (map ulcer_dd (combine (map max_of ws) (skipn k data))) window in
    Ok (pad k fnan ++ map fsqrt m).

  (** trend.rs:349: [f64::MIN_POSITIVE] = 2^-1022 *)
  Definition fminpos : F := flit 1 (2 ^ 1022)%positive.

  (** trend.rs:350-378: one step of [supertrend]; the state is (previous lower
      band, previous upper band, previous close, direction is up). *)
  Definition supertrend_step (multiplier : F) (st : F * F * F * bool) (x : F * F * F * F)
    : (F * F * F * bool) * F :=
    let '(prevlower, prevupper, prevc, prevdir) := st in
    let '(h, l, c, tr) := x in
    let lower0 := (h + l) / #2 - multiplier * tr in
    let upper0 := (h + l) / #2 + multiplier * tr in
    let lower := if fgtb prevc prevlower && fgtb prevlower lower0 then prevlower else lower0 in
    let upper := if (prevc <? prevupper) && (prevupper <? upper0) then prevupper else upper0 in
    let dir := if fgtb c prevupper then true
               else if c <? prevlower then false else prevdir in
    ((lower, upper, c, dir), if dir then lower else upper).

  (** trend.rs:337-382 [supertrend] *)
  Definition supertrend (high low close : list F) (window : nat) (multiplier : F)
    : result (list F) :=
    let* a := atr high low close window in
    Ok (scan (supertrend_step multiplier) (fnan, fnan, fminpos, true)
             (zip4 high low close a)).

  (** trend.rs:433-440: one iteration of the loop of [rwi]; the state is
      (rwi_high, rwi_low, tr_sum). *)
  Definition rwi_step (window : nat) (h l tr : list F) (st : F * F * F) (i : nat)
    : F * F * F :=
    let '(rh, rl, ts) := st in
    let ts' := ts + at_ tr (window - i) in
    let denom := (ts' / fofnat (i - 1)) * fsqrt (fofnat (i - 1)) in
    (fmax rh ((at_ h (window - 1) - at_ l (window - i)) / denom),
     fmax rl ((at_ h (window - i) - at_ l (window - 1)) / denom),
     ts').

  (** trend.rs:428-443: closure of [rwi]. *)
  Definition rwi_win (window : nat) (p : list F * list F * list F) : F * F :=
    let '(h, l, tr) := p in
    let '(rh, rl, _) := fold_left (rwi_step window h l tr) (seq 2 (window - 1)) (#0, #0, #0) in
    (rh, rl).

  (** trend.rs:413-446 [rwi] *)
  Definition rwi (high low close : list F) (window : nat) : result (list (F * F)) :=
    let* h1 := slice_from high 1 in
    let* wh := rwindows window h1 in
    let* l1 := slice_from low 1 in
    let* wl := rwindows window l1 in
    let* t := true_range high low close in
    let* wt := rwindows window t in
    Ok (pad window (fnan, fnan) ++ map (rwi_win window) (zip3 wh wl wt)).

  (** trend.rs:479-485: the local variables of [psar]. *)
  Record psar_state := mk_psar { ps_af : F; ps_fall : bool; ps_sar : F; ps_ep : F }.

  (** trend.rs:488-526: body of the loop of [psar] at index [i], with
      [hp = high[max(i,1)-1]], [hn = high[i+1]] and the same for [low]. *)
  Definition psar_body (af_inc af_max : F) (st : psar_state) (hp hn lp ln : F)
    : psar_state :=
    let '(mk_psar af fall sar ep) := st in
    let sar1 := sar + af * (ep - sar) in
    let '(flip, ep1, af1, sar2) :=
      if fall then
        (fgtb hn sar1,
         (if ln <? ep then ln else ep),
         (if ln <? ep then fmin (af + af_inc) af_max else af),
         fmax (fmax hp hn) sar1)
      else
        (ln <? sar1,
         (if fgtb hn ep then hn else ep),
         (if fgtb hn ep then fmin (af + af_inc) af_max else af),
         fmin (fmin lp ln) sar1) in
    if (flip : bool)
    then mk_psar af_inc (negb fall) ep1 (if negb fall then ln else hn)
    else mk_psar af1 fall sar2 ep1.

  (** trend.rs:487-528: iteration [i] with the index checks ([low] is indexed
      by a range taken from [high]). *)
  Definition psar_step (af_inc af_max : F) (high low : list F) (st : psar_state) (i : nat)
    : result (psar_state * F) :=
    let* hn := idx high (i + 1) in
    let* ln := idx low (i + 1) in
    let* hp := idx high (Nat.max i 1 - 1) in
    let* lp := idx low (Nat.max i 1 - 1) in
    let st' := psar_body af_inc af_max st hp hn lp ln in
    Ok (st', ps_sar st').

  (** trend.rs:472-530 [psar] *)
  Definition psar (high low : list F) (af af_max : option F) : result (list F) :=
    let af_inc := unwrap_or af (flit 2 100) in
    let afm := unwrap_or af_max (flit 2 10) in
    let* h0 := idx high 0 in
    let* l0 := idx low 0 in
    let* n1 := usub (length high) 1 in
    let* r := rscan (psar_step af_inc afm high low) (mk_psar af_inc true h0 l0) (seq 0 n1) in
    Ok (fnan :: r).

  (** trend.rs:551-564 [dpo] *)
  Definition dpo (data : list F) (window : nat) (mamode : option MaMode)
    : result (list F) :=
    let* m := ma data window (unwrap_or mamode SMA) in
    let lag := (window / 2 + 1)%nat in
    let* k := usub window 1 in
    let* a := usub window lag in
    let* b := usub a 1 in
    let* d := slice_from data b in
    Ok (pad k fnan ++ map (fun '(x, y) => x - y) (combine d (skipn k m))).

  (** trend.rs:599-618: index of the last extreme of a window: a later item
      wins when it is at least as extreme ([better]). *)
  Definition arg_last (better : F -> F -> bool) (w : list F) : nat :=
    fst (fold_left (fun '(bi, bx) '(i, x) => if better x bx then (i, x) else (bi, bx))
                   (enumerate w) (0%nat, at_ w 0)).

  (** trend.rs:598-623: closure of [aroon]. *)
  Definition aroon_win (window : nat) (p : list F * list F) : F * F :=
    let '(h, l) := p in
    (fofnat (arg_last fgeb h) / fofnat window * #100,
     fofnat (arg_last fleb l) / fofnat window * #100).

  (** trend.rs:590-625 [aroon]: (up, down) *)
  Definition aroon (high low : list F) (window : nat) : result (list (F * F)) :=
    Ok (pad window (fnan, fnan) ++
        map (aroon_win window)
            (combine (windows (window + 1) high) (windows (window + 1) low))).

  (** trend.rs:668-676, 850-859: closure of [chandelier] and of the first pass
      of [cks]. *)
  Definition stop_win (multiplier : F) (p : list F * list F * F) : F * F :=
    let '(h, l, a) := p in (max_of h - multiplier * a, min_of l + multiplier * a).

  (** trend.rs:654-678 [chandelier]: (long exit, short exit) *)
  Definition chandelier (high low close : list F) (window : nat) (multiplier : option F)
    : result (list (F * F)) :=
    let m := unwrap_or multiplier #3 in
    let* wh := rwindows window high in
    let* wl := rwindows window low in
    let* a := atr high low close window in
    Ok (pad window (fnan, fnan) ++
        map (stop_win m) (zip3 (skipn 1 wh) (skipn 1 wl) (skipn window a))).

  (** trend.rs:710-713: the mutable locals of [zigzag]. *)
  Record zz_state := mk_zz { zz_res : list F; zz_start : nat * F; zz_end : nat * F }.

  (** trend.rs:717-736: the search for the initial trend; [idxs] are the
      indices still to be visited. *)
  Fixpoint zz_init (distance : F) (high low : list F) (st : zz_state) (idxs : list nat)
    : result zz_state :=
    match idxs with
    | [] => Ok st
    | i :: rest =>
        let* h0 := idx high 0 in
        let* li := idx low i in
        if fgeb ((h0 - li) / h0 * #100) distance
        then Ok (mk_zz (upd (zz_res st) 0 h0) (0%nat, h0) (i, li))
        else
          let* hi := idx high i in
          let* l0 := idx low 0 in
          if fgeb ((hi - l0) / l0 * #100) distance
          then Ok (mk_zz (upd (zz_res st) 0 l0) (0%nat, l0) (i, hi))
          else zz_init distance high low st rest
    end.

  (** trend.rs:741-761: body of the main loop of [zigzag]. *)
  Definition zz_step (distance : F) (high low : list F) (st : zz_state) (i : nat)
    : result zz_state :=
    let '(mk_zz res start end_) := st in
    let* hi := idx high i in
    if fgtb (snd end_) (snd start) && fgtb hi (snd end_)
    then Ok (mk_zz res start (i, hi))
    else if (snd end_ <? snd start) && fgeb ((hi - snd end_) / hi * #100) distance
    then Ok (mk_zz (upd res (fst end_) (snd end_)) end_ (i, hi))
    else
      let reversal :=
        if fgtb (snd end_) (snd start) then
          let* li := idx low i in
          if fgeb ((snd end_ - li) / li * #100) distance
          then Ok (mk_zz (upd res (fst end_) (snd end_)) end_ (i, li))
          else Ok st
        else Ok st in
      if snd end_ <? snd start then
        let* li := idx low i in
        if li <? snd end_ then Ok (mk_zz res start (i, li)) else reversal
      else reversal.

  (** trend.rs:740-762: the main loop of [zigzag]. *)
  Fixpoint zz_loop (distance : F) (high low : list F) (st : zz_state) (idxs : list nat)
    : result zz_state :=
    match idxs with
    | [] => Ok st
    | i :: rest =>
        let* st' := zz_step distance high low st i in
        zz_loop distance high low st' rest
    end.

  (** trend.rs:704-775 [zigzag] *)
  Definition zigzag (high low : list F) (distance : option F) : result (list F) :=
    let d := unwrap_or distance #5 in
    let n := length high in
    let* l0 := idx low 0 in
    let* n1 := usub n 1 in
    let* hl := idx high n1 in
    let st0 := mk_zz (upd (repeat fnan n) 0 l0) (0%nat, l0) (n1, hl) in
    let* st1 := zz_init d high low st0 (seq 1 (n - 1)) in
    let* st2 := if (fst (zz_end st1) <? n1)%nat
                then zz_loop d high low st1
                       (seq (fst (zz_end st1)) (n - fst (zz_end st1)))
                else Ok st1 in
    let* rl := idx (zz_res st2) n1 in
    if fisnan rl then
      if fgtb (snd (zz_start st2)) (snd (zz_end st2))
      then Ok (upd (zz_res st2) n1 hl)
      else let* ll := idx low (length low - 1) in Ok (upd (zz_res st2) n1 ll)
    else Ok (zz_res st2).

  (** trend.rs:800-805: one step of [decay]. *)
  Definition decay_step (window : nat) (state x : F) : F * F :=
    let s := fmax (fmax (state - #1 / fofnat window) x) #0 in (s, s).

  (** trend.rs:799-806 [decay] *)
  Definition decay (data : list F) (window : nat) : result (list F) :=
    Ok (scan (decay_step window) #0 data).

  (** trend.rs:862-870: closure of the second pass of [cks]. *)
  Definition cks_win (w : list (F * F)) : F * F :=
    fold_left (fun '(hh, ll) '(h, l) => (fmax hh h, fmin ll l)) w (#0, fmaxval).

  (** trend.rs:833-873 [cks] *)
  Definition cks (high low close : list F) (win1 win2 : nat) (multiplier : option F)
    : result (list (F * F)) :=
    let m := unwrap_or multiplier #1 in
    let* k2 := usub win2 1 in
    let* h1 := slice_from high 1 in
    let* wh := rwindows win1 h1 in
    let* l1 := slice_from low 1 in
    let* wl := rwindows win1 l1 in
    let* a := atr high low close win1 in
    let* ws := rwindows win2 (map (stop_win m) (zip3 wh wl (skipn win1 a))) in
    Ok (pad (win1 + k2) (fnan, fnan) ++ map cks_win ws).

  (** trend.rs:913-934: one step of [atr_stop]; the state is (uptrend, previous
      band). *)
  Definition atr_stop_step (window : nat) (multiplier : F) (st : bool * F)
    (x : list F * F) : (bool * F) * F :=
    let '(up, prev) := st in
    let '(cw, a) := x in
    let c := at_ cw (window - 1) in
    let upper := c + multiplier * a in
    let lower := c - multiplier * a in
    let st' :=
      if up then
        let band := fmax prev lower in
        if c <? band then (false, upper) else (up, band)
      else
        let band := fmin prev upper in
        if fgtb c band then (true, lower) else (up, band) in
    (st', snd st').

  (** trend.rs:899-936 [atr_stop] *)
  Definition atr_stop (high low close : list F) (window : nat) (multiplier : option F)
    : result (list F) :=
    let m := unwrap_or multiplier #3 in
    let* wc := rwindows window close in
    let* a := atr high low close window in
    Ok (pad window fnan ++
        scan (atr_stop_step window m) (true, #0) (combine (skipn 1 wc) (skipn window a))).

  (** trend.rs:973-984: one displaced line of [alligator]. *)
  Definition displaced (data : list F) (win offset max_offset : nat) : result (list F) :=
    let* w := wilder data win in
    Ok (pad offset fnan ++ w ++ pad (max_offset - offset) fnan).

  (** trend.rs:963-986 [alligator]: (jaw, teeth, lips) *)
  Definition alligator (data : list F)
    (jaw_win jaw_offset teeth_win teeth_offset lips_win lips_offset : nat)
    : result (list (F * F * F)) :=
    let mo := Nat.max (Nat.max jaw_offset teeth_offset) lips_offset in
    let* jaw := displaced data jaw_win jaw_offset mo in
    let* teeth := displaced data teeth_win teeth_offset mo in
    let* lips := displaced data lips_win lips_offset mo in
    Ok (zip3 jaw teeth lips).

  (** trend.rs:1026-1034, 1042-1050, 1056-1064: midpoints of the windows. *)
  Definition midpoints (high low : list F) (window : nat) : result (list F) :=
    let* wh := rwindows window high in
    let* wl := rwindows window low in
    Ok (map (fun '(h, l) => (max_of h + min_of l) / #2) (combine wh wl)).

  (** trend.rs:1012-1086 [ichimoku]: (conversion, base, lead a, lead b, lag) *)
  Definition ichimoku (high low close : list F)
    (conversion_win base_win lead_win lag_win : nat)
    : result (list (F * F * F * F * F)) :=
    let* kc := usub conversion_win 1 in
    let* cm := midpoints high low conversion_win in
    let c_line := pad kc fnan ++ cm in
    let* kb := usub base_win 1 in
    let* bm := midpoints high low base_win in
    let b_line := pad kb fnan ++ bm in
    let* kl := usub lead_win 1 in
    let* lm := midpoints high low lead_win in
    let lead_b := pad (kl + base_win) fnan ++ lm in
    let lead_a := pad base_win fnan ++
                  map (fun '(c, b) => (c + b) / #2) (combine c_line b_line) in
    let lag := skipn lag_win close ++ pad (lag_win + base_win) fnan in
    Ok (zip5 (c_line ++ pad base_win fnan) (b_line ++ pad base_win fnan) lead_a lead_b lag).

  (** trend.rs:1094-1100: loop of [hurst_rs]; state (max_z, min_z, cumulative
      deviation, squared deviation). *)
  Definition hurst_step (avg : F) (st : F * F * F * F) (x : F) : F * F * F * F :=
    let '(max_z, min_z, cum, var) := st in
    let dev := x - avg in
    let cum' := cum + dev in
    (fmax max_z cum', fmin min_z cum', cum', var + dev * dev).

  (** trend.rs:1088-1105 [hurst_rs] (the chunk is never empty) *)
  Definition hurst_rs (data : list F) : F :=
    let avg := fsum data / fofnat (length data) in
    let '(max_z, min_z, _, var) :=
      fold_left (hurst_step avg) data (fminval, fmaxval, #0, #0) in
    (max_z - min_z) / fsqrt (var / fofnat (length data - 1)).

  (** trend.rs:1107-1117 [linreg] *)
  Definition linreg (x y : list F) : F :=
    let x_avg := fold_left fadd x #0 / fofnat (length x) in
    let y_avg := fold_left fadd y #0 / fofnat (length y) in
    let '(covar, var) :=
      fold_left (fun '(cv, v) '(xi, yi) =>
                   (cv + (xi - x_avg) * (yi - y_avg), v + powi2 (xi - x_avg)))
                (combine x y) (#0, #0) in
    covar / var.

  (** trend.rs:1156-1163: the sub-window sizes.  The Rust loop has no bound;
      [None] means that it is still running after [fuel] iterations. *)
  Fixpoint hurst_sizes (fuel : nat) (window : nat) (win : F) : option (list N) :=
    match fuel with
    | 0%nat => None
    | S fuel' =>
        let win_size := ftoN (fpow #10 win) in
        if (N.of_nat window <=? win_size)%N then Some []
        else match hurst_sizes fuel' window (win + flit 25 100) with
             | None => None
             | Some r => Some (win_size :: r)
             end
    end.

  (** [w.chunks_exact(x)] for [x > 0]. *)
  Definition chunks_exact {A} (x : nat) (w : list A) : list (list A) :=
    map (fun j => firstn x (skipn (j * x) w)) (seq 0 (length w / x)).

  (** trend.rs:1174-1178: one point of the regression. *)
  Definition hurst_point (w : list F) (x : nat) : result F :=
    if (x =? 0)%nat then Panic
    else
      let cs := chunks_exact x w in
      Ok (flog10 (fold_left (fun acc c => acc + hurst_rs c) cs #0 / fofnat (length cs))).

  (** trend.rs:1172-1180: closure of [hurst]. *)
  Definition hurst_win (sizes : list nat) (w : list F) : result F :=
    let* rs := rmap (hurst_point w) sizes in
    Ok (linreg (map (fun x => flog10 (fofnat x)) sizes) rs).

  (** trend.rs:1148-1181 [hurst]; [None] when the size loop does not finish
      within [fuel] iterations. *)
  Definition hurst (fuel : nat) (data : list F) (window : nat) (min_win : option nat)
    : option (result (list F)) :=
    match hurst_sizes fuel window (flog10 (fofnat (unwrap_or min_win 4%nat))) with
    | None => None
    | Some sz =>
        Some (let sizes := map N.to_nat sz ++ [window] in
              let* k := usub window 1 in
              let* ws := rwindows window data in
              let* r := rmap (hurst_win sizes) ws in
              Ok (pad k fnan ++ r))
    end.
End Trend.
