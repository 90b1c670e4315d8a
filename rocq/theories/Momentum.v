(** * Model of /repo/src/momentum.rs

    ([_swing], momentum.rs:532-573, is modelled in Trend.v as [swing]: the two
    Rust modules import one another.) *)

From Verif Require Export Num Distribution Smooth Volatility Trend.

Section Momentum.
  Context {F : Type} {O : FOps F}.
  Local Open Scope F_scope.

  (** [data.windows(2)] as pairs (previous, current); momentum.rs:43, 92, 404,
      1271, 1313, 1547. *)
  Definition pairs (data : list F) : list (F * F) := combine data (skipn 1 data).

  (** momentum.rs:46 and 47 *)
  Definition gain (p : F * F) : F := let '(a, b) := p in fmax #0 (b - a).
  Definition loss (p : F * F) : F := let '(a, b) := p in fabs (fmin #0 (b - a)).

  (** momentum.rs:54 *)
  Definition rsi_ratio (p : F * F) : F := let '(g, l) := p in #100 * g / (g + l).

  (** momentum.rs:41-57 [rsi] *)
  Definition rsi (data : list F) (window : nat) : result (list F) :=
    let* g := wilder (map gain (pairs data)) window in
    let* l := wilder (map loss (pairs data)) window in
    Ok (fnan :: map rsi_ratio (combine g l)).

  (** momentum.rs:93-104: one step of the scan of [crsi]: (streak, return). *)
  Definition streak_step (st : F * F) (p : F * F) : (F * F) * (F * F) :=
    let '(w0, w1) := p in
    let streak :=
      if w1 =? w0 then #0
      else if fsignum (w1 - w0) =? fsignum (snd st) then fst st + fsignum (w1 - w0)
      else fsignum (w1 - w0) in
    let st' := (streak, (w1 - w0) / w0) in
    (st', st').

  (** momentum.rs:109-116: percent rank of the last return of a window.  The
      [i32] counter is modelled without its overflow (windows of 2^31 items). *)
  Definition percent_rank (rank_win : nat) (w : list F) : F :=
    let curr := at_ w (rank_win - 1) in
    fofnat (length (filter (fun x => x <? curr) w)) / fofnat (rank_win - 1) * #100.

  (** momentum.rs:84-121 [crsi] *)
  Definition crsi (data : list F) (rsi_win streak_win rank_win : nat) : result (list F) :=
    let* r := rsi data rsi_win in
    let sr := scan streak_step (#0, #0) (pairs data) in
    let* s := rsi (map fst sr) streak_win in
    let* ws := rwindows rank_win (map snd sr) in
    let rank := pad rank_win fnan ++ map (percent_rank rank_win) ws in
    Ok (map (fun '(x, y, z) => (x + y + z) / #3) (zip3 r (fnan :: s) rank)).

  (** momentum.rs:147-155 [macd] *)
  Definition macd (close : list F) (short long : nat) : result (list F) :=
    let* s := ewma close short in
    let* l := ewma close long in
    Ok (map (fun '(x, y) => x - y) (combine s l)).

  (** momentum.rs:184-188 [cmo] *)
  Definition cmo (data : list F) (window : nat) : result (list F) :=
    Ok (pad window fnan ++ map (fun x => x * #100) (cmo_raw data window)).

  (** momentum.rs:217-221 [cfo] *)
  Definition cfo (data : list F) (window : nat) : result (list F) :=
    let* r := lrf data window in
    Ok (map (fun '(tsf, x) => #100 * (x - tsf) / x) (combine r data)).

  (** momentum.rs:255-263 [elder_ray]: (bull, bear) *)
  Definition elder_ray (high low close : list F) (window : nat) : result (list (F * F)) :=
    let* m := ewma close window in
    Ok (map (fun '(h, l, c) => (h - c, l - c)) (zip3 high low m)).

  (** momentum.rs:304-312: closure of [wpr]. *)
  Definition wpr_win (p : list F * list F * F) : F :=
    let '(h, l, c) := p in
    let hh := max_of h in
    let ll := min_of l in
    #(-100) * ((hh - c) / (hh - ll)).

  (** momentum.rs:299-303, 706-710: the zipped windows of [wpr] and [stoch]. *)
  Definition hlc_windows (high low close : list F) (window : nat)
    : result (list (list F * list F * F)) :=
    let* wh := rwindows window high in
    let* wl := rwindows window low in
    let* k := usub window 1 in
    let* c := slice_from close k in
    Ok (zip3 wh wl c).

  (** momentum.rs:292-314 [wpr] *)
  Definition wpr (high low close : list F) (window : nat) : result (list F) :=
    let* k := usub window 1 in
    let* ws := hlc_windows high low close window in
    Ok (pad k fnan ++ map wpr_win ws).

  (** momentum.rs:335-343 [ppo] *)
  Definition ppo (data : list F) (short long : nat) : result (list F) :=
    let* s := ewma data short in
    let* l := ewma data long in
    Ok (map (fun '(x, y) => #100 * (x / y - #1)) (combine s l)).

  (** momentum.rs:367-375 [apo] *)
  Definition apo (data : list F) (short long : nat) : result (list F) :=
    let* s := ewma data short in
    let* l := ewma data long in
    Ok (map (fun '(x, y) => x - y) (combine s l)).

  (** momentum.rs:399-416 [pmo] *)
  Definition pmo (data : list F) (win1 win2 : nat) : result (list F) :=
    let* e1 := ewma (map (fun '(a, b) => #1000 * (b / a - #1)) (pairs data)) win1 in
    let* k := usub win1 1 in
    let* t := slice_from e1 k in
    let* e2 := ewma t win2 in
    Ok (pad win1 fnan ++ e2).

  (** momentum.rs:457-468: (buying pressure, true range) of a bar. *)
  Definition bp_tr (x : F * F * F * F) : F * F :=
    let '(h, l, prevc, c) := x in
    (c - fmin l prevc, fmax h prevc - fmin l prevc).

  (** momentum.rs:474-484: sums of the items from position [k] on. *)
  Definition bp_sums (k : nat) (w : list (F * F)) : F * F :=
    fold_left (fun '(a, b) '(bp, tr) => (a + bp, b + tr)) (skipn k w) (#0, #0).

  (** momentum.rs:473-487: closure of [ultimate]. *)
  Definition ultimate_win (win1 win2 win3 : nat) (w : list (F * F)) : result F :=
    let* k1 := usub win3 win1 in
    let* k2 := usub win3 win2 in
    let '(bp1, tr1) := bp_sums k1 w in
    let '(bp2, tr2) := bp_sums k2 w in
    let '(bp3, tr3) := bp_sums 0 w in
    Ok (#100 * (bp1 / tr1 * #4 + bp2 / tr2 * #2 + bp3 / tr3) / (#4 + #2 + #1)).

  (** momentum.rs:443-490 [ultimate] *)
  Definition ultimate (high low close : list F) (win1 win2 win3 : nat) : result (list F) :=
    let* h := slice_from high 1 in
    let* l := slice_from low 1 in
    let* n1 := usub (length close) 1 in
    let* c0 := slice_to close n1 in
    let* c1 := slice_from close 1 in
    let* ws := rwindows win3 (map bp_tr (zip4 h l c0 c1)) in
    let* r := rmap (ultimate_win win1 win2 win3) ws in
    Ok (pad win3 fnan ++ r).

  (** momentum.rs:517-530 [pgo] *)
  Definition pgo (high low close : list F) (window : nat) : result (list F) :=
    let* t := true_range high low close in
    let* e := ewma t window in
    let* s := sma close window in
    Ok (map (fun '(c, c_ma, tr_ma) => (c - c_ma) / tr_ma) (zip3 close s (fnan :: e))).

  (** momentum.rs:601-609 [si] *)
  Definition si (open high low close : list F) (limit : F) : result (list F) :=
    let* s := swing open high low close limit in
    Ok (fnan :: s).

  (** momentum.rs:634-650 [trix] *)
  Definition trix (close : list F) (window : nat) : result (list F) :=
    let* e1 := ewma close window in
    let* k := usub window 1 in
    let* t1 := slice_from e1 k in
    let* e2 := ewma t1 window in
    let* t2 := slice_from e2 k in
    let* e3 := ewma t2 window in
    let* e3' := slice_from e3 1 in
    Ok (pad (k * 2 + 1) fnan ++
        map (fun '(prev, curr) => #100 * (curr - prev) / prev) (combine e3 e3')).

  (** momentum.rs:685-693: closure of [tii]. *)
  Definition tii_win (w : list (F * F)) : F :=
    let '(p, n) := fold_left (fun '(a, b) '(x, y) => (a + x, b + y)) w (#0, #0) in
    #100 * p / (p + n).

  (** momentum.rs:674-696 [tii] *)
  Definition tii (data : list F) (window : nat) : result (list F) :=
    let win := div_ceil2 window in
    let* k := usub win 1 in
    let* s := sma data window in
    let devs := map (fun '(avg, actual) =>
                       let dev := actual - avg in (fmax dev #0, fabs (fmin dev #0)))
                    (combine s data) in
    let* ws := rwindows win devs in
    Ok (pad k fnan ++ map tii_win ws).

  (** momentum.rs:711-719: closure of [stoch]. *)
  Definition stoch_win (p : list F * list F * F) : F :=
    let '(h, l, c) := p in
    let hh := max_of h in
    let ll := min_of l in
    #100 * (c - ll) / (hh - ll).

  (** momentum.rs:698-731 [stoch] (private): (%K, %D) *)
  Definition stoch (high low close : list F) (window smooth_win : nat)
    : result (list (F * F)) :=
    let* ws := hlc_windows high low close window in
    let* fast_k := sma (map stoch_win ws) smooth_win in
    let* k2 := usub smooth_win 1 in
    let* t := slice_from fast_k k2 in
    let* k := sma t smooth_win in
    let* k1 := usub window 1 in
    Ok (combine (pad k1 fnan ++ fast_k) (pad (k1 + k2) fnan ++ k)).

  (** momentum.rs:758-765 [stochastic] *)
  Definition stochastic (high low close : list F) (window : nat) : result (list (F * F)) :=
    stoch high low close window 3.

  (** momentum.rs:775-783: closure of [_stc]. *)
  Definition stc_win (w : list F) : F :=
    let hh := max_of w in
    let ll := min_of w in
    #100 * (last_ w - ll) / (hh - ll).

  (** momentum.rs:767-789 [_stc] (private) *)
  Definition stc_raw (series : list F) (window smooth : nat) : result (list F) :=
    let* ws := rwindows window series in
    wilder (map stc_win ws) smooth.

  (** momentum.rs:815-841 [stc] *)
  Definition stc (close : list F) (window short long : nat) : result (list F) :=
    let* kl := usub long 1 in
    let* kw := usub window 1 in
    let* m := macd close short long in
    let* s1 := stc_raw (skipn kl m) window 2 in
    let* s2 := stc_raw (skipn 1 s1) window 2 in
    Ok (pad (kl + kw * 2 + 2) fnan ++ skipn 1 s2).

  (** momentum.rs:889, 893: the symmetric four-bar weighting. *)
  Definition swma4 (w : list F) : F :=
    (at_ w 3 + #2 * at_ w 2 + #2 * at_ w 1 + at_ w 0) / #6.

  (** momentum.rs:869-901 [relative_vigor] *)
  Definition relative_vigor (open high low close : list F) (window : nat)
    : result (list F) :=
    let close_open := map (fun '(o, c) => c - o) (combine open close) in
    let high_low := map (fun '(h, l) => h - l) (combine high low) in
    let* n := sma (map swma4 (windows 4 close_open)) window in
    let* d := sma (map swma4 (windows 4 high_low)) window in
    Ok (pad 3 fnan ++ map (fun '(n, d) => n / d) (combine n d)).

  (** momentum.rs:939-953: one step of [fisher]; the state is (transform,
      result). *)
  Definition fisher_step (window : nat) (st : F * F) (w : list F) : result ((F * F) * F) :=
    let hl_max := fold_left fmax w #0 in
    let hl_min := fold_left fmin w fmaxval in
    let x := flit 66 100 *
               ((at_ w (window - 1) - hl_min) / fmax (hl_max - hl_min) (flit 1 1000000)
                - flit 1 2)
             + flit 67 100 * fst st in
    let* transform := fclamp x (flit (-999999) 1000000) (flit 999999 1000000) in
    let result := flit 1 2 * fln ((#1 + transform) / (#1 - transform))
                  + flit 1 2 * snd st in
    Ok ((transform, result), result).

  (** momentum.rs:927-956 [fisher] *)
  Definition fisher (high low : list F) (window : nat) : result (list F) :=
    let hl2 := map (fun '(h, l) => (h + l) / #2) (combine high low) in
    let* k := usub window 1 in
    let* ws := rwindows window hl2 in
    let* r := rscan (fisher_step window) (#0, #0) ws in
    Ok (pad k fnan ++ r).

  (** momentum.rs:986-990: the first [n] further smoothings of [s]. *)
  Fixpoint rainbow_smas (n : nat) (s : list F) (window : nat) : result (list (list F)) :=
    match n with
    | 0%nat => Ok [s]
    | S n' => let* s' := sma s window in
              let* r := rainbow_smas n' s' window in
              Ok (s :: r)
    end.

  (** momentum.rs:993-1014: closure of [rainbow] at index [i].
      [(i - (lookback - 1)).max(0)] underflows when [i < lookback - 1]. *)
  Definition rainbow_at (data : list F) (smas : list (list F)) (lookback : nat) (i : nat)
    : result (F * F) :=
    let* vals := rmap (fun s => idx s i) smas in
    let total := fold_left fadd vals #0 in
    let hsma := fold_left fmax vals fminval in
    let lsma := fold_left fmin vals fmaxval in
    let* k := usub lookback 1 in
    let* a := usub i k in
    let* back := rmap (idx data) (seq a (i + 1 - a)) in
    let hl := fold_left fmax back fminval in
    let ll := fold_left fmin back fmaxval in
    let* x := idx data i in
    Ok (#100 * (x - total / #10) / fmax (hl - ll) (flit 1 1000000),
        #100 * (hsma - lsma) / fmax (hl - ll) (flit 1 1000000)).

  (** momentum.rs:981-1015 [rainbow]: (oscillator, bandwidth) *)
  Definition rainbow (data : list F) (window lookback : nat) : result (list (F * F)) :=
    let* s := sma data window in
    let* smas := rainbow_smas 9 s window in
    let* k := usub window 1 in
    let* r := rmap (rainbow_at data smas lookback)
                   (seq (k * 10) (length data - k * 10)) in
    Ok (pad (k * 10) (fnan, fnan) ++ r).

  (** momentum.rs:1048-1053: closure of [coppock]. *)
  Definition coppock_at (data : list F) (short long x : nat) : result F :=
    let* d := idx data x in
    let* xs := usub x short in
    let* ds := idx data xs in
    let* xl := usub x long in
    let* dl := idx data xl in
    Ok (#100 * (d / ds + d / dl - #2)).

  (** momentum.rs:1039-1059 [coppock] *)
  Definition coppock (data : list F) (window short long : nat) : result (list F) :=
    let* r := rmap (coppock_at data short long) (seq long (length data - long)) in
    let* w := wma r window in
    Ok (pad long fnan ++ w).

  (** momentum.rs:1087, 1402: rate of change over a window. *)
  Definition roc_win (w : list F) : F := #100 * (last_ w / at_ w 0 - #1).

  (** momentum.rs:1084-1089 [roc] *)
  Definition roc (data : list F) (window : nat) : result (list F) :=
    let* k := usub window 1 in
    let* ws := rwindows window data in
    Ok (pad k fnan ++ map roc_win ws).

  (** momentum.rs:1116-1134 [bal_power] *)
  Definition bal_power (open high low close : list F) (window : nat) : result (list F) :=
    ewma (map (fun '(o, h, l, c) => (c - o) / (h - l)) (zip4 open high low close)) window.

  (** momentum.rs:1159-1163 [disparity] *)
  Definition disparity (data : list F) (window : nat) : result (list F) :=
    let* m := ewma data window in
    Ok (map (fun '(x, ma) => #100 * (x - ma) / ma) (combine data m)).

  (** momentum.rs:1192-1203 [qstick] *)
  Definition qstick (open close : list F) (window : nat) : result (list F) :=
    ewma (map (fun '(c, o) => c - o) (combine close open)) window.

  (** momentum.rs:1231-1238: closure of [cog]. *)
  Definition cog_win (weights w : list F) : F :=
    - fsum (map (fun '(e, i) => e * i) (combine (rev w) weights)) / fsum w.

  (** momentum.rs:1227-1239 [cog] *)
  Definition cog (data : list F) (window : nat) : result (list F) :=
    let weights := map fofnat (seq 1 window) in
    let* k := usub window 1 in
    let* ws := rwindows window data in
    Ok (pad k fnan ++ map (cog_win weights) ws).

  (** momentum.rs:1272-1276 *)
  Definition psych_up (p : F * F) : F := let '(a, b) := p in fmax (fsignum (b - a)) #0.

  (** momentum.rs:1269-1282 [psych] *)
  Definition psych (data : list F) (window : nat) : result (list F) :=
    let* ws := rwindows window (map psych_up (pairs data)) in
    Ok (pad window fnan ++ map (fun w => fsum w * #100 / fofnat window) ws).

  (** momentum.rs:1307-1329 [tsi] *)
  Definition tsi (data : list F) (short long : nat) : result (list F) :=
    let diffs := map (fun '(a, b) => b - a) (pairs data) in
    let* ld := ewma diffs long in
    let* k := usub long 1 in
    let* pcds := ewma (skipn k ld) short in
    let* ald := ewma (map fabs diffs) long in
    let* apcds := ewma (skipn k ald) short in
    Ok (pad long fnan ++
        map (fun '(pcd, apcd) => #100 * pcd / apcd) (combine pcds apcds)).

  (** momentum.rs:1405-1410: adding one weighted, smoothed rate of change into
      the accumulator, item [c] at offset [off]. *)
  Fixpoint add_into (result0 : list F) (off : nat) (mult : F) (vals : list F)
    : result (list F) :=
    match vals with
    | [] => Ok result0
    | v :: rest =>
        let* cur := idx result0 off in
        add_into (upd result0 off (cur + v * mult)) (off + 1) mult rest
    end.

  (** momentum.rs:1398-1412: one term of [prings]. *)
  Definition prings_term (data : list F) (roc0 per0 : nat) (acc : list F)
    (t : nat * nat * F) : result (list F) :=
    let '(roc_win0, ma_win, mult) := t in
    let rocs := map roc_win (windows (roc_win0 + 1) data) in
    match rocs with
    | [] => Ok acc
    | _ =>
        let* s := sma rocs ma_win in
        let* k := usub ma_win 1 in
        match skipn k s with
        | [] => Ok acc
        | vals =>
            let* a := usub roc_win0 roc0 in
            let* b := usub ma_win per0 in
            add_into acc (a + b) mult vals
        end
    end.

  (** momentum.rs:1398-1412: the loop over the terms. *)
  Fixpoint prings_loop (data : list F) (roc0 per0 : nat) (acc : list F)
    (ts : list (nat * nat * F)) : result (list F) :=
    match ts with
    | [] => Ok acc
    | t :: rest =>
        let* acc' := prings_term data roc0 per0 acc t in
        prings_loop data roc0 per0 acc' rest
    end.

  (** momentum.rs:1391-1416 [prings] (private) *)
  Definition prings (data : list F) (rocs periods : list nat) (multipliers : list F)
    : result (list F) :=
    let* roc0 := idx rocs 0 in
    let* per0 := idx periods 0 in
    let* a := usub (length data) roc0 in
    let* b := usub per0 1 in
    let* n := usub a b in
    let* r := prings_loop data roc0 per0 (repeat #0 n) (zip3 rocs periods multipliers) in
    Ok (pad (roc0 + b) fnan ++ r).

  (** momentum.rs:1352-1357 [special_k] *)
  Definition special_k (data : list F) : result (list F) :=
    prings data
      [10; 15; 20; 30; 50; 65; 75; 100; 195; 265; 390; 530]%nat
      [10; 10; 10; 15; 50; 65; 75; 100; 130; 130; 130; 195]%nat
      [#1; #2; #3; #4; #1; #2; #3; #4; #1; #2; #3; #4].

  (** momentum.rs:1380-1389 [kst]; the arrays of length 4 are 4-tuples. *)
  Definition kst (data : list F) (rocs wins : option (nat * nat * nat * nat))
    : result (list F) :=
    let '(r1, r2, r3, r4) := unwrap_or rocs (10, 15, 20, 30)%nat in
    let '(p1, p2, p3, p4) := unwrap_or wins (10, 10, 10, 15)%nat in
    prings data [r1; r2; r3; r4] [p1; p2; p3; p4] [#1; #2; #3; #4].

  (** momentum.rs:1441-1461 [derivative] *)
  Definition derivative (data : list F) (win1 win2 signal : nat) : result (list F) :=
    let* r := rsi data win1 in
    let* e1 := ewma (skipn win1 r) win1 in
    let* k := usub win1 1 in
    let* e2 := ewma (skipn k e1) win2 in
    let* s := sma e2 signal in
    Ok (pad (win1 + k) fnan ++ map (fun '(sig, val) => val - sig) (combine s e2)).

  (** momentum.rs:1500-1504: closure of [cci]. *)
  Definition cci_win (window : nat) (w : list F) : F :=
    let avg := fsum w / fofnat window in
    let dev := fold_left (fun acc x => acc + fabs (x - avg)) w #0 / fofnat window in
    (last_ w - avg) / (flit 15 1000 * dev).

  (** momentum.rs:1487-1507 [cci] *)
  Definition cci (high low close : list F) (window : nat) : result (list F) :=
    let* k := usub window 1 in
    let* ws := rwindows window (hlc3 high low close) in
    Ok (pad k fnan ++ map (cci_win window) ws).

  (** momentum.rs:1566-1583: one step of [qqe] at index [x]. *)
  Definition qqe_step (rsi_ma dar : list F) (state : F) (x : nat) : result (F * F) :=
    let* r := idx rsi_ma x in
    let* x1 := usub x 1 in
    let* rp := idx rsi_ma x1 in
    let* d := idx dar x in
    let s := if fgtb r state then
               (if fgtb rp state then fmax state (r - d) else r - d)
             else if r <? state then
               (if rp <? state then fmin state (r + d) else r + d)
             else state in
    Ok (s, s).

  (** momentum.rs:1534-1584 [qqe] *)
  Definition qqe (data : list F) (window smoothing : nat) : result (list F) :=
    let* r := rsi data window in
    let* e := ewma (skipn window r) smoothing in
    let* ks := usub smoothing 1 in
    let rsi_ma := skipn ks e in
    let* w1 := wilder (map (fun '(a, b) => fabs (b - a)) (pairs rsi_ma)) window in
    let* k := usub window 1 in
    let* w2 := wilder (skipn k w1) window in
    let dar := map (fun x => x * flit 4236 1000) (skipn k w2) in
    let* k2 := usub (window * 2) 1 in
    let* s := rscan (qqe_step (skipn k2 rsi_ma) dar) #0 (seq 1 (length dar - 1)) in
    Ok (pad (window * 3 + ks) fnan ++ s).

  (** momentum.rs:1616-1624: the two-bar price of [deli]. *)
  Definition deli_quotes (high low : list F) : list F :=
    map (fun '((h0, h1), (l0, l1)) => (fmax h0 h1 + fmin l0 l1) / #2)
        (combine (pairs high) (pairs low)).

  (** momentum.rs:1611-1637 [deli] *)
  Definition deli (high low : list F) (window : nat) : result (list F) :=
    let quotes := deli_quotes high low in
    let* e1 := ewma quotes window in
    let* e2 := ewma quotes (2 * window) in
    let dsp := map (fun '(ma1, ma2) => ma1 - ma2) (combine e1 e2) in
    let* k := usub (2 * window) 1 in
    let* t := slice_from dsp k in
    let* ma3 := ewma t window in
    Ok (pad (2 * window) fnan ++ map (fun '(x, y) => x - y) (combine t ma3)).

  (** momentum.rs:1662-1681 [gator] *)
  Definition gator (data : list F)
    (jaw_win jaw_offset teeth_win teeth_offset lips_win lips_offset : nat)
    : result (list (F * F)) :=
    let* a := alligator data jaw_win jaw_offset teeth_win teeth_offset lips_win lips_offset in
    Ok (map (fun '(x0, x1, x2) => (fabs (x0 - x1), fabs (x1 - x2))) a).

  (** momentum.rs:1710-1722 [kdj] *)
  Definition kdj (high low close : list F) (k_win d_win : nat) (k_factor d_factor : option F)
    : result (list (F * F * F)) :=
    let kf := unwrap_or k_factor #3 in
    let df := unwrap_or d_factor #2 in
    let* s := stoch high low close k_win d_win in
    Ok (map (fun '(k, d) => (k, d, kf * k - df * d)) s).
End Momentum.
