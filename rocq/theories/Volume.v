(** * Model of /repo/src/volume.rs *)

From Verif Require Export Num Smooth.

Section Volume.
  Context {F : Type} {O : FOps F}.
  Local Open Scope F_scope.

  (** volume.rs:19, 55, 176, 259, 361:
      [izip!(&high[1..], &low[1..], &close[1..], &volume[1..])]. *)
  Definition tail4 (high low close volume : list F) : result (list (F * F * F * F)) :=
    let* h := slice_from high 1 in
    let* l := slice_from low 1 in
    let* c := slice_from close 1 in
    let* v := slice_from volume 1 in
    Ok (zip4 h l c v).

  (** volume.rs:28-45: state (h, l, c, trend, cm, dm). *)
  Definition vforce_step (st : F * F * F * F * F * F) (x : F * F * F * F)
    : (F * F * F * F * F * F) * F :=
    let '(s0, s1, s2, s3, s4, s5) := st in
    let '(h, l, c, v) := x in
    let trend := fsignum ((h + l + c) - (s0 + s1 + s2)) in
    let dm := h - l in
    let cm := if trend =? s3 then s4 + dm else s5 + dm in
    ((h, l, c, trend, cm, dm), v * ((dm / cm) - #1) * trend * #200).

  (** volume.rs:13-47 [vforce] (private) *)
  Definition vforce (high low close volume : list F) : result (list F) :=
    let* bars := tail4 high low close volume in
    let* h0 := idx high 0 in
    let* l0 := idx low 0 in
    let* c0 := idx close 0 in
    Ok (scan vforce_step (h0, l0, c0, #0, #0, #0) bars).

  (** volume.rs:62-72: state (h, l, c); the stored trend is never read. *)
  Definition vforce_alt_step (st : F * F * F) (x : F * F * F * F) : (F * F * F) * F :=
    let '(s0, s1, s2) := st in
    let '(h, l, c, v) := x in
    let trend := fsignum ((h + l + c) - (s0 + s1 + s2)) in
    ((h, l, c), v * trend).

  (** volume.rs:49-74 [vforce_alt] (private) *)
  Definition vforce_alt (high low close volume : list F) : result (list F) :=
    let* bars := tail4 high low close volume in
    let* h0 := idx high 0 in
    let* l0 := idx low 0 in
    let* c0 := idx close 0 in
    Ok (scan vforce_alt_step (h0, l0, c0) bars).

  (** volume.rs:105-127 [kvo] *)
  Definition kvo (high low close volume : list F) (short long : nat) (alt : option bool)
    : result (list F) :=
    let* vf := if unwrap_or alt true then vforce_alt high low close volume
               else vforce high low close volume in
    let* short_ma := ewma vf short in
    let* long_ma := ewma vf long in
    Ok (fnan :: map (fun '(x, y) => x - y) (combine short_ma long_ma)).

  (** volume.rs:134-138: one step of [wilder_sum]. *)
  Definition wilder_sum_step (window : nat) (state x : F) : F * F :=
    let s := state * fofnat (window - 1) / fofnat window + x in (s, s).

  (** volume.rs:129-139 [wilder_sum] (private) *)
  Definition wilder_sum (data : list F) (window : nat) : result (list F) :=
    let* k := usub window 1 in
    let* head := slice_to data k in
    let initial := fsum head in
    let* rest := slice_from data k in
    Ok (scan (wilder_sum_step window) initial rest).

  (** volume.rs:181-193: one step of the range-volume series of [twiggs]. *)
  Definition twiggs_step (state : F) (x : F * F * F * F) : F * F :=
    let '(h, l, c, vol) := x in
    (c, vol * ((#2 * c - fmin l state - fmax h state)
               / (fmax h state - fmin l state))).

  (** volume.rs:169-201 [twiggs] *)
  Definition twiggs (high low close volume : list F) (window : nat) : result (list F) :=
    let* bars := tail4 high low close volume in
    let* c0 := idx close 0 in
    let* rv := wilder_sum (scan twiggs_step c0 bars) window in
    let* v1 := slice_from volume 1 in
    let* vs := wilder_sum v1 window in
    Ok (pad window fnan ++ map (fun '(range, vol) => range / vol) (combine rv vs)).

  (** volume.rs:242-254: one step of [ad]. *)
  Definition ad_step (state : F) (x : F * F * F * F) : F * F :=
    let '(h, l, c, vol) := x in
    let mfm := ((c - l) - (h - c)) / (h - l) in
    let mfv := mfm * vol in
    let adl := state + mfv in (adl, adl).

  (** volume.rs:261-277: one step of the alternate [ad]. *)
  Definition ad_alt_step (st : F * F) (x : F * F * F * F) : (F * F) * F :=
    let '(s0, s1) := st in
    let '(h, l, c, vol) := x in
    let mfm := if fgtb c s0 then c - fmin l s0 else c - fmax h s0 in
    let mfv := mfm * vol in
    let adl := s1 + mfv in ((c, adl), adl).

  (** volume.rs:233-281 [ad] *)
  Definition ad (high low close volume : list F) (alt : option bool) : result (list F) :=
    if negb (unwrap_or alt false) then
      Ok (scan ad_step #0 (zip4 high low close volume))
    else
      let* bars := tail4 high low close volume in
      let* c0 := idx close 0 in
      Ok (fnan :: scan ad_alt_step (c0, #0) bars).

  (** volume.rs:315, 477: [izip!(&close[..close.len() - 1], &close[1..], &volume[1..])]. *)
  Definition steps3 (close volume : list F) : result (list (F * F * F)) :=
    let* n1 := usub (length close) 1 in
    let* a := slice_to close n1 in
    let* b := slice_from close 1 in
    let* v := slice_from volume 1 in
    Ok (zip3 a b v).

  (** volume.rs:308-324 [elder_force] *)
  Definition elder_force (close volume : list F) (window : nat) : result (list F) :=
    let* st := steps3 close volume in
    let* e := ewma (map (fun '(prev, curr, vol) => (curr - prev) * vol) st) window in
    Ok (fnan :: e).

  (** volume.rs:365-377: one step of [mfi]: (positive, negative) money flow. *)
  Definition mfi_step (state : F) (x : F * F * F * F) : F * (F * F) :=
    let '(h, l, c, vol) := x in
    let hlc := (h + l + c) / #3 in
    let pos_mf := if fgtb hlc state then hlc * vol else #0 in
    let neg_mf := if hlc <? state then hlc * vol else #0 in
    (hlc, (pos_mf, neg_mf)).

  (** volume.rs:384-386: closure of [mfi]. *)
  Definition mfi_win (p : list F * list F) : F :=
    #100 - (#100 / (#1 + fsum (fst p) / fsum (snd p))).

  (** volume.rs:353-389 [mfi] *)
  Definition mfi (high low close volume : list F) (window : nat) : result (list F) :=
    let* bars := tail4 high low close volume in
    let* h0 := idx high 0 in
    let* l0 := idx low 0 in
    let* c0 := idx close 0 in
    let flows := scan mfi_step ((h0 + l0 + c0) / #3) bars in
    let* wp := rwindows window (map fst flows) in
    let* wn := rwindows window (map snd flows) in
    Ok (pad window fnan ++ map mfi_win (combine wp wn)).

  (** volume.rs:428-436: money-flow volume of a bar. *)
  Definition cmf_bar (x : F * F * F * F) : F :=
    let '(h, l, c, vol) := x in vol * ((c - l) - (h - c)) / (h - l).

  (** volume.rs:419-445 [cmf] *)
  Definition cmf (high low close volume : list F) (window : nat) : result (list F) :=
    let* k := usub window 1 in
    let* wm := rwindows window (map cmf_bar (zip4 high low close volume)) in
    let* wv := rwindows window volume in
    Ok (pad k fnan ++ map (fun '(m, v) => fsum m / fsum v) (combine wm wv)).

  (** volume.rs:492: the direction, an [i32] in {1, -1}, as [f64]. *)
  Definition fdir (up : bool) : F := if up then #1 else flit (-1) 1.

  (** volume.rs:479-495: one step of [tvi]; [true] is direction 1. *)
  Definition tvi_step (min_tick : F) (st : bool * F) (x : F * F * F) : (bool * F) * F :=
    let '(dir, acc) := st in
    let '(prev, curr, vol) := x in
    let direction := if fgtb (curr - prev) min_tick then true
                     else if fgtb (prev - curr) min_tick then false else dir in
    let tvi := acc + fdir direction * vol in
    ((direction, tvi), tvi).

  (** volume.rs:471-498 [tvi] *)
  Definition tvi (close volume : list F) (min_tick : F) : result (list F) :=
    let* st := steps3 close volume in
    Ok (fnan :: scan (tvi_step min_tick) (true, #0) st).

  (** volume.rs:534-541: one item of [ease]; indexes the three slices. *)
  Definition ease_bar (high low volume : list F) (i : nat) : result F :=
    let* hi := idx high i in
    let* li := idx low i in
    let* hp := idx high (i - 1) in
    let* lp := idx low (i - 1) in
    let* vi := idx volume i in
    Ok ((hi + li - hp - lp) / #2 / (vi / #100000000 / (hi - li))).

  (** volume.rs:525-548 [ease] *)
  Definition ease (high low volume : list F) (window : nat) : result (list F) :=
    let* e := rmap (ease_bar high low volume) (seq 1 (length high - 1)) in
    let* m := sma e window in
    Ok (fnan :: m).

  (** volume.rs:577-580: one step of [obv]; indexes [volume[i + 1]]. *)
  Definition obv_step (volume : list F) (state : F) (x : nat * list F) : result (F * F) :=
    let '(i, pairs) := x in
    let* v := idx volume (i + 1) in
    let s := state + fsignum (at_ pairs 1 - at_ pairs 0) * v in
    Ok (s, s).

  (** volume.rs:573-582 [obv] *)
  Definition obv (close volume : list F) : result (list F) :=
    let* vs := rscan (obv_step volume) #0 (enumerate (windows 2 close)) in
    Ok (fnan :: vs).

  (** volume.rs:609-617 [bw_mfi]; [(10.0_f64).powi(6)] is exactly 1000000. *)
  Definition bw_mfi (high low volume : list F) : list F :=
    map (fun '(h, l, vol) => (h - l) / vol * #1000000) (zip3 high low volume).

  (** volume.rs:648-653, 686-691: one step of [pvi]/[nvi]. *)
  Definition vi_step (cmp : F -> F -> bool) (state : F) (p : list F * list F) : F * F :=
    let '(c, vol) := p in
    let s := if cmp (at_ vol 1) (at_ vol 0) then state * (at_ c 1 / at_ c 0) else state in
    (s, s).

  (** volume.rs:642-655 [pvi] *)
  Definition pvi (data volume : list F) : list F :=
    fnan :: scan (vi_step fgtb) #100 (combine (windows 2 data) (windows 2 volume)).

  (** volume.rs:680-693 [nvi] *)
  Definition nvi (data volume : list F) : list F :=
    fnan :: scan (vi_step fltb) #100 (combine (windows 2 data) (windows 2 volume)).

  (** [v.rotate_left(1)] *)
  Definition rotate1 {A} (l : list A) : list A :=
    match l with [] => [] | a :: l' => l' ++ [a] end.

  (** volume.rs:728-747: one step of [vwap]; the captured vector of resets is
      part of the state.  [reset_idx[0]] panics on an empty vector. *)
  Definition vwap_step (st : F * F * list nat) (x : nat * (F * F * F * F))
    : result ((F * F * list nat) * F) :=
    let '(tpv0, vol0, resets) := st in
    let '(i, (h, l, c, vol)) := x in
    let* r := idx resets 0 in
    let '(tpv, vs, resets') :=
      if (i =? r)%nat then (#0, #0, rotate1 resets) else (tpv0, vol0, resets) in
    let tpv' := tpv + (h + l + c) / #3 * vol in
    let vs' := vs + vol in
    Ok ((tpv', vs', resets'), tpv' / vs').

  (** volume.rs:719-749 [vwap] *)
  Definition vwap (high low close volume : list F) (reset_idx : option (list nat))
    : result (list F) :=
    let resets := unwrap_or reset_idx [length close] in
    rscan vwap_step (#0, #0, resets) (enumerate (zip4 high low close volume)).

  (** volume.rs:782-785: closure of [vwma]. *)
  Definition vwma_win (p : list F * list F) : F :=
    fold_left (fun acc '(x, v) => acc + x * v) (combine (fst p) (snd p)) #0
    / fsum (snd p).

  (** volume.rs:774-788 [vwma] *)
  Definition vwma (data volume : list F) (window : nat) : result (list F) :=
    let* k := usub window 1 in
    let* wd := rwindows window data in
    let* wv := rwindows window volume in
    Ok (pad k fnan ++ map vwma_win (combine wd wv)).

  (** volume.rs:820-824: one step of [vpt]. *)
  Definition vpt_step (state : F) (p : list F * F) : F * F :=
    let '(w, v) := p in
    let s := state + v * (at_ w 1 - at_ w 0) / at_ w 0 in (s, s).

  (** volume.rs:813-826 [vpt] *)
  Definition vpt (data volume : list F) : result (list F) :=
    let* v := slice_from volume 1 in
    Ok (fnan :: scan vpt_step #0 (combine (windows 2 data) v)).
End Volume.
