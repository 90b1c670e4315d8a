(** * F64Leaves: ranges and identities that rounding breaks.

    Ordinary inputs on which a bound or an identity that holds in exact arithmetic
    fails in binary64, for every choice [m] of the platform's transcendental functions. *)
From Coq Require Import ZArith List Bool Lia.
From Flocq Require Import IEEE754.BinarySingleNaN.
From Verif Require Import Num B64 Smooth Momentum Trend Volatility Distribution Correlation Volume Regression Rank Panics Refute.
Import ListNotations.
Local Unset Implicit Arguments.

(** One bar from 0.1 to 0.2 that closes at its high, 3 shares: cmf prints more than 1. *)
Theorem cmf_f64_above_1 (m : libm) : exists high low close volume x,
  Forall (fun '(h, l, c) => Bleb l c = true /\ Bleb c h = true) [(high, low, close)] /\
  prints (@cmf _ (B64 m) [high] [low] [close] [volume] 1) 0 x /\ Bltb (int 1) x = true.
Proof.
  exists (dec 2 10), (dec 1 10), (dec 2 10), (int 3).
  assert (H : exists x, prints (@cmf _ (B64 m) [dec 2 10] [dec 1 10] [dec 2 10] [int 3] 1) 0 x /\ Bltb (int 1) x = true) by seen m.
  destruct H as (x & H & L). exists x. split; [|easy]. repeat constructor; vm_compute; reflexivity.
Qed.

(** Two such bars, the second rising from 0.1 to a close of 0.2: twiggs prints more than 1. *)
Theorem twiggs_f64_above_1 (m : libm) : exists high low close volume x,
  Forall (fun '(h, l, c) => Bleb l c = true /\ Bleb c h = true) (combine (combine high low) close) /\
  prints (@twiggs _ (B64 m) high low close volume 1) 1 x /\ Bltb (int 1) x = true.
Proof.
  exists [dec 1 10; dec 2 10], [dec 1 10; dec 1 10], [dec 1 10; dec 2 10], [int 1; int 1].
  assert (H : exists x, prints (@twiggs _ (B64 m) [dec 1 10; dec 2 10] [dec 1 10; dec 1 10] [dec 1 10; dec 2 10] [int 1; int 1] 1) 1 x /\ Bltb (int 1) x = true) by seen m.
  destruct H as (x & H & L). exists x. split; [|easy]. cbv [combine]. repeat constructor; vm_compute; reflexivity.
Qed.

(** A rising series drives tsi and tii above 100 by one unit in the last place. *)
Theorem tsi_f64_above_100 (m : libm) : exists data x, prints (@tsi _ (B64 m) data 2 2) 4 x /\ Bltb (int 100) x = true.
Proof. exists [dec 29 10; dec 31 10; dec 33 10; dec 36 10; dec 37 10]. seen m. Qed.
Theorem tii_f64_above_100 (m : libm) : exists data x, prints (@tii _ (B64 m) data 3) 5 x /\ Bltb (int 100) x = true.
Proof. exists [dec 9 10; dec 12 10; dec 13 10; dec 16 10; dec 17 10; dec 19 10]. seen m. Qed.

(** Three prices near a hundred million and three small ones: the sums of squares lose
    the differences, and pcc divides by zero instead of printing a number in [-1, 1].
    rsq follows. *)
Theorem pcc_f64_infinite (m : libm) : exists a b,
  prints (@pcc _ (B64 m) a b 3) 2 (B754_infinity false) /\ prints (@rsq _ (B64 m) a b 3) 2 (B754_infinity false).
Proof.
  exists [int 100000000; int 100000001; int 100000002], [int 1; int 2; int 4].
  assert (I : forall r, shows r 2 (fun x => Beqb x (B754_infinity false)) = true -> prints r 2 (B754_infinity false : f64)).
  { intros r H. apply shows_prints in H as (x & P & E). now destruct x as [[]|[]| |[]]. }
  split; apply I; destruct m as [? ? ? ? ? ? ? []]; vm_compute; reflexivity.
Qed.
(** The same prices a hundred million lower give a correlation strictly between 0.9 and 1. *)
Theorem pcc_f64_lower (m : libm) : exists x,
  prints (@pcc _ (B64 m) [int 0; int 1; int 2] [int 1; int 2; int 4] 3) 2 x /\ (Bltb (dec 9 10) x && Bltb x (int 1))%bool = true.
Proof. seen m. Qed.

(** cmo keeps running totals from the first bar: after one large move the last two bars,
    both rising, are no longer seen and the value is NaN instead of 100. *)
Theorem cmo_f64_remembers (m : libm) : exists past x y,
  prints (@cmo _ (B64 m) (past ++ [int 1; int 2; int 3]) 2) 4 x /\ is_nan x = true /\
  prints (@cmo _ (B64 m) [int 1; int 2; int 3] 2) 2 y /\ Beqb y (int 100) = true.
Proof.
  exists [int 0; int (10 ^ 17)].
  assert (H : exists x, prints (@cmo _ (B64 m) ([int 0; int (10 ^ 17)] ++ [int 1; int 2; int 3]) 2) 4 x /\ is_nan x = true) by seen m.
  assert (G : exists y, prints (@cmo _ (B64 m) [int 1; int 2; int 3] 2) 2 y /\ Beqb y (int 100) = true) by seen m.
  destruct H as (x & ? & ?), G as (y & ? & ?). now exists x, y.
Qed.

(** The smallest positive float (2^-1074) against a forecast of zero: half of it is zero,
    and smape prints infinity where the definition gives 200. *)
Definition tiny : f64 := Bdiv mode_NE (dec 1 (2 ^ 1000)) (int (2 ^ 74)).
Theorem smape_f64_above_200 (m : libm) : Bltb (int 0) tiny = true /\ exists x,
  prints (Ok (@smape _ (B64 m) [tiny] [int 0])) 0 x /\ Bltb (int 200) x = true.
Proof. split; [vm_compute; reflexivity|]. seen m. Qed.

(** A series ranked against itself: srcc over four bars prints more than 1, however the
    unstable sort orders its items. *)
Theorem srcc_f64_above_1 (m : libm) (srt : sort_oracle f64) :
  (forall l, @comparable f64 (B64 m) l -> @sorts f64 (B64 m) (srt l) l) -> exists data x,
  prints (@srcc _ (B64 m) srt data data 4) 3 x /\ Bltb (int 1) x = true.
Proof.
  intros Sr. exists [int 1; int 2; int 3; int 4]. set (data := [int 1; int 2; int 3; int 4]).
  assert (C : @comparable f64 (B64 m) data) by (apply comparable_f64; intros x Hx; repeat destruct Hx as [<- |Hx]; vm_compute; easy).
  destruct (@rank_min f64 (B64 m) srt data C (Sr data C) ltac:(easy)) as [R0 R1]. rewrite R0 in R1.
  match type of R1 with _ = Ok ?r => set (ranks := r) in * end.
  assert (E : @srcc _ (B64 m) srt data data 4 = (let* v := (let* '(cov_xy, std_x, std_y) := @cov_stdev _ (B64 m) ranks ranks in Ok (@fdiv _ (B64 m) cov_xy (@fmul _ (B64 m) std_x std_y))) in Ok (pad 3 (@fnan _ (B64 m)) ++ [v]))).
  { unfold srcc. change (usub 4 1) with (Ok 3). cbn [bind]. change (zip_windows 4 data data) with (Ok [(data, data)]). cbn [bind rmap]. unfold srcc_win. cbn [fst snd]. rewrite R1. cbn [bind]. now destruct (cov_stdev ranks ranks) as [[[a b] c]|]. }
  rewrite E. clear E R0 R1. subst ranks data. clear C Sr. seen m.
Qed.
