(** * XReal: the exact instance of [FOps].

    Extended reals: a real number, one of the two infinities, or NaN.  Every
    operation on reals is the exact one; what IEEE-754 does on infinities, on
    division by zero and outside the domain of a function is kept, except that
    there is a single zero (counted as positive).  Theorems over [XR] say what
    the code computes apart from rounding, overflow and the sign of zero. *)

From Coq Require Import Reals ZArith NArith Lia Lra.
From Flocq Require Import Core.Raux.
From Verif Require Export Num.
Local Open Scope R_scope.

Inductive xr : Type :=
| Fin (r : R)
| Inf (neg : bool)
| NaN.

Definition Rltb (a b : R) : bool := if Rlt_dec a b then true else false.
Definition Rleb (a b : R) : bool := if Rle_dec a b then true else false.
Definition Req (a b : R) : bool := if Req_EM_T a b then true else false.

Definition xneg (a : xr) : xr :=
  match a with Fin r => Fin (- r) | Inf s => Inf (negb s) | NaN => NaN end.

Definition xadd (a b : xr) : xr :=
  match a, b with
  | Fin x, Fin y => Fin (x + y)
  | NaN, _ | _, NaN => NaN
  | Inf s, Inf t => if Bool.eqb s t then Inf s else NaN
  | Inf s, Fin _ | Fin _, Inf s => Inf s
  end.

Definition xsub (a b : xr) : xr :=
  match a, b with
  | Fin x, Fin y => Fin (x - y)
  | _, _ => xadd a (xneg b)
  end.

Definition xmul (a b : xr) : xr :=
  match a, b with
  | Fin x, Fin y => Fin (x * y)
  | NaN, _ | _, NaN => NaN
  | Inf s, Inf t => Inf (xorb s t)
  | Inf s, Fin x | Fin x, Inf s => if Req x 0 then NaN else Inf (xorb s (Rltb x 0))
  end.

Definition xdiv (a b : xr) : xr :=
  match a, b with
  | Fin x, Fin y => if Req y 0 then (if Req x 0 then NaN else Inf (Rltb x 0)) else Fin (x / y)
  | NaN, _ | _, NaN => NaN
  | Inf _, Inf _ => NaN
  | Inf s, Fin y => Inf (xorb s (Rltb y 0))
  | Fin _, Inf _ => Fin 0
  end.

Definition xabs (a : xr) : xr :=
  match a with Fin r => Fin (Rabs r) | Inf _ => Inf false | NaN => NaN end.

Definition xsqrt (a : xr) : xr :=
  match a with
  | Fin r => if Rltb r 0 then NaN else Fin (sqrt r)
  | Inf false => Inf false
  | _ => NaN
  end.

Definition xltb (a b : xr) : bool :=
  match a, b with
  | Fin x, Fin y => Rltb x y
  | Inf true, Inf false | Inf true, Fin _ | Fin _, Inf false => true
  | _, _ => false
  end.

Definition xeqb (a b : xr) : bool :=
  match a, b with
  | Fin x, Fin y => Req x y
  | Inf s, Inf t => Bool.eqb s t
  | _, _ => false
  end.

Definition xleb (a b : xr) : bool :=
  match a, b with
  | Fin x, Fin y => Rleb x y
  | _, _ => xltb a b || xeqb a b
  end.

Definition xmap (f : R -> xr) (g : bool -> xr) (a : xr) : xr :=
  match a with Fin r => f r | Inf s => g s | NaN => NaN end.

Definition xtoN (a : xr) : N :=
  match a with
  | NaN => 0%N
  | Inf s => if s then 0%N else (two64 - 1)%N
  | Fin r => Z.to_N (Z.min (Z.of_N two64 - 1) (Ztrunc r))
  end.

(** Logarithm in base [b > 1]. *)
Definition xlog (b : R) (a : xr) : xr :=
  xmap (fun r => if Rltb 0 r then Fin (ln r / ln b) else if Req r 0 then Inf true else NaN)
       (fun s => if s then NaN else Inf false) a.

(** [powf] on a non-negative base and a real exponent; NaN elsewhere (the crate
    raises only non-negative numbers). *)
Definition xpow (a b : xr) : xr :=
  match a, b with
  | Fin x, Fin y =>
      if Rltb 0 x then Fin (Rpower x y)
      else if Req x 0 then
        (if Req y 0 then Fin 1 else if Rltb y 0 then Inf false else Fin 0)
      else NaN
  | _, _ => NaN
  end.

Definition xofN (n : N) : xr := Fin (IZR (Z.of_N n)).

Global Instance XR : FOps xr := {|
  fadd := xadd;
  fsub := xsub;
  fmul := xmul;
  fdiv := xdiv;
  fneg := xneg;
  fabs := xabs;
  fsqrt := xsqrt;
  fltb := xltb;
  fleb := xleb;
  feqb := xeqb;
  fisnan a := match a with NaN => true | _ => false end;
  fsignbit a := match a with Fin r => Rltb r 0 | Inf s => s | NaN => false end;
  fnan := NaN;
  finf := Inf false;
  fmaxval := Fin (IZR (2 ^ 1024 - 2 ^ 971));
  feps := Fin (/ IZR (2 ^ 52));
  fpi := Fin PI;
  flit n d := Fin (IZR n / IZR (Zpos d));
  fofN := xofN;
  ffloor := xmap (fun r => Fin (IZR (Zfloor r))) Inf;
  fceil := xmap (fun r => Fin (IZR (Zceil r))) Inf;
  ftrunc := xmap (fun r => Fin (IZR (Ztrunc r))) Inf;
  ftoN := xtoN;
  fln := xmap (fun r => if Rltb 0 r then Fin (ln r) else if Req r 0 then Inf true else NaN)
              (fun s => if s then NaN else Inf false);
  fexp := xmap (fun r => Fin (exp r)) (fun s => if s then Fin 0 else Inf false);
  flog2 := xlog 2;
  flog10 := xlog 10;
  fcos := xmap (fun r => Fin (cos r)) (fun _ => NaN);
  fatan := xmap (fun r => Fin (atan r)) (fun s => Fin (if s then - (PI / 2) else PI / 2));
  fpow := xpow;
  fsum0 := Fin 0
|}.
