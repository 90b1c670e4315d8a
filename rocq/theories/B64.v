(** * B64: the IEEE-754 binary64 instance of [FOps], from Flocq.

    Rust's [f64] is IEEE-754 binary64; [+ - * / sqrt] round to nearest, ties to
    even; there is one NaN up to the observations the crate makes.  Flocq's
    [BinarySingleNaN] formalises exactly that.  The functions the standard does
    not pin down ([ln], [exp], ...) are taken from an arbitrary record [libm]
    and theorems quantify over it. *)

From Coq Require Import ZArith NArith Lia.
From Flocq Require Import IEEE754.BinarySingleNaN.
From Verif Require Export Num.

Definition f64 : Type := binary_float 53 1024.

Global Instance prec53 : FLX.Prec_gt_0 53.
Proof. reflexivity. Qed.
Global Instance emax1024 : Prec_lt_emax 53 1024.
Proof. reflexivity. Qed.

(** The part of the platform that IEEE-754 and the Rust reference leave open. *)
Record libm : Type := {
  lm_ln : f64 -> f64;
  lm_exp : f64 -> f64;
  lm_log2 : f64 -> f64;
  lm_log10 : f64 -> f64;
  lm_cos : f64 -> f64;
  lm_atan : f64 -> f64;
  lm_pow : f64 -> f64 -> f64;
  lm_negsum0 : bool     (* [Iterator::sum] starts from -0.0 (Rust >= 1.83) or 0.0 *)
}.

(** The float nearest to an integer. *)
Definition b64_of_Z (z : Z) : f64 :=
  binary_normalize 53 1024 _ _ mode_NE z 0 false.

(** A literal [n/d]: the nearest float when [n] and [d] are exact, which is the
    case of every literal in the model. *)
Definition b64_lit (n : Z) (d : positive) : f64 :=
  match d with
  | xH => b64_of_Z n
  | _ => Bdiv mode_NE (b64_of_Z n) (b64_of_Z (Zpos d))
  end.

(** [x as usize]: saturating, NaN to 0. *)
Definition b64_toN (x : f64) : N :=
  match x with
  | B754_nan => 0%N
  | B754_infinity s => if s then 0%N else (two64 - 1)%N
  | _ => Z.to_N (Z.min (Z.of_N two64 - 1) (Btrunc x))
  end.

(** π rounded to nearest: 0x1.921fb54442d18p+1. *)
Definition b64_pi : f64 := binary_normalize 53 1024 _ _ mode_NE 884279719003555 (-48) false.
Definition b64_eps : f64 := binary_normalize 53 1024 _ _ mode_NE 1 (-52) false.

Global Instance B64 (m : libm) : FOps f64 := {|
  fadd := Bplus mode_NE;
  fsub := Bminus mode_NE;
  fmul := Bmult mode_NE;
  fdiv := Bdiv mode_NE;
  fneg := Bopp;
  fabs := Babs;
  fsqrt := Bsqrt mode_NE;
  fltb := Bltb;
  fleb := Bleb;
  feqb := Beqb;
  fisnan := is_nan;
  fsignbit := Bsign;
  fnan := B754_nan;
  finf := B754_infinity false;
  fmaxval := Bmax_float;
  feps := b64_eps;
  fpi := b64_pi;
  flit := b64_lit;
  fofN n := b64_of_Z (Z.of_N n);
  ffloor := Bnearbyint mode_DN;
  fceil := Bnearbyint mode_UP;
  ftrunc := Bnearbyint mode_ZR;
  ftoN := b64_toN;
  fln := lm_ln m;
  fexp := lm_exp m;
  flog2 := lm_log2 m;
  flog10 := lm_log10 m;
  fcos := lm_cos m;
  fatan := lm_atan m;
  fpow := lm_pow m;
  fsum0 := B754_zero (lm_negsum0 m)
|}.
