From Coq Require Import ZArith.
From Flocq Require Import IEEE754.BinarySingleNaN.
From Verif Require Import B64.
Local Open Scope Z_scope.

Definition P : Z := 180.
Definition one : Z := 2 ^ P.
Definition fmulz (a b : Z) : Z := Z.shiftr (a * b) P.
Definition fdivz (a b : Z) : Z := (Z.shiftl a P) / b.
Definition rnd (z : Z) (e : Z) : f64 := binary_normalize 53 1024 _ _ mode_NE z (e - P) false.

Fixpoint atanh_ser (n : nat) (t2 p j acc : Z) : Z :=
  match n with O => acc | S n' => atanh_ser n' t2 (fmulz p t2) (j + 2) (acc + p / j) end.
Definition ln_f (f : Z) : Z := (* f in [1,2] fixed *)
  let t := fdivz (f - one) (f + one) in 2 * atanh_ser 64 (fmulz t t) t 1 0.
Definition ln2 : Z := Eval vm_compute in ln_f (2 * one).
Definition ln_z (m : positive) (e : Z) : Z :=
  let d := Zpos (Pos.size m) in
  ln_f (Z.shiftl (Zpos m) (P - (d - 1))) + (e + d - 1) * ln2.
Definition ln10 : Z := Eval vm_compute in ln_z 10 0.
Definition fix_of (s : bool) (m : positive) (e : Z) : Z :=
  let z := Z.shiftl (Zpos m) (e + P) in if s then - z else z.

Definition t_log (den : Z) (x : f64) : f64 :=
  match x with
  | B754_nan => B754_nan
  | B754_zero _ => B754_infinity true
  | B754_infinity s => if s then B754_nan else x
  | B754_finite s m e _ => if s then B754_nan else rnd (fdivz (ln_z m e) den) 0
  end.
Fixpoint exp_ser (n : nat) (r p j acc : Z) : Z :=
  match n with O => acc | S n' => exp_ser n' r (fmulz p r / j) (j + 1) (acc + p) end.
Definition exp_z (X : Z) : f64 :=
  let k := X / ln2 in let r := X - k * ln2 in
  if k <? -1100 then B754_zero false else if 1030 <? k then B754_infinity false else
  rnd (exp_ser 48 r one 1 0) k.
Definition t_exp (x : f64) : f64 :=
  match x with
  | B754_nan => B754_nan
  | B754_zero _ => b64_of_Z 1
  | B754_infinity s => if s then B754_zero false else x
  | B754_finite s m e _ => exp_z (fix_of s m e)
  end.
Definition t_pow (x y : f64) : f64 :=
  match x, y with
  | B754_finite false m e _, B754_finite s' m' e' _ => exp_z (fmulz (ln_z m e) (fix_of s' m' e'))
  | B754_finite _ _ _ _, B754_zero _ => b64_of_Z 1
  | B754_finite false _ _ _, B754_infinity true => B754_zero false
  | _, _ => B754_nan
  end.
Fixpoint cos_ser (n : nat) (x2 p j acc : Z) : Z :=
  match n with O => acc | S n' => cos_ser n' x2 (- fmulz p x2 / (j * (j + 1))) (j + 2) (acc + p) end.
Definition t_cos (x : f64) : f64 :=
  match x with
  | B754_zero _ => b64_of_Z 1
  | B754_finite s m e _ => let X := fix_of s m e in rnd (cos_ser 40 (fmulz X X) one 1 0) 0
  | _ => B754_nan
  end.
Fixpoint atan_ser (n : nat) (t2 p j acc : Z) : Z :=
  match n with O => acc | S n' => atan_ser n' t2 (- fmulz p t2) (j + 2) (acc + p / j) end.
Definition half_atan (t : Z) : Z := fdivz t (one + Z.sqrt (Z.shiftl one P + t * t)).
Definition t_atan (x : f64) : f64 :=
  match x with
  | B754_zero _ => x
  | B754_finite s m e _ =>
      let t := half_atan (half_atan (half_atan (half_atan (fix_of s m e)))) in
      rnd (16 * atan_ser 40 (fmulz t t) t 1 0) 0
  | B754_infinity s => Bdiv mode_NE (if s then Bopp b64_pi else b64_pi) (b64_of_Z 2)
  | B754_nan => B754_nan
  end.
Definition tlm : libm :=
  {| lm_ln := t_log one; lm_exp := t_exp; lm_log2 := t_log ln2; lm_log10 := t_log ln10;
     lm_cos := t_cos; lm_atan := t_atan; lm_pow := t_pow; lm_negsum0 := false |}.
Definition fl (m e : Z) : f64 := binary_normalize 53 1024 _ _ mode_NE m e false.
Definition out (x : f64) : Z * Z :=
  match x with
  | B754_nan => (0, 9999) | B754_infinity s => (if s then -1 else 1, 9998)
  | B754_zero s => (0, if s then -1 else 0)
  | B754_finite s m e _ => ((if s then Zneg m else Zpos m), e)
  end.
