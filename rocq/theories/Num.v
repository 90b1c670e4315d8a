(** * Num: the interface of [f64] the crate uses.

    Every model function is written once, over an arbitrary [FOps F].  Three
    instances matter:
    - [B64 m] (file B64.v): IEEE-754 binary64, round to nearest even, as
      formalised by Flocq, with the transcendental functions of [m : libm];
    - [XR] (file XReal.v): exact extended real arithmetic;
    - any other [F]: theorems stated for all [FOps F] hold bit for bit whatever
      the arithmetic does. *)

From Verif Require Export Base.

Class FOps (F : Type) := {
  fadd : F -> F -> F;
  fsub : F -> F -> F;
  fmul : F -> F -> F;
  fdiv : F -> F -> F;
  fneg : F -> F;
  fabs : F -> F;
  fsqrt : F -> F;
  fltb : F -> F -> bool;            (* [<]  : false on NaN *)
  fleb : F -> F -> bool;            (* [<=] : false on NaN *)
  feqb : F -> F -> bool;            (* [==] : false on NaN *)
  fisnan : F -> bool;
  fsignbit : F -> bool;             (* sign bit: true for -0.0 *)
  fnan : F;
  finf : F;
  fmaxval : F;                      (* [f64::MAX] *)
  feps : F;                         (* [f64::EPSILON] *)
  fpi : F;                          (* [f64::consts::PI] *)
  flit : Z -> positive -> F;        (* decimal literal num/den *)
  fofN : N -> F;                    (* [usize as f64] *)
  ffloor : F -> F;
  fceil : F -> F;
  ftrunc : F -> F;
  ftoN : F -> N;                    (* [f64 as usize]: saturating, NaN -> 0 *)
  fln : F -> F;
  fexp : F -> F;
  flog2 : F -> F;
  flog10 : F -> F;
  fcos : F -> F;
  fatan : F -> F;
  fpow : F -> F -> F;               (* [powf] *)
  fsum0 : F                         (* the value [Iterator::sum] starts from *)
}.

Declare Scope F_scope.
Delimit Scope F_scope with F.
Notation "a + b" := (fadd a b) : F_scope.
Notation "a - b" := (fsub a b) : F_scope.
Notation "a * b" := (fmul a b) : F_scope.
Notation "a / b" := (fdiv a b) : F_scope.
Notation "- a" := (fneg a) : F_scope.
Notation "a <? b" := (fltb a b) : F_scope.
Notation "a <=? b" := (fleb a b) : F_scope.
Notation "a =? b" := (feqb a b) : F_scope.
Notation "# n" := (flit n%Z 1%positive) (at level 1, n at level 0, format "# n") : F_scope.

Section Derived.
  Context {F : Type} {O : FOps F}.
  Local Open Scope F_scope.

  (** [n as f64] for a [usize] given as [nat]. *)
  Definition fofnat (n : nat) : F := fofN (N.of_nat n).

  (** [a > b], [a >= b], [a != b]. *)
  Definition fgtb (a b : F) : bool := b <? a.
  Definition fgeb (a b : F) : bool := b <=? a.
  Definition fneb (a b : F) : bool := negb (a =? b).

  (** [f64::max], [f64::min]: a NaN operand is ignored.  On [(0.0, -0.0)] the
      real function may return either zero; the model returns the first. *)
  Definition fmax (a b : F) : F :=
    if fisnan a then b else if fisnan b then a else if a <? b then b else a.
  Definition fmin (a b : F) : F :=
    if fisnan a then b else if fisnan b then a else if b <? a then b else a.

  (** [f64::signum]: NaN on NaN, otherwise 1.0 with the sign bit of the
      argument (so [signum 0.0 = 1.0], [signum (-0.0) = -1.0]). *)
  Definition fsignum (a : F) : F :=
    if fisnan a then fnan else if fsignbit a then - #1 else #1.

  (** [f64::clamp]: [assert!(lo <= hi)]; NaN stays NaN. *)
  Definition fclamp_val (x lo hi : F) : F :=
    let y := if x <? lo then lo else x in if hi <? y then hi else y.
  Definition fclamp (x lo hi : F) : result F :=
    if lo <=? hi then Ok (fclamp_val x lo hi) else Panic.

  (** [powi] with small constant exponents, by repeated squaring (compiler-rt's
      [__powidf2] and LLVM's expansion of constant exponents). *)
  Definition powi2 (x : F) : F := x * x.
  Definition powi3 (x : F) : F := x * (x * x).
  Definition powi4 (x : F) : F := (x * x) * (x * x).

  (** [b as u8 as f64]. *)
  Definition fbool (b : bool) : F := if b then #1 else #0.

  (** [iter.sum::<f64>()]. *)
  Definition fsum (l : list F) : F := fold_left fadd l fsum0.

  (** [f64::MIN]. *)
  Definition fminval : F := - fmaxval.

  (** [w[i]] where the index is known to be inside the slice (the slice comes
      from [windows], whose items have a known length: see
      [windows_length] in BaseFacts.v). *)
  Definition at_ (l : list F) (i : nat) : F := nth i l fnan.
  (** [w[w.len() - 1]], [w.last().unwrap()] on a non-empty slice. *)
  Definition last_ (l : list F) : F := nth (length l - 1) l fnan.

  (** [x.fract()] *)
  Definition ffract (x : F) : F := x - ftrunc x.
End Derived.
