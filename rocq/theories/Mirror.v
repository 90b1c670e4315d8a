(** * Mirror: arithmetic does not favour rising over falling prices.

    [FSym] lists what an arithmetic needs for that: negation commutes with every
    operation, up to the sign of a zero ([x - x] is [+0.0] also after negating
    both).  Binary64 with rounding to nearest even has it, and so have the exact
    extended reals. *)

From Coq Require Import Reals Lra Lia.
From Flocq Require Import IEEE754.BinarySingleNaN.
From Verif Require Import Base Num B64 XReal XRFacts F64 F64Facts.
Local Unset Implicit Arguments.

Class FSym (F : Type) {FO : FOps F} := {
  eqv : F -> F -> Prop;                 (* equal, or both zero *)
  eqv_refl a : eqv a a;
  eqv_sym a b : eqv a b -> eqv b a;
  eqv_trans a b c : eqv a b -> eqv b c -> eqv a c;
  sub_add a b : fsub a b = fadd a (fneg b);
  add_comm a b : fadd a b = fadd b a;
  mul_comm a b : fmul a b = fmul b a;
  neg_neg a : fneg (fneg a) = a;
  eqv_neg a b : eqv a b -> eqv (fneg a) (fneg b);
  eqv_add a a' b : eqv a a' -> eqv (fadd a b) (fadd a' b);
  neg_add a b : eqv (fadd (fneg a) (fneg b)) (fneg (fadd a b));
  eqv_mul a a' b : eqv a a' -> eqv (fmul a b) (fmul a' b);
  neg_mul a b : fmul (fneg a) b = fneg (fmul a b);
  eqv_div a a' b : eqv a a' -> eqv (fdiv a b) (fdiv a' b);
  neg_div a b : fdiv (fneg a) b = fneg (fdiv a b);
  eqv_abs a b : eqv a b -> fabs a = fabs b;
  abs_neg a : fabs (fneg a) = fabs a;
  eqv_sq a b : eqv a b -> fmul a a = fmul b b;
  eqv_isnan a b : eqv a b -> fisnan a = fisnan b;
  neg_isnan a : fisnan (fneg a) = fisnan a;
  eqv_ltb a a' b b' : eqv a a' -> eqv b b' -> fltb a b = fltb a' b';
  eqv_leb a a' b b' : eqv a a' -> eqv b b' -> fleb a b = fleb a' b';
  eqv_eqb a a' b b' : eqv a a' -> eqv b b' -> feqb a b = feqb a' b';
  neg_ltb a b : fltb (fneg a) (fneg b) = fltb b a;
  neg_leb a b : fleb (fneg a) (fneg b) = fleb b a;
  neg_eqb a b : feqb (fneg a) (fneg b) = feqb a b;
  neg_zero : eqv (fneg (flit 0 1)) (flit 0 1);
  sum0_zero : eqv fsum0 (flit 0 1);
  zero_num : fisnan (flit 0 1) = false;
  neg_fnan : fneg fnan = fnan;
  eqv_pos a b : eqv a b -> fltb (flit 0 1) a = true -> a = b;
  nan_eq a : fisnan a = true -> a = fnan;
  abs_div a a' b b' : fabs a = fabs a' -> fabs b = fabs b' -> fabs (fdiv a b) = fabs (fdiv a' b');
  ltb_asym a b : fltb a b = true -> fltb b a = false;
  nlt_trans a b c : fisnan b = false -> fltb a b = false -> fltb b c = false -> fltb a c = false;
  eqb_join a b c : feqb a c = true -> feqb b c = true -> feqb a b = true;
  abs_eqb a b : feqb (fabs a) (fabs b) = true -> fabs a = fabs b;
  abs_tie a b : fisnan (fabs a) = false -> fisnan (fabs b) = false ->
    fltb (fabs a) (fabs b) = false -> fltb (fabs b) (fabs a) = false -> fabs a = fabs b
}.

(** ** binary64 *)

Definition zero64 (x : f64) : bool := match x with B754_zero _ => true | _ => false end.
Definition eqv64 (x y : f64) : Prop := x = y \/ (zero64 x = true /\ zero64 y = true).

Lemma SF2B_eq {p e} z z' (H : SpecFloat.valid_binary p e z = true) (H' : SpecFloat.valid_binary p e z' = true) : z = z' -> SF2B z H = SF2B z' H'.
Proof. intros E. apply B2SF_inj. now rewrite !B2SF_SF2B. Qed.
Lemma B2SF_Bopp (x : f64) : B2SF (Bopp x) = SpecFloat.SFopp (B2SF x).
Proof. now destruct x. Qed.
Lemma B2SF_Babs (x : f64) : B2SF (Babs x) = SpecFloat.SFabs (B2SF x).
Proof. now destruct x. Qed.
Lemma round_aux_opp s m e l :
  binary_round_aux 53 1024 mode_NE (negb s) m e l = SpecFloat.SFopp (binary_round_aux 53 1024 mode_NE s m e l).
Proof.
  unfold binary_round_aux. destruct (SpecFloat.shr_fexp 53 1024 m e l) as [mrs e1]. cbn [choice_mode].
  match goal with |- context [SpecFloat.shr_fexp 53 1024 ?a ?b ?c] => destruct (SpecFloat.shr_fexp 53 1024 a b c) as [mrs2 e2] end.
  destruct (SpecFloat.shr_m mrs2); [easy| |easy]. unfold binary_fit_aux. destruct (Z.leb _ _); [easy|]. now unfold binary_overflow.
Qed.
Lemma round_opp s m e : binary_round 53 1024 mode_NE (negb s) m e = SpecFloat.SFopp (binary_round 53 1024 mode_NE s m e).
Proof. unfold binary_round. destruct (shl_align_fexp 53 1024 m e). apply round_aux_opp. Qed.
Lemma normalize_opp m e s : m <> 0%Z ->
  binary_normalize 53 1024 _ _ mode_NE (- m) e s = Bopp (binary_normalize 53 1024 _ _ mode_NE m e s).
Proof.
  intros N. apply B2SF_inj. rewrite B2SF_Bopp. destruct m as [|m|m]; [easy| |]; cbn [Z.opp binary_normalize]; rewrite !B2SF_SF2B.
  - exact (round_opp false m e).
  - exact (round_opp true m e).
Qed.
Lemma naive_opp sx mx ex sy my ey ez :
  Fplus_naive (negb sx) mx ex (negb sy) my ey ez = (- Fplus_naive sx mx ex sy my ey ez)%Z.
Proof. unfold Fplus_naive. destruct sx, sy; cbn [negb SpecFloat.cond_Zopp]; lia. Qed.
Lemma zero_normalize m e s : m = 0%Z -> zero64 (binary_normalize 53 1024 _ _ mode_NE m e s) = true.
Proof. now intros ->. Qed.

Section B64.
  Variable m : libm.
  Local Ltac fin := first [reflexivity | left; reflexivity | right; split; reflexivity].
  Lemma b_neg_add (a b : f64) : eqv64 (Bplus mode_NE (Bopp a) (Bopp b)) (Bopp (Bplus mode_NE a b)).
  Proof.
    destruct a as [[]|[]| |sx mx ex Hx], b as [[]|[]| |sy my ey Hy]; try fin.
    cbn [Bopp Bplus]. rewrite naive_opp. destruct (Z.eq_dec (Fplus_naive sx mx ex sy my ey (Z.min ex ey)) 0) as [E|E].
    - rewrite E. cbn. now right.
    - rewrite normalize_opp by exact E. now left.
  Qed.
  Lemma b_add_comm (a b : f64) : Bplus mode_NE a b = Bplus mode_NE b a.
  Proof.
    destruct a as [[]|[]| |sx mx ex Hx], b as [[]|[]| |sy my ey Hy]; try fin.
    cbn [Bplus]. rewrite (Z.min_comm ey). f_equal. unfold Fplus_naive. apply Z.add_comm.
  Qed.
  Lemma b_sub_add (a b : f64) : Bminus mode_NE a b = Bplus mode_NE a (Bopp b).
  Proof. destruct a as [[]|[]| |sx mx ex Hx], b as [[]|[]| |sy my ey Hy]; fin. Qed.
  Lemma b_mul_comm (a b : f64) : Bmult mode_NE a b = Bmult mode_NE b a.
  Proof.
    destruct a as [[]|[]| |sx mx ex Hx], b as [[]|[]| |sy my ey Hy]; try fin. cbn [Bmult].
    apply SF2B_eq. rewrite (Bool.xorb_comm sx), (Pos.mul_comm mx), (Z.add_comm ex). reflexivity.
  Qed.
  Lemma b_neg_mul (a b : f64) : Bmult mode_NE (Bopp a) b = Bopp (Bmult mode_NE a b).
  Proof.
    destruct a as [[]|[]| |sx mx ex Hx], b as [[]|[]| |sy my ey Hy]; try reflexivity; try (destruct sx; reflexivity); try (destruct sy; reflexivity).
    apply B2SF_inj. rewrite B2SF_Bopp. cbn [Bmult Bopp]. rewrite !B2SF_SF2B. rewrite <- Bool.negb_xorb_l. apply round_aux_opp.
  Qed.
  Lemma b_neg_div (a b : f64) : Bdiv mode_NE (Bopp a) b = Bopp (Bdiv mode_NE a b).
  Proof.
    destruct a as [[]|[]| |sx mx ex Hx], b as [[]|[]| |sy my ey Hy]; try reflexivity; try (destruct sx; reflexivity); try (destruct sy; reflexivity).
    apply B2SF_inj. rewrite B2SF_Bopp. cbn [Bdiv Bopp]. rewrite !B2SF_SF2B. rewrite <- Bool.negb_xorb_l.
    destruct (SpecFloat.SFdiv_core_binary _ _ _ _ _ _) as [[q e] l]. apply round_aux_opp.
  Qed.
  Lemma eqv_case (P : f64 -> f64 -> Prop) a b : (forall x, P x x) -> (forall s t, P (B754_zero s) (B754_zero t)) -> eqv64 a b -> P a b.
  Proof. intros R Z [->|[A B]]; [apply R|]. destruct a, b; try easy. Qed.
  Ltac cases := match goal with H : eqv64 ?a ?b |- _ => pattern a, b; apply (eqv_case _ a b); [intros ?| |exact H]; clear a b H end.
  Lemma e_refl a : eqv64 a a. Proof. now left. Qed.
  Lemma z_cmp (s t : bool) (b : f64) : SpecFloat.SFcompare (B2SF (B754_zero s : f64)) (B2SF b) = SpecFloat.SFcompare (B2SF (B754_zero t : f64)) (B2SF b)
    /\ SpecFloat.SFcompare (B2SF b) (B2SF (B754_zero s : f64)) = SpecFloat.SFcompare (B2SF b) (B2SF (B754_zero t : f64)).
  Proof. now destruct b as [[]|[]| |[]]. Qed.
  Lemma e_cmp a a' b b' : eqv64 a a' -> eqv64 b b' -> SpecFloat.SFcompare (B2SF a) (B2SF b) = SpecFloat.SFcompare (B2SF a') (B2SF b').
  Proof.
    intros H K. transitivity (SpecFloat.SFcompare (B2SF a') (B2SF b)).
    - clear K. cases; [easy|]. intros. apply z_cmp.
    - clear H. cases; [easy|]. intros. apply z_cmp.
  Qed.
  Lemma n_cmp (a b : f64) : SpecFloat.SFcompare (B2SF (Bopp a)) (B2SF (Bopp b)) = SpecFloat.SFcompare (B2SF b) (B2SF a).
  Proof.
    destruct a as [[]|[]| |[] mx ex Hx], b as [[]|[]| |[] my ey Hy]; try reflexivity; cbn [Bopp B2SF negb SpecFloat.SFcompare];
      rewrite (Z.compare_antisym ex ey); destruct (Z.compare ex ey); cbn [CompOpp]; try reflexivity;
      change (Pos.compare_cont Eq mx my) with (Pos.compare mx my); change (Pos.compare_cont Eq my mx) with (Pos.compare my mx);
      rewrite (Pos.compare_antisym mx my); now destruct (Pos.compare mx my).
  Qed.
  Lemma s_cmp (a b : f64) : SpecFloat.SFcompare (B2SF b) (B2SF a) = match SpecFloat.SFcompare (B2SF a) (B2SF b) with Some c => Some (CompOpp c) | None => None end.
  Proof. exact (Bcompare_swap _ _ a b). Qed.
  Lemma b_abs_div (a b : f64) : Babs (Bdiv mode_NE a b) = Babs (Bdiv mode_NE (Babs a) (Babs b)).
  Proof.
    assert (N : forall x y : f64, Babs (Bdiv mode_NE (Bopp x) y) = Babs (Bdiv mode_NE x y)).
    { intros. rewrite b_neg_div. now destruct (Bdiv mode_NE x y). }
    assert (D : forall x y : f64, Babs (Bdiv mode_NE x (Bopp y)) = Babs (Bdiv mode_NE x y)).
    { intros x y. destruct x as [[]|[]| |sx mx ex Hx], y as [[]|[]| |sy my ey Hy]; try reflexivity; try (destruct sx; reflexivity); try (destruct sy; reflexivity).
      apply B2SF_inj. cbn [Bdiv Bopp]. rewrite !B2SF_Babs, !B2SF_SF2B. rewrite <- Bool.negb_xorb_r.
      destruct (SpecFloat.SFdiv_core_binary _ _ _ _ _ _) as [[q e] l]. rewrite round_aux_opp. now destruct (binary_round_aux _ _ _ _ _ _ _). }
    assert (X : forall x : f64, Babs x = x \/ Babs x = Bopp x) by (intros [[]|[]| |[]]; auto).
    destruct (X a) as [-> | ->], (X b) as [-> | ->]; rewrite ?N, ?D; reflexivity.
  Qed.
  Lemma b_abs_eqb (a b : f64) : Beqb (Babs a) (Babs b) = true -> Babs a = Babs b.
  Proof.
    unfold Beqb, SpecFloat.SFeqb. intros H. apply B2SF_inj. revert H.
    destruct a as [[]|[]| |sx mx ex Hx], b as [[]|[]| |sy my ey Hy]; cbn; try easy.
    destruct (Z.compare ex ey) eqn:A; try easy. destruct (Pos.compare_cont Eq mx my) eqn:B; try easy. intros _.
    apply Z.compare_eq in A. apply Pos.compare_eq in B. now subst.
  Qed.
  Lemma b_eqb_join (a b c : f64) : Beqb a c = true -> Beqb b c = true -> Beqb a b = true.
  Proof.
    unfold Beqb, SpecFloat.SFeqb.
    destruct a as [[]|[]| |[] mx ex Hx], b as [[]|[]| |[] my ey Hy], c as [[]|[]| |[] mz ez Hz]; cbn; try easy.
    all: change Pos.compare_cont with Pos.compare_cont; destruct (Z.compare ex ez) eqn:A, (Z.compare ey ez) eqn:B; try easy.
    all: apply Z.compare_eq in A, B; subst; rewrite Z.compare_refl.
    all: destruct (Pos.compare_cont Eq mx mz) eqn:A; try easy; destruct (Pos.compare_cont Eq my mz) eqn:B; try easy.
    all: apply Pos.compare_eq in A, B; subst; change (Pos.compare_cont Eq mz mz) with (Pos.compare mz mz); now rewrite Pos.compare_refl.
  Qed.
  Global Instance B64Sym : FSym f64 (FO := B64 m).
  Proof.
    refine {| eqv := eqv64 |}; cbn [fadd fsub fmul fdiv fneg fabs fltb fleb feqb fisnan fnan flit fsum0 B64].
    - exact e_refl.
    - intros a b [->|[]]; [now left|now right].
    - intros a b c [->|[]] [->|[]]; [now left|now right|now right|now right].
    - exact b_sub_add.
    - exact b_add_comm.
    - exact b_mul_comm.
    - exact (Bopp_involutive 53 1024).
    - intros a b H. cases; [fin|]. intros; fin.
    - intros a a' b H. cases; [fin|]. intros [] []; destruct b as [[]|[]| |]; fin.
    - exact b_neg_add.
    - intros a a' b H. cases; [fin|]. intros [] []; destruct b as [[]|[]| |[]]; fin.
    - exact b_neg_mul.
    - intros a a' b H. cases; [fin|]. intros [] []; destruct b as [[]|[]| |[]]; fin.
    - exact b_neg_div.
    - intros a b H. cases; [fin|]. intros; fin.
    - intros []; fin.
    - intros a b H. cases; [fin|]. intros [] []; fin.
    - intros a b H. cases; [fin|]. intros; fin.
    - intros []; fin.
    - intros a a' b b' H K. unfold Bltb, SpecFloat.SFltb. now rewrite (e_cmp a a' b b').
    - intros a a' b b' H K. unfold Bleb, SpecFloat.SFleb. now rewrite (e_cmp a a' b b').
    - intros a a' b b' H K. unfold Beqb, SpecFloat.SFeqb. now rewrite (e_cmp a a' b b').
    - intros a b. unfold Bltb, SpecFloat.SFltb. now rewrite n_cmp.
    - intros a b. unfold Bleb, SpecFloat.SFleb. now rewrite n_cmp.
    - intros a b. unfold Beqb, SpecFloat.SFeqb. rewrite n_cmp, s_cmp. now destruct (SpecFloat.SFcompare (B2SF a) (B2SF b)) as [[]|].
    - right. now split.
    - right. now split.
    - reflexivity.
    - reflexivity.
    - intros a b H. cases; [easy|]. intros s t L. exfalso. revert L. now destruct s.
    - now intros [].
    - intros a a' b b' A B. now rewrite (b_abs_div a b), (b_abs_div a' b'), A, B.
    - intros a b. unfold Bltb, SpecFloat.SFltb. rewrite s_cmp. now destruct (SpecFloat.SFcompare (B2SF b) (B2SF a)) as [[]|].
    - exact not_less_trans.
    - exact b_eqb_join.
    - exact b_abs_eqb.
    - intros a b A B L M. apply b_abs_eqb. revert A B L M. unfold Bltb, Beqb, SpecFloat.SFltb, SpecFloat.SFeqb. rewrite (s_cmp (Babs a) (Babs b)).
      destruct (SpecFloat.SFcompare (B2SF (Babs a)) (B2SF (Babs b))) as [[]|] eqn:C; try easy.
      intros A B. exfalso. revert C. now destruct a as [[]|[]| |[]], b as [[]|[]| |[]].
  Defined.
End B64.

(** ** exact arithmetic *)
Ltac tests := repeat match goal with
  | |- context [Req ?a ?b] => unfold Req at 1; destruct (Req_EM_T a b)
  | |- context [Rltb ?a ?b] => unfold Rltb at 1; destruct (Rlt_dec a b)
  | |- context [Rleb ?a ?b] => unfold Rleb at 1; destruct (Rle_dec a b)
  end; cbn; try reflexivity; try lra; try (exfalso; lra).
Global Instance XRSym : FSym xr.
Proof.
  refine {| eqv := @eq xr |}.
  - easy.
  - easy.
  - congruence.
  - intros [|[]|] [|[]|]; reflexivity.
  - intros [|[]|] [|[]|]; cbn; try reflexivity. f_equal. ring.
  - intros [|[]|] [|[]|]; cbn; try reflexivity. f_equal. ring.
  - intros [|[]|]; cbn; try reflexivity. f_equal. ring.
  - now intros a b ->.
  - now intros a a' b ->.
  - intros [|[]|] [|[]|]; cbn; try reflexivity. f_equal. ring.
  - now intros a a' b ->.
  - intros [|[]|] [|[]|]; cbn; try reflexivity; tests. f_equal. ring.
  - now intros a a' b ->.
  - intros [|[]|] [|[]|]; cbn; try reflexivity; tests. all: f_equal; try lra.
  - now intros a b ->.
  - intros [|[]|]; cbn; try reflexivity. f_equal. apply Rabs_Ropp.
  - now intros a b ->.
  - now intros a b ->.
  - intros [|[]|]; reflexivity.
  - now intros a a' b b' -> ->.
  - now intros a a' b b' -> ->.
  - now intros a a' b b' -> ->.
  - intros [|[]|] [|[]|]; cbn; try reflexivity; tests.
  - intros [|[]|] [|[]|]; cbn; try reflexivity; tests.
  - intros [|[]|] [|[]|]; cbn; try reflexivity; tests.
  - cbn. f_equal. lra.
  - cbn. f_equal. lra.
  - reflexivity.
  - reflexivity.
  - easy.
  - now intros [].
  - assert (X : forall a b, xabs (xdiv a b) = xabs (xdiv (xabs a) (xabs b))).
    { assert (Z : forall z, Rabs z = 0%R <-> z = 0%R) by (intros; split; [unfold Rabs; destruct (Rcase_abs z); lra|intros ->; apply Rabs_R0]).
      assert (Q : forall z, Req (Rabs z) 0 = Req z 0) by (intros z; pose proof (Z z); unfold Req; destruct (Req_EM_T z 0), (Req_EM_T (Rabs z) 0); tauto).
      intros [x|[]|] [y|[]|]; cbn; try reflexivity. rewrite !Q. destruct (Req y 0); [now destruct (Req x 0)|]. cbn. f_equal.
      unfold Rdiv. now rewrite !Rabs_mult, !Rabs_inv, !Rabs_Rabsolu. }
    intros a a' b b' A B. cbn in *. now rewrite (X a b), (X a' b'), A, B.
  - intros [|[]|] [|[]|]; cbn; try easy; tests.
  - intros [|[]|] [|[]|] [|[]|]; cbn; try easy; tests; easy.
  - intros [|[]|] [|[]|] [|[]|]; cbn; try easy; tests; easy.
  - intros [|[]|] [|[]|]; cbn; try easy; tests. intros _. now f_equal.
  - intros [|[]|] [|[]|]; cbn; try easy; tests; try easy. intros _ _ _ _. f_equal. lra.
Defined.
