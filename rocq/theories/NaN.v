(** * NaN: how a NaN travels through the code.

    [FNan] collects what IEEE-754 says of NaN; binary64 and the exact instance
    both satisfy it, so the theorems of this file hold in both.  The functions
    of [libm] are not covered by it: a theorem that needs one of them to map NaN
    to NaN says so. *)

From Coq Require Import Reals Lia Lra.
From Flocq Require Import Core IEEE754.BinarySingleNaN.
From Verif Require Import Tac SmoothShape SmoothVals XReal B64 F64.
Local Unset Implicit Arguments.

Class FNan {F} (FO : FOps F) : Prop := {
  isnan_spec : forall x : F, fisnan x = true <-> x = fnan;
  nan_add_l : forall x : F, fadd fnan x = fnan;
  nan_add_r : forall x : F, fadd x fnan = fnan;
  nan_sub_l : forall x : F, fsub fnan x = fnan;
  nan_sub_r : forall x : F, fsub x fnan = fnan;
  nan_mul_l : forall x : F, fmul fnan x = fnan;
  nan_mul_r : forall x : F, fmul x fnan = fnan;
  nan_div_l : forall x : F, fdiv fnan x = fnan;
  nan_div_r : forall x : F, fdiv x fnan = fnan;
  nan_neg : fneg (@fnan F FO) = fnan;
  nan_abs : fabs (@fnan F FO) = fnan;
  nan_sqrt : fsqrt (@fnan F FO) = fnan;
  nan_ltb_l : forall x : F, fltb fnan x = false;
  nan_ltb_r : forall x : F, fltb x fnan = false;
  nan_leb_l : forall x : F, fleb fnan x = false;
  nan_leb_r : forall x : F, fleb x fnan = false;
  nan_eqb_l : forall x : F, feqb fnan x = false;
  nan_eqb_r : forall x : F, feqb x fnan = false;
  (** and what it says of a signed zero built from the literal 0 *)
  zero_add : fadd (@flit F FO 0 1) (flit 0 1) = flit 0 1;
  zero_abs : fabs (@flit F FO 0 1) = flit 0 1;
  zero_div : fdiv (@flit F FO 0 1) (flit 0 1) = fnan;
  zero_num : fisnan (@flit F FO 0 1) = false;
  zero_eqb : feqb (@flit F FO 0 1) (flit 0 1) = true;
  zero_lt : fltb (@flit F FO 0 1) (flit 0 1) = false;
  zero_div_nat : forall n, 0 < n -> fdiv (@flit F FO 0 1) (fofnat n) = flit 0 1;
  (** [x - x] and [(x + 0) - x] are zero, or NaN when [x] is not finite *)
  self_sub : forall x : F, fsub x x = flit 0 1 \/ fsub x x = fnan;
  zero_sub : forall x : F, fsub (fadd x (flit 0 1)) x = flit 0 1 \/ fsub (fadd x (flit 0 1)) x = fnan;
  zero_idem : forall x : F, fadd (fadd x (flit 0 1)) (flit 0 1) = fadd x (flit 0 1)
}.

Global Instance XR_nan : FNan XR.
Proof.
  constructor; cbn;
    try (intros x; destruct x as [r|[]|]; cbn; try reflexivity; split; congruence).
  all: unfold Rdiv; rewrite ?Rmult_0_l; try reflexivity.
  - f_equal. apply Rplus_0_l.
  - f_equal. apply Rabs_R0.
  - unfold Req. destruct (Req_EM_T 0 0); easy.
  - unfold Req. destruct (Req_EM_T 0 0); easy.
  - unfold Rltb. destruct (Rlt_dec 0 0); [lra|easy].
  - intros n Hn. unfold Req. destruct (Req_EM_T _ 0) as [E|E]; [|f_equal; unfold Rdiv; ring].
    apply (eq_IZR _ 0) in E. lia.
  - intros [r|[]|]; cbn; auto. left. f_equal. lra.
  - intros [r|[]|]; cbn; auto. left. f_equal. lra.
  - intros [r|[]|]; cbn; auto. f_equal. lra.
Qed.

Lemma b64_self_sub (x : f64) : is_finite x = true -> Bminus mode_NE x x = B754_zero false.
Proof.
  intros Fx. pose proof (Bminus_correct 53 1024 _ _ mode_NE x x Fx Fx) as H.
  replace (B2R x - B2R x)%R with 0%R in H by ring. rewrite Generic_fmt.round_0 in H by typeclasses eauto.
  rewrite Rabs_R0, Rlt_bool_true in H by apply Raux.bpow_gt_0. destruct H as (V & E & S).
  rewrite Raux.Rcompare_Eq in S by reflexivity.
  apply B2R_Bsign_inj; [easy|easy|now rewrite V|]. rewrite S. now destruct (Bsign x).
Qed.
Lemma b64_add_zero (x : f64) : is_nan x = false -> Bplus mode_NE x (B754_zero false) = match x with B754_zero _ => B754_zero false | _ => x end.
Proof. destruct x as [[]|[]| |[]]; easy. Qed.


Global Instance B64_nan (m : libm) : FNan (B64 m).
Proof.
  constructor; cbn;
    try (intros x; destruct x as [[]|[]| |[]]; cbn; try reflexivity; split; congruence).
  all: try reflexivity.
  - intros n Hn. change (Bdiv mode_NE (B754_zero false) (b64_of_Z (Z.of_N (N.of_nat n))) = B754_zero false).
    pose proof (of_Z_pos (Z.of_N (N.of_nat n)) ltac:(lia)) as P.
    destruct (b64_of_Z _) as [[]|[]| |[]]; easy.
  - intros [[]|[]| |s e mm H]; auto. left. now apply b64_self_sub.
  - intros [[]|[]| |s e mm H]; auto. left. now apply b64_self_sub.
Qed.

#[global] Hint Rewrite @nan_add_l @nan_add_r @nan_sub_l @nan_sub_r @nan_mul_l @nan_mul_r @nan_div_l @nan_div_r
  @nan_neg @nan_abs @nan_sqrt @nan_ltb_l @nan_ltb_r @nan_leb_l @nan_leb_r @nan_eqb_l @nan_eqb_r using typeclasses eauto : nan.
Ltac nans := cbv beta; autorewrite with nan; cbn [negb andb orb].

Section Facts.
  Context {F : Type} {FO : FOps F} {N : FNan FO}.
  Local Open Scope F_scope.

  Lemma isnan_nan : fisnan (@fnan F FO) = true.
  Proof. now apply isnan_spec. Qed.

  Lemma fmax_nan_l (x : F) : fmax fnan x = x.
  Proof. unfold fmax. now rewrite isnan_nan. Qed.
  Lemma fmin_nan_l (x : F) : fmin fnan x = x.
  Proof. unfold fmin. now rewrite isnan_nan. Qed.
  Lemma fmax_nan_r (x : F) : fmax x fnan = x.
  Proof. unfold fmax. rewrite isnan_nan. destruct (fisnan x) eqn:E; [|easy]. now apply isnan_spec in E. Qed.
  Lemma fmin_nan_r (x : F) : fmin x fnan = x.
  Proof. unfold fmin. rewrite isnan_nan. destruct (fisnan x) eqn:E; [|easy]. now apply isnan_spec in E. Qed.

  (** Folding with a step that keeps NaN, from NaN. *)
  Lemma fold_nan {A} (g : F -> A -> F) l : (forall x, In x l -> g fnan x = fnan) -> fold_left g l fnan = fnan.
  Proof.
    induction l as [|a l IH]; intros H; [easy|]. cbn. rewrite H by now left. apply IH. intros x I. apply H. now right.
  Qed.
  Lemma fold_add_nan (l : list F) s : In fnan l -> fold_left fadd l s = fnan.
  Proof.
    revert s. induction l as [|a l IH]; intros s I; [easy|]. destruct I as [-> |I]; cbn; [|now apply IH].
    rewrite nan_add_r. apply fold_nan. intros x _. apply nan_add_l.
  Qed.
  Lemma fsum_nan (l : list F) : In fnan l -> fsum l = fnan.
  Proof. apply fold_add_nan. Qed.

  Lemma fclamp_val_nan lo hi : fclamp_val fnan lo hi = (fnan : F).
  Proof. unfold fclamp_val. now nans. Qed.
End Facts.
