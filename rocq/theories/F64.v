(** * F64: what the binary64 operations do, in terms of real numbers.

    [xval x] is the extended real a float denotes and [fl r] what rounding a
    real to nearest gives; each operation on finite floats is [fl] of the exact
    result.  Everything is derived from Flocq's theorems about
    [BinarySingleNaN]. *)

From Coq Require Import Reals Lra Lia ZArith.
From Flocq Require Import Core IEEE754.BinarySingleNaN.
From Verif Require Import B64 XReal.
Local Unset Implicit Arguments.
Local Open Scope R_scope.

Definition xval (x : f64) : xr :=
  match x with B754_nan => NaN | B754_infinity s => Inf s | _ => Fin (B2R x) end.
(** Round to nearest, ties to even, with gradual underflow and no upper bound. *)
Definition rnd (r : R) : R := round radix2 (SpecFloat.fexp 53 1024) (round_mode mode_NE) r.
Definition lim : R := bpow radix2 1024.
(** ... and with overflow to infinity. *)
Definition fl (r : R) : xr := if Rltb (Rabs (rnd r)) lim then Fin (rnd r) else Inf (Rltb r 0).
Notation fin x := (is_finite x = true).

Lemma Rltb_t a b : Rltb a b = true <-> a < b.
Proof. unfold Rltb. destruct (Rlt_dec a b); split; easy. Qed.
Lemma Rltb_f a b : Rltb a b = false <-> b <= a.
Proof. unfold Rltb. destruct (Rlt_dec a b); split; try easy; lra. Qed.
Lemma Rleb_t a b : Rleb a b = true <-> a <= b.
Proof. unfold Rleb. destruct (Rle_dec a b); split; easy. Qed.
Lemma Rlt_bool_Rltb a b : Rlt_bool a b = Rltb a b.
Proof. destruct (Rlt_bool_spec a b); symmetry; [now apply Rltb_t|now apply Rltb_f]. Qed.

Global Instance fexp64 : Valid_exp (SpecFloat.fexp 53 1024).
Proof. apply (fexp_correct 53 1024). reflexivity. Qed.

Lemma lim_pos : 0 < lim.
Proof. apply bpow_gt_0. Qed.
Lemma xval_fin x : fin x -> xval x = Fin (B2R x).
Proof. now destruct x. Qed.
Lemma xval_fin_inv x r : xval x = Fin r -> fin x /\ B2R x = r.
Proof. destruct x; cbn; try discriminate; intros [= <-]; easy. Qed.
Lemma rnd_le r s : r <= s -> rnd r <= rnd s.
Proof. apply round_le; try typeclasses eauto. Qed.
Lemma rnd_0 : rnd 0 = 0.
Proof. apply round_0. typeclasses eauto. Qed.
Lemma rnd_B2R (x : f64) : rnd (B2R x) = B2R x.
Proof. apply round_generic; [typeclasses eauto|]. apply generic_format_B2R. Qed.
Lemma rnd_opp r : rnd (- r) = - rnd r.
Proof. apply round_NE_opp. Qed.
Lemma fl_le r s : r <= s -> xleb (fl r) (fl s) = true.
Proof.
  intros H. pose proof (rnd_le r s H) as M. pose proof lim_pos as L. unfold fl.
  assert (Z : forall t, t <= 0 -> rnd t <= 0) by (intros t Ht; rewrite <- rnd_0; now apply rnd_le).
  assert (P : forall t, 0 <= t -> 0 <= rnd t) by (intros t Ht; rewrite <- rnd_0; now apply rnd_le).
  destruct (Rltb (Rabs (rnd r)) lim) eqn:E1, (Rltb (Rabs (rnd s)) lim) eqn:E2; cbn.
  - now apply Rleb_t.
  - apply Rltb_t in E1. apply Rltb_f in E2. apply Rabs_def2 in E1 as [A1 A2]. rewrite (proj2 (Rltb_f s 0)); [easy|].
    destruct (Rle_lt_dec 0 s); [easy|]. specialize (Z s ltac:(lra)). rewrite Rabs_left1 in E2 by easy. lra.
  - apply Rltb_f in E1. apply Rltb_t in E2. apply Rabs_def2 in E2 as [A1 A2]. rewrite (proj2 (Rltb_t r 0)); [easy|].
    destruct (Rle_lt_dec 0 r); [|easy]. specialize (P r ltac:(lra)). rewrite Rabs_pos_eq in E1 by easy. lra.
  - destruct (Rltb r 0) eqn:A, (Rltb s 0) eqn:B; cbn; try easy. apply Rltb_f in A. apply Rltb_t in B. lra.
Qed.
Lemma fl_B2R (x : f64) : fin x -> fl (B2R x) = Fin (B2R x).
Proof. intros H. unfold fl. rewrite rnd_B2R. rewrite (proj2 (Rltb_t _ _)); [easy|]. apply abs_B2R_lt_emax. Qed.
Lemma fl_fin r : Rabs (rnd r) < lim -> fl r = Fin (rnd r).
Proof. intros H. unfold fl. now rewrite (proj2 (Rltb_t _ _)). Qed.
Lemma fl_not_nan r : fl r <> NaN.
Proof. unfold fl. now destruct (Rltb _ _). Qed.
Lemma fl_nonneg r : 0 <= r -> xleb (Fin 0) (fl r) = true.
Proof. intros H. replace (Fin 0) with (fl 0); [now apply fl_le|]. unfold fl. rewrite rnd_0, Rabs_R0. now rewrite (proj2 (Rltb_t _ _) lim_pos). Qed.
Lemma fl_nonpos r : r <= 0 -> xleb (fl r) (Fin 0) = true.
Proof. intros H. replace (Fin 0) with (fl 0); [now apply fl_le|]. unfold fl. rewrite rnd_0, Rabs_R0. now rewrite (proj2 (Rltb_t _ _) lim_pos). Qed.

(** ** Operations on finite floats *)
Lemma rnd_big_sign r : lim <= Rabs (rnd r) -> r <> 0.
Proof. intros H ->. rewrite rnd_0, Rabs_R0 in H. pose proof lim_pos. lra. Qed.
Lemma xval_overflow (z : f64) s : B2SF z = SpecFloat.S754_infinity s -> xval z = Inf s.
Proof. destruct z; cbn; congruence. Qed.
Lemma Bsign_B2R (x : f64) : fin x -> B2R x <> 0 -> Bsign x = Rltb (B2R x) 0.
Proof.
  destruct x as [s|s| |s m e H]; cbn; try easy; try (intros; lra). intros _ _. symmetry. destruct s; [apply Rltb_t|apply Rltb_f]; cbn.
  - now apply F2R_lt_0.
  - now apply F2R_ge_0.
Qed.
Lemma Bsign_le (x : f64) : fin x -> if Bsign x then B2R x <= 0 else 0 <= B2R x.
Proof.
  destruct x as [s|s| |s m e H]; try easy; intros _; destruct s; cbn -[F2R]; try lra.
  - now apply F2R_le_0.
  - now apply F2R_ge_0.
Qed.
Lemma xval_add x y : fin x -> fin y -> xval (Bplus mode_NE x y) = fl (B2R x + B2R y).
Proof.
  intros Hx Hy. pose proof (Bplus_correct 53 1024 _ _ mode_NE x y Hx Hy) as C. fold (rnd (B2R x + B2R y)) in C. fold lim in C. rewrite Rlt_bool_Rltb in C. unfold fl.
  destruct (Rltb (Rabs (rnd (B2R x + B2R y))) lim) eqn:E.
  - destruct C as (C1 & C2 & _). rewrite xval_fin by easy. now rewrite C1.
  - destruct C as (C1 & C2). apply xval_overflow in C1. rewrite C1. f_equal. apply Rltb_f in E. apply rnd_big_sign in E.
    pose proof (Bsign_le x Hx). pose proof (Bsign_le y Hy). rewrite <- C2 in *. destruct (Bsign x); symmetry; [apply Rltb_t|apply Rltb_f]; lra.
Qed.
Lemma xval_sub x y : fin x -> fin y -> xval (Bminus mode_NE x y) = fl (B2R x - B2R y).
Proof.
  intros Hx Hy. pose proof (Bminus_correct 53 1024 _ _ mode_NE x y Hx Hy) as C. fold (rnd (B2R x - B2R y)) in C. fold lim in C. rewrite Rlt_bool_Rltb in C. unfold fl.
  destruct (Rltb (Rabs (rnd (B2R x - B2R y))) lim) eqn:E.
  - destruct C as (C1 & C2 & _). rewrite xval_fin by easy. now rewrite C1.
  - destruct C as (C1 & C2). apply xval_overflow in C1. rewrite C1. f_equal. apply Rltb_f in E. apply rnd_big_sign in E.
    pose proof (Bsign_le x Hx). pose proof (Bsign_le y Hy). rewrite C2 in *. destruct (Bsign y); cbn in *; symmetry; [apply Rltb_f|apply Rltb_t]; lra.
Qed.
Lemma xval_mul x y : fin x -> fin y -> xval (Bmult mode_NE x y) = fl (B2R x * B2R y).
Proof.
  intros Hx Hy. pose proof (Bmult_correct 53 1024 _ _ mode_NE x y) as C. fold (rnd (B2R x * B2R y)) in C. fold lim in C. rewrite Rlt_bool_Rltb in C. unfold fl.
  destruct (Rltb (Rabs (rnd (B2R x * B2R y))) lim) eqn:E.
  - destruct C as (C1 & C2 & _). rewrite Hx, Hy in C2. rewrite xval_fin by easy. now rewrite C1.
  - apply xval_overflow in C. rewrite C. f_equal. apply Rltb_f in E. apply rnd_big_sign in E.
    assert (B2R x <> 0) by (intros Z; rewrite Z in E; lra). assert (B2R y <> 0) by (intros Z; rewrite Z in E; lra).
    pose proof (Bsign_le x Hx). pose proof (Bsign_le y Hy). destruct (Bsign x), (Bsign y); cbn; symmetry; [apply Rltb_f|apply Rltb_t|apply Rltb_t|apply Rltb_f]; nra.
Qed.
Lemma xval_div x y : fin x -> fin y -> B2R y <> 0 -> xval (Bdiv mode_NE x y) = fl (B2R x / B2R y).
Proof.
  intros Hx Hy Ny. pose proof (Bdiv_correct 53 1024 _ _ mode_NE x y Ny) as C. fold (rnd (B2R x / B2R y)) in C. fold lim in C. rewrite Rlt_bool_Rltb in C. unfold fl.
  destruct (Rltb (Rabs (rnd (B2R x / B2R y))) lim) eqn:E.
  - destruct C as (C1 & C2 & _). rewrite Hx in C2. rewrite xval_fin by easy. now rewrite C1.
  - apply xval_overflow in C. rewrite C. f_equal. apply Rltb_f in E. apply rnd_big_sign in E.
    assert (B2R x <> 0) by (intros Z; rewrite Z in E; unfold Rdiv in E; lra). pose proof (Bsign_le x Hx). pose proof (Bsign_le y Hy).
    destruct (Bsign x), (Bsign y); cbn; symmetry; [apply Rltb_f|apply Rltb_t|apply Rltb_t|apply Rltb_f].
    + replace (B2R x / B2R y) with (- B2R x / - B2R y) by (field; easy). left. apply Rdiv_lt_0_compat; lra.
    + replace (B2R x / B2R y) with (- (- B2R x / B2R y)) by (field; easy). assert (0 < - B2R x / B2R y) by (apply Rdiv_lt_0_compat; lra). lra.
    + replace (B2R x / B2R y) with (- (B2R x / - B2R y)) by (field; easy). assert (0 < B2R x / - B2R y) by (apply Rdiv_lt_0_compat; lra). lra.
    + left. apply Rdiv_lt_0_compat; lra.
Qed.
Lemma xval_sqrt x : fin x -> 0 <= B2R x -> xval (Bsqrt mode_NE x) = Fin (rnd (sqrt (B2R x))).
Proof.
  intros Hx Px. pose proof (Bsqrt_correct 53 1024 _ _ mode_NE x) as (C1 & C2 & _). assert (F : is_finite (Bsqrt mode_NE x) = true).
  { rewrite C2. destruct x as [s|s| |s m e H]; try easy. destruct s; [|easy]. exfalso. assert (B2R (B754_finite true m e H) < 0) by now apply F2R_lt_0. lra. }
  rewrite xval_fin by easy. now rewrite C1.
Qed.
Lemma xval_neg x : xval (Bopp x) = xneg (xval x).
Proof. destruct x as [s|s| |s m e H]; cbn -[F2R]; try easy; [now rewrite Ropp_0|]. f_equal. exact (B2R_Bopp 53 1024 (B754_finite s m e H)). Qed.
Lemma xval_abs x : xval (Babs x) = xabs (xval x).
Proof. destruct x as [s|s| |s m e H]; cbn -[F2R]; try easy; [now rewrite Rabs_R0|]. f_equal. exact (B2R_Babs 53 1024 (B754_finite s m e H)). Qed.

(** ** Comparisons *)
Lemma ltb_xval x y : Bltb x y = xltb (xval x) (xval y).
Proof.
  destruct (is_finite x) eqn:Fx, (is_finite y) eqn:Fy.
  - rewrite (xval_fin x), (xval_fin y) by easy. cbn. rewrite <- Rlt_bool_Rltb. now apply Bltb_correct.
  - rewrite (xval_fin x) by easy. destruct y as [s|s| |s m e H]; try easy; destruct x as [t|t| |t m e H]; try easy; try (now destruct s); now destruct t, s.
  - rewrite (xval_fin y) by easy. destruct x as [s|s| |s m e H]; try easy; destruct y as [t|t| |t m e H]; try easy; try (now destruct s); now destruct t, s.
  - destruct x as [s|s| |s m e H]; try easy; destruct y as [t|t| |t m' e' H']; try easy; destruct s; try easy; now destruct t.
Qed.
Lemma leb_xval x y : Bleb x y = xleb (xval x) (xval y).
Proof.
  destruct (is_finite x) eqn:Fx, (is_finite y) eqn:Fy.
  - rewrite (xval_fin x), (xval_fin y) by easy. cbn. rewrite Bleb_correct by easy. unfold Rleb. destruct (Rle_bool_spec (B2R x) (B2R y)), (Rle_dec (B2R x) (B2R y)); try easy; lra.
  - rewrite (xval_fin x) by easy. destruct y as [s|s| |s m e H]; try easy; destruct x as [t|t| |t m e H]; try easy; try (now destruct s); now destruct t, s.
  - rewrite (xval_fin y) by easy. destruct x as [s|s| |s m e H]; try easy; destruct y as [t|t| |t m e H]; try easy; try (now destruct s); now destruct t, s.
  - destruct x as [s|s| |s m e H]; try easy; destruct y as [t|t| |t m' e' H']; try easy; destruct s; try easy; now destruct t.
Qed.
Lemma eqb_xval x y : Beqb x y = xeqb (xval x) (xval y).
Proof.
  destruct (is_finite x) eqn:Fx, (is_finite y) eqn:Fy.
  - rewrite (xval_fin x), (xval_fin y) by easy. cbn. rewrite Beqb_correct by easy. unfold Req. destruct (Req_bool_spec (B2R x) (B2R y)), (Req_EM_T (B2R x) (B2R y)); easy.
  - rewrite (xval_fin x) by easy. destruct y as [s|s| |s m e H]; try easy; destruct x as [t|t| |t m e H]; try easy; try (now destruct s); now destruct t, s.
  - rewrite (xval_fin y) by easy. destruct x as [s|s| |s m e H]; try easy; destruct y as [t|t| |t m e H]; try easy; try (now destruct s); now destruct t, s.
  - destruct x as [s|s| |s m e H]; try easy; destruct y as [t|t| |t m' e' H']; try easy; destruct s; try easy; now destruct t.
Qed.
Lemma isnan_xval x : is_nan x = match xval x with NaN => true | _ => false end.
Proof. now destruct x. Qed.

(** ** Signs *)
(** [x] is not negative: zero of either sign, positive, or NaN. *)
Definition nn (x : f64) : Prop := Bltb x (B754_zero false) = false.
Lemma fcases (x : f64) : fin x \/ (exists s, x = B754_infinity s) \/ x = B754_nan.
Proof. destruct x as [s|s| |s m e H]; [now left|right; left; now exists s|now right; right|now left]. Qed.
Lemma nn_fin x : fin x -> nn x <-> 0 <= B2R x.
Proof. intros H. unfold nn. rewrite ltb_xval, xval_fin by easy. cbn. apply Rltb_f. Qed.
Lemma nn_not_ninf : ~ nn (B754_infinity true).
Proof. now unfold nn. Qed.
Lemma nn_of x r : xval x = fl r -> 0 <= r -> nn x.
Proof.
  intros E H. unfold nn. rewrite ltb_xval, E. pose proof (fl_nonneg r H) as Z. cbn. destruct (fl r) as [v|[]|]; try easy. cbn in *. apply Rleb_t in Z. now apply Rltb_f.
Qed.
Lemma ltb_of x y r s : xval x = fl r -> xval y = fl s -> s <= r -> Bltb x y = false.
Proof.
  intros E1 E2 H. rewrite ltb_xval, E1, E2. pose proof (fl_le s r H) as Z. destruct (fl r) as [v|[]|], (fl s) as [u|[]|]; try easy; cbn in *; try (apply Rleb_t in Z; now apply Rltb_f).
Qed.
Lemma xval_self x : fin x -> xval x = fl (B2R x).
Proof. intros H. rewrite fl_B2R by easy. now apply xval_fin. Qed.
Lemma nan_plus_r (x : f64) : Bplus mode_NE x B754_nan = B754_nan. Proof. now destruct x. Qed.
Lemma nan_plus_l (x : f64) : Bplus mode_NE B754_nan x = B754_nan. Proof. now destruct x. Qed.
Lemma nan_minus_r (x : f64) : Bminus mode_NE x B754_nan = B754_nan. Proof. now destruct x. Qed.
Lemma nan_minus_l (x : f64) : Bminus mode_NE B754_nan x = B754_nan. Proof. now destruct x. Qed.
Lemma nan_mult_r (x : f64) : Bmult mode_NE x B754_nan = B754_nan. Proof. now destruct x. Qed.
Lemma nan_mult_l (x : f64) : Bmult mode_NE B754_nan x = B754_nan. Proof. now destruct x. Qed.
Lemma nan_div_r (x : f64) : Bdiv mode_NE x B754_nan = B754_nan. Proof. now destruct x. Qed.
Lemma nan_div_l (x : f64) : Bdiv mode_NE B754_nan x = B754_nan. Proof. now destruct x. Qed.
Lemma ltb_nan_l (x : f64) : Bltb B754_nan x = false. Proof. now destruct x. Qed.
Lemma ltb_nan_r (x : f64) : Bltb x B754_nan = false. Proof. now destruct x as [[]|[]| |[]]. Qed.
Lemma nn_nan : nn B754_nan. Proof. easy. Qed.
Ltac fsplit x := let s := fresh "s" in destruct (fcases x) as [?F|[[s ->]| ->]].

Lemma nn_add x y : nn x -> nn y -> nn (Bplus mode_NE x y).
Proof.
  intros Hx Hy. fsplit x; fsplit y; try (rewrite ?nan_plus_l, ?nan_plus_r; apply nn_nan).
  - apply (nn_of _ _ (xval_add x y ltac:(easy) ltac:(easy))). apply nn_fin in Hx, Hy; try easy. lra.
  - destruct s; [easy|]. now destruct x as [| | |].
  - destruct s; [easy|]. now destruct y as [| | |].
  - now destruct s, s0.
Qed.
(** Adding something not negative does not give less; nor does subtracting give more. *)
Lemma add_not_less x y : nn y -> Bltb (Bplus mode_NE x y) x = false.
Proof.
  intros Hy. fsplit x; fsplit y; try (rewrite ?nan_plus_l, ?nan_plus_r; apply ltb_nan_l).
  - apply (ltb_of _ _ _ _ (xval_add x y ltac:(easy) ltac:(easy)) (xval_self x ltac:(easy))). apply nn_fin in Hy; [|easy]. lra.
  - destruct s; [easy|]. now destruct x as [| | |].
  - destruct y as [| | |]; try easy; now destruct s.
  - now destruct s, s0.
Qed.
Lemma sub_not_more x y : nn y -> Bltb x (Bminus mode_NE x y) = false.
Proof.
  intros Hy. fsplit x; fsplit y; try (rewrite ?nan_minus_l, ?nan_minus_r; apply ltb_nan_r).
  - apply (ltb_of _ _ _ _ (xval_self x ltac:(easy)) (xval_sub x y ltac:(easy) ltac:(easy))). apply nn_fin in Hy; [|easy]. lra.
  - destruct s; [easy|]. now destruct x as [| | |[]].
  - destruct y as [| | |]; try easy; now destruct s.
  - now destruct s, s0.
Qed.
Lemma nn_mul x y : nn x -> nn y -> nn (Bmult mode_NE x y).
Proof.
  intros Hx Hy. fsplit x; fsplit y; try (rewrite ?nan_mult_l, ?nan_mult_r; apply nn_nan).
  - apply (nn_of _ _ (xval_mul x y ltac:(easy) ltac:(easy))). apply nn_fin in Hx, Hy; try easy. nra.
  - destruct s; [easy|]. now destruct x as [| | |[]].
  - destruct s; [easy|]. now destruct y as [| | |[]].
  - now destruct s, s0.
Qed.
Lemma nn_sq x : nn (Bmult mode_NE x x).
Proof.
  fsplit x; [|now destruct s|easy]. apply (nn_of _ _ (xval_mul x x ltac:(easy) ltac:(easy))). nra.
Qed.
(** The denominator must be positive ([1 / -0] is minus infinity). *)
Lemma nn_div x y : nn x -> Bltb (B754_zero false) y = true -> nn (Bdiv mode_NE x y).
Proof.
  intros Hx Hy. fsplit x; fsplit y; try (rewrite ?nan_div_l, ?nan_div_r; apply nn_nan).
  - rewrite ltb_xval, (xval_fin y) in Hy by easy. cbn in Hy. apply Rltb_t in Hy. apply (nn_of _ _ (xval_div x y ltac:(easy) ltac:(easy) ltac:(lra))). apply nn_fin in Hx; try easy. apply Rmult_le_pos; [easy|]. left. now apply Rinv_0_lt_compat.
  - destruct s; [easy|]. now destruct x as [| | |[]].
  - destruct s; [easy|]. now destruct y as [[]| | |[]].
Qed.
Lemma nn_sqrt x : nn (Bsqrt mode_NE x).
Proof.
  fsplit x; [|now destruct s|easy]. destruct (Rle_lt_dec 0 (B2R x)) as [P|P].
  - unfold nn. rewrite ltb_xval, xval_sqrt by easy. cbn. apply Rltb_f. rewrite <- rnd_0. apply rnd_le, sqrt_pos.
  - destruct x as [s|s| |s m e H]; try easy. destruct s; [easy|]. assert (0 <= B2R (B754_finite false m e H)) by now apply F2R_ge_0. lra.
Qed.
Lemma nn_abs x : nn (Babs x).
Proof. unfold nn. rewrite ltb_xval, xval_abs. destruct (xval x); cbn; try easy. apply Rltb_f, Rabs_pos. Qed.
(** The difference of two floats is not negative when the first is not less. *)
Lemma nn_sub x y : Bltb x y = false -> nn (Bminus mode_NE x y).
Proof.
  intros H. fsplit x; fsplit y; try (rewrite ?nan_minus_l, ?nan_minus_r; apply nn_nan).
  - apply (nn_of _ _ (xval_sub x y ltac:(easy) ltac:(easy))). rewrite ltb_xval, !xval_fin in H by easy. cbn in H. apply Rltb_f in H. lra.
  - destruct s; [now destruct x as [| | |[]]|]. now destruct x as [| | |[]].
  - destruct s; [now destruct y as [| | |[]]|]. now destruct y as [| | |[]].
  - now destruct s, s0.
Qed.
Lemma ltb_irrefl (x : f64) : Bltb x x = false.
Proof. rewrite ltb_xval. destruct (xval x) as [v|[]|]; try easy. cbn. now apply Rltb_f, Rle_refl. Qed.
Lemma pos_nn x : Bltb (B754_zero false) x = true -> nn x.
Proof. unfold nn. rewrite !ltb_xval. destruct (xval x) as [v|[]|]; try easy. cbn. intros H. apply Rltb_t in H. apply Rltb_f. lra. Qed.

(** ** Exact integers *)
Lemma rnd_Z z : (Z.abs z <= 2 ^ 53)%Z -> rnd (IZR z) = IZR z.
Proof.
  intros H. apply round_generic; [typeclasses eauto|]. replace (IZR z) with (F2R (Float radix2 z 0)) by (unfold F2R; cbn; lra).
  destruct (Z.eq_dec (Z.abs z) (2 ^ 53)) as [E|N].
  - assert (z = 2 ^ 53 \/ z = - 2 ^ 53)%Z as [-> | ->] by lia.
    + replace (F2R _) with (bpow radix2 53) by (unfold F2R; cbn; lra). apply generic_format_bpow. now cbn.
    + replace (F2R _) with (- bpow radix2 53) by (unfold F2R; cbn; lra). apply generic_format_opp, generic_format_bpow. now cbn.
  - apply generic_format_F2R. intros Nz. cbn [Fexp]. unfold cexp. cbn [Fnum Fexp] in *. unfold SpecFloat.fexp, FLT_exp. rewrite mag_F2R_Zdigits by easy.
    assert (Zdigits radix2 z <= 53)%Z by (apply Zdigits_le_Zpower; change (radix2 ^ 53)%Z with (2 ^ 53)%Z; lia). unfold SpecFloat.emin. lia.
Qed.
Lemma IZR_lt_lim z : (Z.abs z < 2 ^ 1024)%Z -> Rabs (IZR z) < lim.
Proof. intros H. rewrite <- abs_IZR. unfold lim. replace (bpow radix2 1024) with (IZR (2 ^ 1024)); [now apply IZR_lt|]. rewrite bpow_powerRZ. change (2 ^ 1024)%Z with (Z.pow_pos 2 1024). now rewrite IZR_Zpower_pos. Qed.
Lemma fl_Z z : (Z.abs z <= 2 ^ 53)%Z -> fl (IZR z) = Fin (IZR z).
Proof. intros H. rewrite fl_fin; rewrite rnd_Z by easy; [easy|]. apply IZR_lt_lim. apply Z.le_lt_trans with (1 := H). reflexivity. Qed.
Lemma xval_of_Z_gen z : xval (b64_of_Z z) = fl (IZR z).
Proof.
  unfold b64_of_Z. pose proof (binary_normalize_correct 53 1024 _ _ mode_NE z 0 false) as C. cbv zeta in C. replace (F2R {| Fnum := z; Fexp := 0 |}) with (IZR z) in C by (unfold F2R; cbn; lra). fold (rnd (IZR z)) in C. fold lim in C. rewrite Rlt_bool_Rltb in C. unfold fl.
  destruct (Rltb (Rabs (rnd (IZR z))) lim) eqn:E.
  - destruct C as (C1 & C2 & _). rewrite xval_fin by easy. now rewrite C1.
  - apply xval_overflow in C. rewrite C. now rewrite Rlt_bool_Rltb.
Qed.
Lemma xval_of_Z z : (Z.abs z <= 2 ^ 53)%Z -> xval (b64_of_Z z) = Fin (IZR z).
Proof. intros H. rewrite xval_of_Z_gen. now apply fl_Z. Qed.
Lemma of_Z_pos z : (0 < z)%Z -> Bltb (B754_zero false) (b64_of_Z z) = true.
Proof.
  intros H. rewrite ltb_xval, xval_of_Z_gen. cbn. assert (P : 1 <= rnd (IZR z)). { rewrite <- (rnd_Z 1) by now cbn. apply rnd_le. apply IZR_le. lia. }
  unfold fl. destruct (Rltb (Rabs (rnd (IZR z))) lim); [apply Rltb_t; lra|]. assert (0 < IZR z) by now apply IZR_lt. now rewrite (proj2 (Rltb_f (IZR z) 0)) by lra.
Qed.
