(** * F64Range: ranges of the oscillators in binary64. *)

From Coq Require Import Reals Lra Lia ZArith.
From Flocq Require Import Core Relative IEEE754.BinarySingleNaN.
From Verif Require Import Spec BaseFacts Tac SmoothShape VolShape DistShape TrendShape MomShape XReal Select Bars VolumeReal VolatReal B64 F64 Momentum Trend Volume Volatility F64Facts MomReal TrendReal.
Local Unset Implicit Arguments.
Local Open Scope R_scope.

(** [x] is NaN or a finite float between the reals [a] and [b]. *)
Definition inr (a b : R) (x : f64) : Prop := match xval x with Fin v => a <= v <= b | Inf _ => False | NaN => True end.
(** [r] is a float. *)
Definition rep (r : R) : Prop := rnd r = r /\ Rabs r < lim.
Lemma rep_Z z : (Z.abs z <= 2 ^ 53)%Z -> rep (IZR z).
Proof. intros H. split; [now apply rnd_Z|]. apply IZR_lt_lim. apply Z.le_lt_trans with (1 := H). reflexivity. Qed.
Lemma inr_nan a b : inr a b B754_nan. Proof. easy. Qed.
Lemma inr_cases a b x : inr a b x -> x = B754_nan \/ (fin x /\ a <= B2R x <= b).
Proof. unfold inr. destruct (fcases x) as [F|[[s ->]| ->]]; [rewrite xval_fin by easy; now right|easy|now left]. Qed.
Lemma inr_fin a b x : fin x -> a <= B2R x <= b -> inr a b x.
Proof. intros F H. unfold inr. now rewrite xval_fin. Qed.
Lemma inr_of a b x r : xval x = fl r -> rep a -> rep b -> a <= r <= b -> inr a b x.
Proof.
  intros E [Ra La] [Rb Lb] [H1 H2]. apply rnd_le in H1, H2. rewrite Ra in H1. rewrite Rb in H2. unfold inr. rewrite E. rewrite fl_fin; [lra|]. apply Rabs_def2 in La, Lb. apply Rabs_def1; lra.
Qed.
Lemma inr_weaken a b a' b' x : inr a b x -> a' <= a -> b <= b' -> inr a' b' x.
Proof. unfold inr. destruct (xval x); try easy. lra. Qed.
Lemma inr_add a b c d x y : inr a b x -> inr c d y -> rep (a + c) -> rep (b + d) -> inr (a + c) (b + d) (Bplus mode_NE x y).
Proof.
  intros Hx Hy R1 R2. apply inr_cases in Hx as [-> |[Fx Bx]]; [now rewrite nan_plus_l|]. apply inr_cases in Hy as [-> |[Fy By]]; [now rewrite nan_plus_r|].
  apply (inr_of _ _ _ _ (xval_add x y Fx Fy)); try easy. lra.
Qed.
Lemma inr_sub a b c d x y : inr a b x -> inr c d y -> rep (a - d) -> rep (b - c) -> inr (a - d) (b - c) (Bminus mode_NE x y).
Proof.
  intros Hx Hy R1 R2. apply inr_cases in Hx as [-> |[Fx Bx]]; [now rewrite nan_minus_l|]. apply inr_cases in Hy as [-> |[Fy By]]; [now rewrite nan_minus_r|].
  apply (inr_of _ _ _ _ (xval_sub x y Fx Fy)); try easy. lra.
Qed.
(** Products with an exact non-negative constant, quotients by a positive one. *)
Lemma inr_scale a b k x y : inr a b x -> xval y = Fin k -> 0 <= k -> rep (a * k) -> rep (b * k) -> inr (a * k) (b * k) (Bmult mode_NE x y).
Proof.
  intros Hx Ey Pk R1 R2. apply inr_cases in Hx as [-> |[Fx Bx]]; [now rewrite nan_mult_l|]. apply xval_fin_inv in Ey as [Fy Vy].
  apply (inr_of _ _ _ _ (xval_mul x y Fx Fy)); try easy. rewrite Vy. nra.
Qed.
Lemma inr_scale_l a b k x y : inr a b x -> xval y = Fin k -> 0 <= k -> rep (k * a) -> rep (k * b) -> inr (k * a) (k * b) (Bmult mode_NE y x).
Proof.
  intros Hx Ey Pk R1 R2. apply inr_cases in Hx as [-> |[Fx Bx]]; [now rewrite nan_mult_r|]. apply xval_fin_inv in Ey as [Fy Vy].
  apply (inr_of _ _ _ _ (xval_mul y x Fy Fx)); try easy. rewrite Vy. nra.
Qed.
Lemma inr_quot a b k x y : inr a b x -> xval y = Fin k -> 0 < k -> rep (a / k) -> rep (b / k) -> inr (a / k) (b / k) (Bdiv mode_NE x y).
Proof.
  intros Hx Ey Pk R1 R2. apply inr_cases in Hx as [-> |[Fx Bx]]; [now rewrite nan_div_l|]. apply xval_fin_inv in Ey as [Fy Vy].
  apply (inr_of _ _ _ _ (xval_div x y Fx Fy ltac:(lra))); try easy. rewrite Vy. assert (0 < / k) by now apply Rinv_0_lt_compat. unfold Rdiv. nra.
Qed.
(** A part of a whole is at most one, after rounding too. *)
Lemma inr_part x y : nn x -> Bltb y x = false -> inr 0 1 (Bdiv mode_NE x y).
Proof.
  intros Hx H. fsplit x; fsplit y; try (rewrite ?nan_div_l, ?nan_div_r; apply inr_nan).
  - apply nn_fin in Hx; [|easy]. rewrite ltb_xval, !xval_fin in H by easy. cbn in H. apply Rltb_f in H. destruct (Req_dec (B2R y) 0) as [Z|Z].
    + assert (ZX : B2R x = 0) by lra. assert (exists s, x = B754_zero s) as [s ->] by (destruct x as [s|s| |s p e B]; try easy; [now exists s|exfalso; revert ZX; cbn -[F2R]; intros ZX; apply eq_0_F2R in ZX; now destruct s]).
      assert (exists s, y = B754_zero s) as [t ->] by (destruct y as [t|t| |t p e B]; try easy; [now exists t|exfalso; revert Z; cbn -[F2R]; intros Z; apply eq_0_F2R in Z; now destruct t]). easy.
    + apply (inr_of _ _ _ _ (xval_div x y ltac:(easy) ltac:(easy) Z)); [now apply (rep_Z 0)|now apply (rep_Z 1)|]. split; [apply Rmult_le_pos; [lra|left; apply Rinv_0_lt_compat; lra]|]. apply (Rmult_le_reg_r (B2R y)); [lra|]. unfold Rdiv. rewrite Rmult_assoc, Rinv_l by easy. lra.
  - destruct s; [|destruct x as [t|t| |t p e B]; try easy; unfold inr; cbn; lra]. exfalso. apply nn_fin in Hx; [|easy]. revert H. rewrite ltb_xval, (xval_fin x) by easy. easy.
  - destruct s; [easy|]. exfalso. revert H. rewrite ltb_xval, (xval_fin y) by easy. easy.
Qed.

(** ** Monotone recursions *)
(** Two non-negative floats in order (or NaN). *)
Definition lee (x y : f64) : Prop := nn x /\ nn y /\ Bltb y x = false.
Lemma lee_add x y x' y' : lee x y -> lee x' y' -> lee (Bplus mode_NE x x') (Bplus mode_NE y y').
Proof.
  intros (A & B & C) (A' & B' & C'). split; [now apply nn_add|split; [now apply nn_add|]].
  fsplit x; fsplit x'; try (rewrite ?nan_plus_l, ?nan_plus_r; apply ltb_nan_r); fsplit y; fsplit y'; try (rewrite ?nan_plus_l, ?nan_plus_r; apply ltb_nan_l).
  all: repeat match goal with s : bool |- _ => destruct s; [easy|] end.
  - apply (ltb_of _ _ _ _ (xval_add y y' ltac:(easy) ltac:(easy)) (xval_add x x' ltac:(easy) ltac:(easy))). rewrite ltb_xval, !xval_fin in C, C' by easy. cbn in C, C'. apply Rltb_f in C, C'. lra.
  - replace (Bplus mode_NE y (B754_infinity false)) with (B754_infinity false : f64) by now destruct y. rewrite ltb_xval. now destruct (xval (Bplus mode_NE x x')) as [|[]|].
  - replace (Bplus mode_NE (B754_infinity false) y') with (B754_infinity false : f64) by now destruct y'. rewrite ltb_xval. now destruct (xval (Bplus mode_NE x x')) as [|[]|].
  - change (Bplus mode_NE (B754_infinity false) (B754_infinity false)) with (B754_infinity false : f64). rewrite ltb_xval. now destruct (xval (Bplus mode_NE x x')) as [|[]|].
  - exfalso. revert C'. rewrite ltb_xval, (xval_fin y') by easy. easy.
  - replace (Bplus mode_NE y (B754_infinity false)) with (B754_infinity false : f64) by now destruct y. rewrite ltb_xval. now destruct (xval (Bplus mode_NE x _)) as [|[]|].
  - exfalso. revert C'. rewrite ltb_xval, (xval_fin y') by easy. easy.
  - change (Bplus mode_NE (B754_infinity false) (B754_infinity false)) with (B754_infinity false : f64). rewrite ltb_xval. now destruct (xval (Bplus mode_NE x _)) as [|[]|].
  - exfalso. revert C. rewrite ltb_xval, (xval_fin y) by easy. easy.
  - exfalso. revert C. rewrite ltb_xval, (xval_fin y) by easy. easy.
  - replace (Bplus mode_NE (B754_infinity false) y') with (B754_infinity false : f64) by now destruct y'. rewrite ltb_xval. now destruct (xval (Bplus mode_NE _ x')) as [|[]|].
  - change (Bplus mode_NE (B754_infinity false) (B754_infinity false)) with (B754_infinity false : f64). rewrite ltb_xval. now destruct (xval (Bplus mode_NE _ x')) as [|[]|].
  - exfalso. revert C. rewrite ltb_xval, (xval_fin y) by easy. easy.
  - exfalso. revert C. rewrite ltb_xval, (xval_fin y) by easy. easy.
  - exfalso. revert C'. rewrite ltb_xval, (xval_fin y') by easy. easy.
  - easy.
Qed.
Lemma lee_mul x y k r : lee x y -> xval k = Fin r -> 0 < r -> lee (Bmult mode_NE x k) (Bmult mode_NE y k).
Proof.
  intros (A & B & C) Ek Pr. apply xval_fin_inv in Ek as [Fk Vk]. assert (K : nn k) by (apply nn_fin; [easy|lra]). split; [now apply nn_mul|split; [now apply nn_mul|]].
  assert (IK : Bmult mode_NE (B754_infinity false) k = B754_infinity false). { destruct k as [s|s| |s p e H]; try easy; try (cbn in Vk; lra). destruct s; [|easy]. exfalso. assert (B2R (B754_finite true p e H) < 0) by now apply F2R_lt_0. lra. }
  fsplit x; fsplit y; try (rewrite ?nan_mult_l, ?nan_mult_r; (apply ltb_nan_l || apply ltb_nan_r)); repeat match goal with s : bool |- _ => destruct s; [easy|] end.
  - apply (ltb_of _ _ _ _ (xval_mul y k ltac:(easy) Fk) (xval_mul x k ltac:(easy) Fk)). rewrite ltb_xval, !xval_fin in C by easy. cbn in C. apply Rltb_f in C. rewrite Vk. nra.
  - rewrite IK, ltb_xval. now destruct (xval (Bmult mode_NE x k)) as [|[]|].
  - exfalso. revert C. rewrite ltb_xval, (xval_fin y) by easy. easy.
  - rewrite IK. easy.
Qed.
Lemma lee_div x y k r : lee x y -> xval k = Fin r -> 0 < r -> lee (Bdiv mode_NE x k) (Bdiv mode_NE y k).
Proof.
  intros (A & B & C) Ek Pr. apply xval_fin_inv in Ek as [Fk Vk]. assert (K : Bltb (B754_zero false) k = true) by (rewrite ltb_xval, (xval_fin k) by easy; cbn; apply Rltb_t; lra). split; [now apply nn_div|split; [now apply nn_div|]].
  assert (IK : Bdiv mode_NE (B754_infinity false) k = B754_infinity false). { destruct k as [s|s| |s p e H]; try easy; try (cbn in Vk; lra). destruct s; [|easy]. exfalso. assert (B2R (B754_finite true p e H) < 0) by now apply F2R_lt_0. lra. }
  fsplit x; fsplit y; try (rewrite ?nan_div_l, ?nan_div_r; (apply ltb_nan_l || apply ltb_nan_r)); repeat match goal with s : bool |- _ => destruct s; [easy|] end.
  - apply (ltb_of _ _ _ _ (xval_div y k ltac:(easy) Fk ltac:(lra)) (xval_div x k ltac:(easy) Fk ltac:(lra))). rewrite ltb_xval, !xval_fin in C by easy. cbn in C. apply Rltb_f in C. rewrite Vk. assert (0 < / r) by now apply Rinv_0_lt_compat. unfold Rdiv. nra.
  - rewrite IK, ltb_xval. now destruct (xval (Bdiv mode_NE x k)) as [|[]|].
  - exfalso. revert C. rewrite ltb_xval, (xval_fin y) by easy. easy.
  - rewrite IK. easy.
Qed.
Lemma lee_zero s t : lee (B754_zero s) (B754_zero t). Proof. now destruct s, t. Qed.
Lemma xval_nat m n : (Z.of_nat n <= 2 ^ 53)%Z -> xval (@fofnat f64 (B64 m) n) = Fin (INR n).
Proof. intros H. change (fofnat n) with (b64_of_Z (Z.of_N (N.of_nat n))). rewrite xval_of_Z by lia. now rewrite INR_IZR_INZ, nat_N_Z. Qed.
Lemma rep_nat n : (Z.of_nat n <= 2 ^ 53)%Z -> rep (INR n).
Proof. intros H. rewrite INR_IZR_INZ. apply rep_Z. lia. Qed.

(** ** Extremes of finite floats *)
Lemma fin_not_nan (x : f64) : fin x -> is_nan x = false. Proof. now destruct x. Qed.
Lemma fmax_fin m a b : fin a -> fin b -> fin (@fmax f64 (B64 m) a b) /\ B2R (@fmax f64 (B64 m) a b) = Rmax (B2R a) (B2R b).
Proof.
  intros Fa Fb. change (@fmax f64 (B64 m) a b) with (if is_nan a then b else if is_nan b then a else if Bltb a b then b else a).
  rewrite (fin_not_nan a), (fin_not_nan b), ltb_xval, !xval_fin by easy. cbn [xltb]. unfold Rmax. destruct (Rltb (B2R a) (B2R b)) eqn:E; [apply Rltb_t in E|apply Rltb_f in E]; (split; [easy|destruct (Rle_dec _ _); lra]).
Qed.
Lemma fmin_fin m a b : fin a -> fin b -> fin (@fmin f64 (B64 m) a b) /\ B2R (@fmin f64 (B64 m) a b) = Rmin (B2R a) (B2R b).
Proof.
  intros Fa Fb. change (@fmin f64 (B64 m) a b) with (if is_nan a then b else if is_nan b then a else if Bltb b a then b else a).
  rewrite (fin_not_nan a), (fin_not_nan b), ltb_xval, !xval_fin by easy. cbn [xltb]. unfold Rmin. destruct (Rltb (B2R b) (B2R a)) eqn:E; [apply Rltb_t in E|apply Rltb_f in E]; (split; [easy|destruct (Rle_dec _ _); lra]).
Qed.
Lemma fold_max_spec m l : forall a, fin a -> (forall x, In x l -> fin x) ->
  let r := fold_left (@fmax f64 (B64 m)) l a in fin r /\ B2R a <= B2R r /\ (forall x, In x l -> B2R x <= B2R r).
Proof.
  induction l as [|b l IH]; intros a Fa H; cbn [fold_left]; [cbv zeta; split; [easy|split; [apply Rle_refl|easy]]|].
  assert (Fb : fin b) by (apply H; now left).
  destruct (fmax_fin m a b Fa Fb) as [FM VM]. pose proof (Rmax_l (B2R a) (B2R b)). pose proof (Rmax_r (B2R a) (B2R b)).
  destruct (IH (fmax a b)) as (F & G & K); [easy|intros; apply H; now right|]. cbv zeta. split; [easy|]. change (B2R (fmax a b)) with (B2R (@fmax f64 (B64 m) a b)) in G. rewrite VM in G. split; [eapply Rle_trans; [|exact G]; easy|]. intros x [<- |Hx]; [eapply Rle_trans; [|exact G]; easy|now apply K].
Qed.
Lemma fold_min_spec m l : forall a, fin a -> (forall x, In x l -> fin x) ->
  let r := fold_left (@fmin f64 (B64 m)) l a in fin r /\ B2R r <= B2R a /\ (forall x, In x l -> B2R r <= B2R x).
Proof.
  induction l as [|b l IH]; intros a Fa H; cbn [fold_left]; [cbv zeta; split; [easy|split; [apply Rle_refl|easy]]|].
  assert (Fb : fin b) by (apply H; now left).
  destruct (fmin_fin m a b Fa Fb) as [FM VM]. pose proof (Rmin_l (B2R a) (B2R b)). pose proof (Rmin_r (B2R a) (B2R b)).
  destruct (IH (fmin a b)) as (F & G & K); [easy|intros; apply H; now right|]. cbv zeta. split; [easy|]. change (B2R (fmin a b)) with (B2R (@fmin f64 (B64 m) a b)) in G. rewrite VM in G. split; [eapply Rle_trans; [exact G|]; easy|]. intros x [<- |Hx]; [eapply Rle_trans; [exact G|]; easy|now apply K].
Qed.
Lemma max_of_fin m l : l <> [] -> (forall x, In x l -> fin x) -> fin (@max_of f64 (B64 m) l) /\ forall x, In x l -> B2R x <= B2R (@max_of f64 (B64 m) l).
Proof.
  destruct l as [|a l]; [easy|]. intros _ H. unfold max_of. cbn [fold_left]. change (fmax fnan a) with a. destruct (fold_max_spec m l a) as (F & G & K); [apply H; now left|intros; apply H; now right|]. split; [exact F|]. intros x [<- |Hx]; [exact G|now apply K].
Qed.
Lemma min_of_fin m l : l <> [] -> (forall x, In x l -> fin x) -> fin (@min_of f64 (B64 m) l) /\ forall x, In x l -> B2R (@min_of f64 (B64 m) l) <= B2R x.
Proof.
  destruct l as [|a l]; [easy|]. intros _ H. unfold min_of. cbn [fold_left]. change (fmin fnan a) with a. destruct (fold_min_spec m l a) as (F & G & K); [apply H; now left|intros; apply H; now right|]. split; [exact F|]. intros x [<- |Hx]; [exact G|now apply K].
Qed.
Lemma sub_part x y z : fin x -> fin y -> fin z -> B2R z <= B2R y <= B2R x -> inr 0 1 (Bdiv mode_NE (Bminus mode_NE x y) (Bminus mode_NE x z)).
Proof.
  intros Fx Fy Fz H. apply inr_part.
  - apply (nn_of _ _ (xval_sub x y Fx Fy)). lra.
  - apply (ltb_of _ _ _ _ (xval_sub x z Fx Fz) (xval_sub x y Fx Fy)). lra.
Qed.
Lemma sub_part_low x y z : fin x -> fin y -> fin z -> B2R z <= B2R y <= B2R x -> lee (Bminus mode_NE y z) (Bminus mode_NE x z).
Proof.
  intros Fx Fy Fz H. split; [|split].
  - apply (nn_of _ _ (xval_sub y z Fy Fz)). lra.
  - apply (nn_of _ _ (xval_sub x z Fx Fz)). lra.
  - apply (ltb_of _ _ _ _ (xval_sub x z Fx Fz) (xval_sub y z Fy Fz)). lra.
Qed.
Lemma in_last_bars {A} w (f : nat -> A) i x : In x (last_bars w f i) -> exists k, x = f k /\ (i + 1 - w <= k)%nat /\ (k < i + 1 - w + w)%nat.
Proof. intros H. apply in_map_iff in H as (k & <- & Hk). apply in_seq in Hk. exists k. split; [easy|lia]. Qed.
Lemma last_bars_at {A} w (f : nat -> A) i : (0 < w)%nat -> (w <= i + 1)%nat -> In (f i) (last_bars w f i).
Proof. intros. apply in_map, in_seq. lia. Qed.
Lemma last_bars_ne {A} w (f : nat -> A) i : (0 < w)%nat -> last_bars w f i <> [].
Proof. destruct w; [lia|easy]. Qed.
(** Finite bars whose close is between low and high. *)
Definition fbars (h l c : nat -> f64) (n : nat) : Prop :=
  forall k, (k < n)%nat -> fin (h k) /\ fin (l k) /\ fin (c k) /\ B2R (l k) <= B2R (c k) <= B2R (h k).

(** An output of an aligned series is the filler or one of the values. *)
Lemma aligned_in {B} (o : list B) n k na f x : aligned o n k na f -> In x o -> x = na \/ exists i, (k <= i < n)%nat /\ x = f i.
Proof.
  intros (L & W & V) Hx. apply In_nth_error in Hx as [i Hi]. assert (i < length o)%nat by (apply nth_error_Some; congruence). destruct (Nat.lt_ge_cases i k) as [Z|Z].
  - left. rewrite W in Hi by easy. congruence.
  - right. exists i. split; [lia|]. rewrite V in Hi by lia. congruence.
Qed.

(** ** Oscillators that stay in range *)
Theorem wpr_f64_range m (h l c : nat -> f64) n w : (0 < w)%nat -> (w - 1 <= n)%nat -> fbars h l c n ->
  exists o, @wpr f64 (B64 m) (series h n) (series l n) (series c n) w = Ok o /\ forall x, In x o -> inr (-100) 0 x.
Proof.
  intros Hw Hn H. destruct (wpr_values h l c n w Hw Hn) as (o & E & A). exists o. split; [exact E|]. intros x Hx. apply (aligned_in _ _ _ _ _ _ A) in Hx as [-> |(i & Hi & ->)]; [easy|].
  destruct (max_of_fin m (last_bars w h i)) as [FH UH]; [now apply last_bars_ne| |]. { intros x Hx. apply in_last_bars in Hx as (k & -> & Hk). apply (H k). lia. }
  destruct (min_of_fin m (last_bars w l i)) as [FL UL]; [now apply last_bars_ne| |]. { intros x Hx. apply in_last_bars in Hx as (k & -> & Hk). apply (H k). lia. }
  destruct (H i ltac:(lia)) as (_ & _ & FC & B). specialize (UH (h i) ltac:(now apply last_bars_at; lia)). specialize (UL (l i) ltac:(now apply last_bars_at; lia)).
  pose proof (sub_part (max_of (last_bars w h i)) (c i) (min_of (last_bars w l i)) FH FC FL ltac:(lra)) as P. apply inr_cases in P as [P|[FP BP]].
  - cbn [fmul fdiv fsub B64]. rewrite P. now rewrite nan_mult_r.
  - assert (X : xval (b64_of_Z (-100)) = Fin (-100)) by now apply xval_of_Z. apply xval_fin_inv in X as [FX VX]. apply (inr_of _ _ _ _ (xval_mul (b64_of_Z (-100)) _ FX FP)); [now apply (rep_Z (-100))|now apply (rep_Z 0)|]. rewrite VX. lra.
Qed.
Lemma inr_fsum m l b z : (forall x, In x l -> inr 0 b x) -> b = IZR z -> (0 <= z)%Z -> (z * Z.of_nat (length l) <= 2 ^ 53)%Z -> inr 0 (b * INR (length l)) (@fsum f64 (B64 m) l).
Proof.
  intros H -> Hz Hl. unfold fsum.
  assert (G : forall l j a, (forall x, In x l -> inr 0 (IZR z) x) -> (z * (j + Z.of_nat (length l)) <= 2 ^ 53)%Z -> (0 <= j)%Z -> inr 0 (IZR (z * j)) a -> inr 0 (IZR (z * (j + Z.of_nat (length l)))) (fold_left (@fadd f64 (B64 m)) l a)).
  { clear - Hz. induction l as [|x l IH]; intros j a H Hl Hj Ha; cbn [fold_left length]; [replace (j + Z.of_nat 0)%Z with j by lia; exact Ha|].
    cbn [length] in Hl. replace (j + Z.of_nat (S (length l)))%Z with (j + 1 + Z.of_nat (length l))%Z in * by lia. apply IH; [intros; apply H; now right|easy|lia|].
    replace 0 with (0 + 0) at 1 by lra. replace (z * (j + 1))%Z with (z * j + z)%Z by ring. rewrite plus_IZR. apply inr_add; [easy|apply H; now left|rewrite Rplus_0_l; now apply (rep_Z 0)|]. rewrite <- plus_IZR. apply rep_Z. nia. }
  specialize (G l 0%Z (@fsum0 f64 (B64 m)) H). rewrite INR_IZR_INZ, <- mult_IZR. rewrite Z.add_0_l in G. apply G; [easy|lia|]. replace (z * 0)%Z with 0%Z by ring. cbn. unfold inr. cbn. lra.
Qed.
Theorem psych_f64_range m (f : nat -> f64) n w : (0 < w)%nat -> (100 * Z.of_nat w <= 2 ^ 53)%Z ->
  exists o, @psych f64 (B64 m) (series f n) w = Ok o /\ forall x, In x o -> inr 0 100 x.
Proof.
  intros Hw Hb. destruct (psych_values f n w Hw) as (o & E & A). exists o. split; [exact E|]. intros x Hx. apply (aligned_in _ _ _ _ _ _ A) in Hx as [-> |(i & Hi & ->)]; [easy|].
  assert (0 < INR w) by now apply lt_0_INR.
  assert (S1 : inr 0 (INR w) (@fsum f64 (B64 m) (last_bars w (fun k => @fmax f64 (B64 m) (@fsignum f64 (B64 m) (@fsub f64 (B64 m) (f k) (f (k - 1)%nat))) (flit 0 1)) i))).
  { assert (LL : length (last_bars w (fun k => @fmax f64 (B64 m) (@fsignum f64 (B64 m) (@fsub f64 (B64 m) (f k) (f (k - 1)%nat))) (flit 0 1)) i) = w) by (unfold last_bars; now rewrite map_length, seq_length).
    replace (INR w) with (1 * INR w) by ring. rewrite <- LL at 1. apply (inr_fsum m _ 1 1); try easy; [|rewrite LL; lia]. intros x Hx. apply in_last_bars in Hx as (k & -> & _). set (d := fsub _ _). assert (Z0 : inr 0 1 (b64_of_Z 0)) by (unfold inr; rewrite xval_of_Z by easy; lra). assert (Z1 : inr 0 1 (b64_of_Z 1)) by (unfold inr; rewrite xval_of_Z by easy; lra).
    unfold fsignum. destruct (fisnan d); [exact Z0|]. destruct (fsignbit d); [exact Z0|exact Z1]. }
  cbn [fmul fdiv B64]. change (flit 100 1) with (b64_of_Z 100).
  replace 0 with (0 * 100 / INR w) by (field; lra). replace 100 with (INR w * 100 / INR w) at 2 by (field; lra).
  apply inr_quot; [|apply (xval_nat m); lia|easy| |].
  - apply inr_scale; [exact S1|now apply xval_of_Z|lra|rewrite Rmult_0_l; now apply (rep_Z 0)|]. rewrite INR_IZR_INZ, <- mult_IZR. apply rep_Z. lia.
  - replace (0 * 100 / INR w) with 0 by (field; lra). now apply (rep_Z 0).
  - replace (INR w * 100 / INR w) with 100 by (field; lra). now apply (rep_Z 100).
Qed.
Lemma arg_last_lt m better (w : list f64) : w <> [] -> (@arg_last f64 (B64 m) better w < length w)%nat.
Proof.
  intros H. unfold arg_last, enumerate. assert (G : forall l a k x, (a + length l <= length w)%nat -> (k < length w)%nat -> (fst (fold_left (fun '(bi, bx) '(i, y) => if better y bx then (i, y) else (bi, bx)) (combine (seq a (length l)) l) (k, x)) < length w)%nat).
  { induction l as [|y l IH]; intros a k x Ha Hk; cbn [length seq combine fold_left]; [easy|]. cbn [length] in Ha. destruct (better y x); apply IH; lia. }
  apply G; [lia|]. destruct w; [easy|cbn; lia].
Qed.
Theorem aroon_f64_range m (high low : list f64) w : (0 < w)%nat -> (Z.of_nat w <= 2 ^ 53)%Z ->
  exists o, @aroon f64 (B64 m) high low w = Ok o /\ forall x, In x o -> inr 0 100 (fst x) /\ inr 0 100 (snd x).
Proof.
  intros Hw Hb. unfold aroon. eexists. split; [reflexivity|]. intros x Hx. apply in_app_iff in Hx as [Hx|Hx]; [apply in_pad in Hx; now subst|]. apply in_map_iff in Hx as ((a & b) & <- & Hi). cbn [aroon_win fst snd].
  assert (G : forall w1 l better, In w1 (windows (w + 1) l) -> inr 0 100 (fofnat (@arg_last f64 (B64 m) better w1) / fofnat w * flit 100 1)%F).
  { intros w1 l better Hw1. apply in_map_iff in Hw1 as (j & <- & Hj). apply in_seq in Hj. set (v := firstn (w + 1) (skipn j l)). assert (LV : length v = (w + 1)%nat) by (unfold v; rewrite firstn_length, skipn_length; lia).
    assert (v <> []) by (destruct v; [cbn in LV; lia|easy]). pose proof (arg_last_lt m better v H) as AL. rewrite LV in AL. set (k := arg_last better v) in *.
    apply (inr_weaken (0 * 100) (1 * 100)); [|lra|lra]. cbn [fmul fdiv B64]. apply inr_scale; [|now apply xval_of_Z|lra|rewrite Rmult_0_l; now apply (rep_Z 0)|rewrite Rmult_1_l; now apply (rep_Z 100)].
    apply inr_part; [apply (nn_nat m)|]. rewrite ltb_xval, !(xval_nat m) by lia. cbn. apply Rltb_f, le_INR. lia. }
  split; eapply G; [apply in_combine_l in Hi; exact Hi|apply in_combine_r in Hi; exact Hi].
Qed.

(** ** Rounding errors *)
Lemma rnd_rel x : bpow radix2 (-1022) <= Rabs x -> Rabs (rnd x - x) <= bpow radix2 (-53) * Rabs x.
Proof.
  intros H. pose proof (relative_error_N_FLT radix2 (-1074) 53 ltac:(reflexivity) (fun x => negb (Z.even x)) x H) as R. replace (bpow radix2 (-53)) with (/ 2 * bpow radix2 (-53 + 1)); [exact R|].
  rewrite bpow_plus. cbn. lra.
Qed.
Lemma F2R_rep m e : (Z.abs m < 2 ^ 53)%Z -> (-1074 <= e)%Z -> rnd (F2R (Float radix2 m e)) = F2R (Float radix2 m e).
Proof. intros Hm He. apply round_generic; [typeclasses eauto|]. apply (generic_format_FLT radix2 (-1074) 53). now exists (Float radix2 m e). Qed.
Lemma B2R_mul_emin (x : f64) : exists z, B2R x = F2R (Float radix2 z (-1074)).
Proof.
  destruct x as [s|s| |s p e B]; try (exists 0%Z; cbn; now rewrite F2R_0).
  destruct (andb_prop _ _ B) as [C _]. unfold SpecFloat.canonical_mantissa, SpecFloat.fexp in C. apply Zeq_bool_eq in C. assert (-1074 <= e)%Z by (change (SpecFloat.emin 53 1024) with (-1074)%Z in C; lia).
  exists (SpecFloat.cond_Zopp s (Zpos p) * 2 ^ (e + 1074))%Z. cbn [B2R]. rewrite (F2R_change_exp radix2 (-1074) _ e) by easy. now replace (e - -1074)%Z with (e + 1074)%Z by ring.
Qed.
(** A float times a small integer keeps its relative precision, even below the
    normal range. *)
Lemma rnd_mulZ k (x : f64) : Rabs (rnd (IZR k * B2R x) - IZR k * B2R x) <= bpow radix2 (-53) * Rabs (IZR k * B2R x).
Proof.
  destruct (Rle_lt_dec (bpow radix2 (-1022)) (Rabs (IZR k * B2R x))) as [H|H]; [now apply rnd_rel|].
  destruct (B2R_mul_emin x) as [z Ez]. assert (E : IZR k * B2R x = F2R (Float radix2 (k * z) (-1074))) by (rewrite Ez; unfold F2R; cbn [Fnum Fexp]; rewrite mult_IZR; ring).
  rewrite E in *. rewrite F2R_rep; [|apply lt_IZR|lia].
  - rewrite Rminus_diag_eq, Rabs_R0 by easy. apply Rmult_le_pos; [apply bpow_ge_0|apply Rabs_pos].
  - rewrite abs_IZR. rewrite <- F2R_Zabs in H. unfold F2R in H. cbn [Fnum Fexp] in H. rewrite abs_IZR in H. apply (Rmult_lt_reg_r (bpow radix2 (-1074))); [apply bpow_gt_0|]. eapply Rlt_le_trans; [exact H|]. change (IZR (2 ^ 53)) with (IZR (radix2 ^ 53)). rewrite IZR_Zpower by easy. rewrite <- bpow_plus. apply bpow_le. lia.
Qed.
Definition U100 : R := 100 + bpow radix2 (-46).
Lemma rep_F z e r : r = IZR z * bpow radix2 e -> (Z.abs z < 2 ^ 53)%Z -> (-1074 <= e <= 960)%Z -> rep r.
Proof.
  intros -> Hz He. split; [now apply (F2R_rep z e)|]. rewrite Rabs_mult, (Rabs_pos_eq (bpow _ _)) by apply bpow_ge_0. apply Rlt_le_trans with (bpow radix2 53 * bpow radix2 e).
  - apply Rmult_lt_compat_r; [apply bpow_gt_0|]. rewrite <- abs_IZR. rewrite <- (IZR_Zpower radix2 53) by easy. now apply IZR_lt.
  - rewrite <- bpow_plus. apply bpow_le. lia.
Qed.
Lemma rep_U100 : rep U100.
Proof. apply (rep_F (100 * 2 ^ 46 + 1) (-46)); [|easy|lia]. unfold U100. rewrite plus_IZR, mult_IZR. cbn. field. Qed.
Lemma lit100 : fin (b64_of_Z 100) /\ B2R (b64_of_Z 100) = 100.
Proof. apply xval_fin_inv. now apply xval_of_Z. Qed.
Lemma inf_mul100 : Bmult mode_NE (b64_of_Z 100) (B754_infinity false) = B754_infinity false.
Proof. reflexivity. Qed.
Lemma percent_of x y : lee x y ->
  inr 0 U100 (Bdiv mode_NE (Bmult mode_NE (b64_of_Z 100) x) y) \/
  Bmult mode_NE (b64_of_Z 100) x = B754_infinity false /\ Bdiv mode_NE (Bmult mode_NE (b64_of_Z 100) x) y = B754_infinity false.
Proof.
  intros (Hx & Hy & H). destruct lit100 as [F1 V1]. fsplit x; [|destruct s; [easy|]|left; rewrite nan_mult_r, nan_div_l; exact I].
  2:{ rewrite inf_mul100. left. fsplit y; [|easy|exact I]. exfalso. revert H. rewrite ltb_xval, (xval_fin y) by easy. easy. }
  assert (Gx := Hx). apply nn_fin in Gx; [|easy]. pose proof (xval_mul (b64_of_Z 100) x F1 ltac:(easy)) as M. rewrite V1 in M.
  assert (NM : nn (Bmult mode_NE (b64_of_Z 100) x)) by (apply (nn_of _ _ M); lra).
  remember (Bmult mode_NE (b64_of_Z 100) x) as p eqn:Ep. clear Ep. fsplit y; [|destruct s; [easy|]|left; rewrite nan_div_r; exact I].
  2:{ left. fsplit p; [|destruct s; easy|easy]. destruct p; try easy; unfold inr; cbn; split; try lra; unfold U100; pose proof (bpow_gt_0 radix2 (-46)); lra. }
  rewrite ltb_xval, !xval_fin in H by easy. cbn in H. apply Rltb_f in H.
  destruct (Req_dec (B2R y) 0) as [Z|Z].
  { assert (ZX : B2R x = 0) by lra. rewrite ZX, Rmult_0_r in M. unfold fl in M. rewrite rnd_0, Rabs_R0, (proj2 (Rltb_t 0 lim) lim_pos) in M. apply xval_fin_inv in M as [Fp Vp].
    assert (G : forall z : f64, fin z -> B2R z = 0 -> exists s, z = B754_zero s) by (intros [s|s| |s q e B] FZ VZ; try easy; [now exists s|exfalso; revert VZ; cbn -[F2R]; intros VZ; apply eq_0_F2R in VZ; now destruct s]).
    destruct (G p Fp Vp) as [s ->]. destruct (G y ltac:(easy) Z) as [t ->]. left. exact I. }
  fsplit p; [|destruct s; [easy|]|].
  - unfold fl in M. rewrite xval_fin in M by easy. destruct (Rltb _ _); [|easy]. injection M as M.
    left. unfold inr. rewrite xval_div by easy. assert (0 < B2R y) by lra. pose proof (rnd_mulZ 100 x) as R. rewrite <- M in R. rewrite (Rabs_pos_eq (100 * _)) in R by lra. pose proof (bpow_gt_0 radix2 (-53)) as BP.
    assert (100 * bpow radix2 (-53) <= bpow radix2 (-46)). { replace (-46)%Z with (7 + -53)%Z by easy. rewrite bpow_plus. change (bpow radix2 7) with 128. lra. }
    assert (PU : 0 <= B2R p) by (apply nn_fin; easy). apply Rabs_le_inv in R.
    assert (Q : 0 <= B2R p / B2R y <= U100). { split; [apply Rmult_le_pos; [easy|left; now apply Rinv_0_lt_compat]|]. apply (Rmult_le_reg_r (B2R y)); [easy|]. unfold Rdiv. rewrite Rmult_assoc, Rinv_l, Rmult_1_r by easy. unfold U100. nra. }
    destruct rep_U100 as [RU LU]. pose proof (rnd_le _ _ (proj1 Q)) as Q1. pose proof (rnd_le _ _ (proj2 Q)) as Q2. rewrite rnd_0 in Q1. rewrite RU in Q2. rewrite fl_fin; [lra|]. apply Rabs_def2 in LU. apply Rabs_def1; lra.
  - right. destruct y as [t|t| |t q e B]; try easy; try (cbn in Z; lra). destruct t; [|easy]. exfalso. assert (B2R (B754_finite true q e B) < 0) by now apply F2R_lt_0. lra.
  - unfold fl in M. destruct (Rltb _ _); easy.
Qed.
Lemma rnd_sub_small a : 0 <= a <= 1 -> rnd a = a -> rnd (a + rnd (1 - a)) <= 1.
Proof.
  intros Ha Ra. assert (T : rnd (1 + bpow radix2 (-53)) = 1).
  { pose (e := @B754_finite 53 1024 false 4503599627370496 (-105) eq_refl). assert (E : B2R e = bpow radix2 (-53)).
    { unfold e. cbn [B2R]. unfold F2R. cbn [Fnum Fexp SpecFloat.cond_Zopp]. change 4503599627370496%Z with (radix2 ^ 52)%Z. rewrite IZR_Zpower by easy. now rewrite <- bpow_plus. }
    pose proof (xval_add (b64_of_Z 1) e ltac:(easy) ltac:(easy)) as X. assert (X1 : xval (b64_of_Z 1) = Fin 1) by now apply xval_of_Z. assert (V1 := proj2 (xval_fin_inv _ _ X1)).
    assert (S : Bplus mode_NE (b64_of_Z 1) e = b64_of_Z 1) by (apply B2SF_inj; vm_compute; reflexivity). rewrite S, X1, V1, E in X. unfold fl in X. destruct (Rltb _ _); [|easy]. now injection X. }
  rewrite <- T at 2. apply rnd_le. destruct (Req_dec (1 - a) 0) as [Z|Z]; [rewrite Z, rnd_0; pose proof (bpow_gt_0 radix2 (-53)); lra|].
  destruct (Rle_lt_dec (bpow radix2 (-1022)) (1 - a)) as [H|H].
  - pose proof (rnd_rel (1 - a)) as R. rewrite Rabs_pos_eq in R by lra. specialize (R H). apply Rabs_le_inv in R. pose proof (bpow_gt_0 radix2 (-53)). nra.
  - assert (rnd (1 - a) <= bpow radix2 (-1022)).
    { rewrite <- (proj1 (rep_F 1 (-1022) (bpow radix2 (-1022)) ltac:(ring) ltac:(easy) ltac:(lia))). apply rnd_le. lra. }
    assert (bpow radix2 (-1022) <= bpow radix2 (-53)) by now apply bpow_le. lra.
Qed.

(** ** Averages keep a range *)
Lemma inr_sum m a b l : (forall k, (k <= length l)%nat -> rep (a * INR k) /\ rep (b * INR k)) -> (forall x, In x l -> inr a b x) -> inr (a * INR (length l)) (b * INR (length l)) (@fsum f64 (B64 m) l).
Proof.
  unfold fsum. intros R H.
  assert (G : forall l j s, (forall k, (k <= j + length l)%nat -> rep (a * INR k) /\ rep (b * INR k)) -> (forall x, In x l -> inr a b x) -> inr (a * INR j) (b * INR j) s -> inr (a * INR (j + length l)) (b * INR (j + length l)) (fold_left (@fadd f64 (B64 m)) l s)).
  { clear. induction l as [|x l IH]; intros j s R H Hs; cbn [fold_left length]; [now rewrite Nat.add_0_r|]. replace (j + S (length l))%nat with (S j + length l)%nat by lia. apply IH; [intros k Hk; apply R; cbn; lia|intros; apply H; now right|].
    destruct (R (S j) ltac:(cbn; lia)) as [R1 R2]. rewrite S_INR in *. rewrite Rmult_plus_distr_l, Rmult_1_r in *. rewrite (Rmult_plus_distr_l b), (Rmult_1_r b) in *. apply inr_add; try easy. apply H. now left. }
  apply (G l 0%nat (@fsum0 f64 (B64 m)) R H). cbn. unfold inr. destruct (lm_negsum0 m); cbn; lra.
Qed.
Lemma inr_mean m a b l n : l <> [] -> length l = n -> (Z.of_nat n <= 2 ^ 53)%Z -> (forall k, (k <= n)%nat -> rep (a * INR k) /\ rep (b * INR k)) -> (forall x, In x l -> inr a b x) -> inr a b (@fdiv f64 (B64 m) (fsum l) (fofnat n)).
Proof.
  intros N <- Hw R H. assert (0 < INR (length l)) by (apply lt_0_INR; destruct l; [easy|cbn; lia]). pose proof (R 1%nat ltac:(destruct l; [easy|cbn; lia])) as [R1 R2]. cbn [INR] in R1, R2. rewrite Rmult_1_r in R1, R2.
  pose proof (inr_sum m a b l R H) as S. replace a with (a * INR (length l) / INR (length l)) by (field; lra). replace b with (b * INR (length l) / INR (length l)) by (field; lra). apply inr_quot; [easy|now apply (xval_nat m)|easy| |]; match goal with |- rep (?e * _ / _) => replace (e * INR (length l) / INR (length l)) with e by (field; lra) end; easy.
Qed.
Lemma in_scan {A S B} (f : S -> A -> S * B) (P : S -> Prop) (Q : B -> Prop) l : forall s, P s -> (forall s a, In a l -> P s -> P (fst (f s a)) /\ Q (snd (f s a))) -> forall x, In x (scan f s l) -> Q x.
Proof.
  induction l as [|a l IH]; intros s Ps H x Hx; cbn [scan] in Hx; [easy|]. destruct (f s a) as [s' b] eqn:E. destruct (H s a (or_introl eq_refl) Ps) as [H1 H2]. rewrite E in H1, H2. cbn [fst snd] in *. destruct Hx as [<- |Hx]; [easy|]. apply (IH s' H1); [|easy]. intros; apply H; [now right|easy].
Qed.
Theorem wilder_f64_within m a b data w o : @wilder f64 (B64 m) data w = Ok o -> (Z.of_nat w <= 2 ^ 53)%Z -> (forall k, (k <= w)%nat -> rep (a * INR k) /\ rep (b * INR k)) ->
  (forall x, In x data -> inr a b x) -> forall x, In x o -> inr a b x.
Proof.
  unfold wilder. intros E Hw R H x Hx. destruct (Nat.eqb_spec w 1) as [-> |N]; [injection E as <-; now apply H|]. destruct (usub w 1) as [k|] eqn:U; cbn [bind] in E; [|easy].
  unfold usub in U. destruct (Nat.leb_spec 1 w); [|easy]. injection U as <-. unfold slice_to, slice_from in E. destruct (Nat.leb_spec (w - 1) (length data)); cbn [bind] in E; [|easy]. injection E as <-.
  apply in_app_iff in Hx as [Hx|Hx]; [apply in_pad in Hx; now subst|]. revert x Hx. apply (in_scan _ (inr a b)).
  - assert (length (firstn (w - 1) data) = (w - 1)%nat) by (rewrite firstn_length; lia). apply inr_mean; [|easy|lia|intros; apply R; lia|intros y Hy; apply H; eapply firstn_in, Hy]. intros Z. rewrite Z in *. cbn in *. lia.
  - intros s x Hx Hs. cbn [wilder_step fst snd]. assert (0 < INR w) by (apply lt_0_INR; lia). match goal with |- inr a b ?e /\ _ => assert (inr a b e); [|easy] end. cbn [fdiv fadd fmul B64].
    replace a with (a * INR w / INR w) by (field; lra). replace b with (b * INR w / INR w) by (field; lra). destruct (R w ltac:(lia)) as [R1 R2]. destruct (R 1%nat ltac:(lia)) as [R3 R4]. cbn [INR] in R3, R4. rewrite Rmult_1_r in R3, R4. destruct (R (w - 1)%nat ltac:(lia)) as [R5 R6].
    apply inr_quot; [|apply (xval_nat m); lia|easy|now replace (a * INR w / INR w) with a by (field; lra)|now replace (b * INR w / INR w) with b by (field; lra)].
    assert (EW : INR w = INR (w - 1) + 1) by (rewrite <- S_INR; f_equal; lia). rewrite EW in *. rewrite !Rmult_plus_distr_l, !Rmult_1_r in *.
    apply inr_add; try easy; [|apply H; eapply skipn_in, Hx]. apply inr_scale; try easy; [apply (xval_nat m); lia|apply pos_INR].
Qed.
Theorem ewma_f64_unit m data w o : @ewma f64 (B64 m) data w = Ok o -> (Z.of_nat w < 2 ^ 53)%Z -> (forall x, In x data -> inr (-1) 1 x) -> forall x, In x o -> inr (-1) 1 x.
Proof.
  unfold ewma. intros E Hw H x Hx. unfold slice_to, slice_from, usub in E. destruct (Nat.leb_spec w (length data)); cbn [bind] in E; [|easy]. destruct (Nat.leb_spec 1 w); cbn [bind] in E; [|easy]. injection E as <-.
  assert (I0 : inr (-1) 1 (@fsum f64 (B64 m) (firstn w data) / fofnat w)%F).
  { assert (length (firstn w data) = w) by (rewrite firstn_length; lia). apply inr_mean; try easy; [|lia| |intros y Hy; apply H; eapply firstn_in, Hy]; [intros Z; rewrite Z in *; cbn in *; lia|].
    intros k Hk. rewrite INR_IZR_INZ, <- !mult_IZR. split; apply rep_Z; lia. }
  apply in_app_iff in Hx as [Hx|[<- |Hx]]; [apply in_pad in Hx; now subst|exact I0|]. revert x Hx. apply (in_scan _ (inr (-1) 1)); [exact I0|].
  match goal with |- context [ewma_step ?e] => set (al := e) end. assert (A : fin al /\ 0 <= B2R al <= 1).
  { assert (X2 : xval (b64_of_Z 2) = Fin 2) by now apply xval_of_Z. pose proof (xval_nat m (w + 1) ltac:(lia)) as XW. apply xval_fin_inv in X2 as [X2 V2]. apply xval_fin_inv in XW as [XW VW].
    assert (W2 : 2 <= INR (w + 1)) by (change 2 with (INR 2); apply le_INR; lia).
    assert (G : inr 0 1 al). { apply (inr_of _ _ _ (2 / INR (w + 1))); [|now apply (rep_Z 0)|now apply (rep_Z 1)|].
      - change al with (Bdiv mode_NE (b64_of_Z 2) (@fofnat f64 (B64 m) (w + 1))). rewrite xval_div by (try easy; rewrite VW; lra). now rewrite V2, VW.
      - split; [apply Rmult_le_pos; [lra|left; apply Rinv_0_lt_compat; lra]|]. apply (Rmult_le_reg_r (INR (w + 1))); [lra|]. unfold Rdiv. rewrite Rmult_assoc, Rinv_l by lra. lra. }
    apply inr_cases in G as [G|G]; [|easy]. exfalso. assert (X : xval al = fl (2 / INR (w + 1))). { change al with (Bdiv mode_NE (b64_of_Z 2) (@fofnat f64 (B64 m) (w + 1))). rewrite xval_div by (try easy; rewrite VW; lra). now rewrite V2, VW. } rewrite G in X. unfold fl in X. now destruct (Rltb _ _). }
  clearbody al. destruct A as [FA BA]. assert (X1 : xval (b64_of_Z 1) = Fin 1) by now apply xval_of_Z. apply xval_fin_inv in X1 as [F1 V1].
  pose proof (xval_sub (b64_of_Z 1) al F1 FA) as XB. rewrite V1 in XB. assert (RB : 0 <= rnd (1 - B2R al) <= 1). { split; [rewrite <- rnd_0; apply rnd_le; lra|]. apply Rle_trans with (rnd 1); [apply rnd_le; lra|rewrite (rnd_Z 1) by easy; lra]. }
  rewrite fl_fin in XB by (apply Rle_lt_trans with (IZR 2); [rewrite Rabs_pos_eq; lra|]; rewrite <- (Rabs_pos_eq 2) by lra; now apply (IZR_lt_lim 2)). apply xval_fin_inv in XB as [FB VB]. set (be := Bminus mode_NE (b64_of_Z 1) al) in *.
  intros s a Ha Hs. cbn [ewma_step fst snd]. match goal with |- inr _ _ ?e /\ _ => assert (inr (-1) 1 e); [|easy] end. cbn [fadd fmul fsub B64]. change (flit 1 1) with (b64_of_Z 1). fold be.
  assert (M : forall y k : f64, inr (-1) 1 y -> fin k -> 0 <= B2R k <= 1 -> inr (- B2R k) (B2R k) (Bmult mode_NE y k)).
  { intros y k Hy Fk Bk. apply inr_cases in Hy as [-> |[Fy By]]; [now rewrite nan_mult_l|]. assert (RK : rep (B2R k)) by (split; [apply rnd_B2R|apply Rle_lt_trans with 1; [rewrite Rabs_pos_eq; lra|]; rewrite <- (Rabs_pos_eq 1) by lra; now apply (IZR_lt_lim 1)]).
    apply (inr_of _ _ _ _ (xval_mul y k Fy Fk)); [|easy|nra]. destruct RK as [K1 K2]. split; [rewrite rnd_opp; lra|now rewrite Rabs_Ropp]. }
  pose proof (M a al (H a (skipn_in _ _ _ Ha)) FA BA) as P1. pose proof (M s be Hs FB ltac:(rewrite VB; exact RB)) as P2.
  apply inr_cases in P1 as [P1|[FP1 P1]]; [rewrite P1, nan_plus_l; exact I|]. apply inr_cases in P2 as [P2|[FP2 P2]]; [rewrite P2, nan_plus_r; exact I|].
  unfold inr. rewrite xval_add by easy. pose proof (rnd_sub_small (B2R al) BA (rnd_B2R al)) as S. rewrite <- VB in S. set (r := B2R _ + B2R _).
  assert (r <= B2R al + B2R be /\ - (B2R al + B2R be) <= r) as [Q1 Q2] by (unfold r; lra). apply rnd_le in Q1, Q2. rewrite rnd_opp in Q2. rewrite fl_fin; [lra|]. apply Rle_lt_trans with (Rabs 2); [rewrite (Rabs_pos_eq 2) by lra; apply Rabs_le; lra|now apply (IZR_lt_lim 2)].
Qed.
(** [bal_power] of consistent bars is in [-1,1]. *)
Lemma body_part m (o h l c : f64) : fin o -> fin h -> fin l -> fin c -> B2R l <= B2R o <= B2R h -> B2R l <= B2R c <= B2R h -> inr (-1) 1 (@fdiv f64 (B64 m) (fsub c o) (fsub h l)).
Proof.
  intros Fo Fh Fl Fc Ho Hc. cbn [fdiv fsub B64]. destruct (Rle_lt_dec (B2R o) (B2R c)).
  - apply (inr_weaken 0 1); [|lra|lra]. apply inr_part; [apply (nn_of _ _ (xval_sub c o Fc Fo)); lra|apply (ltb_of _ _ _ _ (xval_sub h l Fh Fl) (xval_sub c o Fc Fo)); lra].
  - pose proof (xval_sub c o Fc Fo) as X. pose proof (xval_sub o c Fo Fc) as Y. pose proof (xval_sub h l Fh Fl) as Z.
    assert (P : inr 0 1 (Bdiv mode_NE (Bminus mode_NE o c) (Bminus mode_NE h l))) by (apply inr_part; [apply (nn_of _ _ Y); lra|apply (ltb_of _ _ _ _ Z Y); lra]).
    assert (XY : xval (Bminus mode_NE c o) = xneg (xval (Bminus mode_NE o c))). { rewrite X, Y. unfold fl. replace (B2R c - B2R o) with (- (B2R o - B2R c)) by ring. rewrite rnd_opp, Rabs_Ropp. destruct (Rltb _ _); [easy|]. cbn [xneg]. rewrite (proj2 (Rltb_t (- (B2R o - B2R c)) 0)), (proj2 (Rltb_f (B2R o - B2R c) 0)) by lra. easy. }
    clear X Y Z. set (p := Bminus mode_NE c o) in *. set (q := Bminus mode_NE o c) in *. set (d := Bminus mode_NE h l) in *. clearbody p q d.
    fsplit q.
    + rewrite (xval_fin q) in XY by easy. apply xval_fin_inv in XY as [Fp Vp]. fsplit d.
      * destruct (Req_dec (B2R d) 0) as [ZD|ZD].
        -- unfold inr in *. destruct d as [s|s| |s v e B]; try easy; [|exfalso; revert ZD; cbn -[F2R]; intros ZD; apply eq_0_F2R in ZD; now destruct s]. destruct p as [s'|s'| |s' v e B]; try easy. destruct q as [t|t| |t v' e' B']; try easy. exfalso. revert Vp. cbn -[F2R]. intros Vp. assert (F2R (Float radix2 (SpecFloat.cond_Zopp s' (Z.pos v)) e) <> 0) by (intros K; apply eq_0_F2R in K; now destruct s'). lra.
        -- apply inr_cases in P as [P|[FP BP]]; [exfalso; pose proof (xval_div q d ltac:(easy) ltac:(easy) ZD) as K; rewrite P in K; unfold fl in K; now destruct (Rltb _ _)|].
           pose proof (xval_div q d ltac:(easy) ltac:(easy) ZD) as K. rewrite (xval_fin _ FP) in K. unfold fl in K. destruct (Rltb (Rabs (rnd (B2R q / B2R d))) lim) eqn:L; [|easy]. injection K as K. unfold inr. rewrite xval_div, Vp by easy. replace (- B2R q / B2R d) with (- (B2R q / B2R d)) by (field; easy). rewrite fl_fin; rewrite rnd_opp; [lra|]. rewrite Rabs_Ropp. now apply Rltb_t.
      * destruct p; try easy; destruct s; unfold inr; cbn; lra.
      * now rewrite nan_div_r.
    + cbn in XY. assert (p = B754_infinity (negb s)) as -> by (destruct p; cbn in XY; try easy; now injection XY as ->). fsplit d; [|easy|easy]. exfalso. revert P. unfold inr. destruct d as [| | |]; easy.
    + now destruct p.
Qed.
Theorem bal_power_f64_range m (op h l c : nat -> f64) n w : (0 < w <= n)%nat -> (Z.of_nat w < 2 ^ 53)%Z -> fbars h l c n -> fbars h l op n ->
  exists o, @bal_power f64 (B64 m) (series op n) (series h n) (series l n) (series c n) w = Ok o /\ forall x, In x o -> inr (-1) 1 x.
Proof.
  intros Hw Hb HC HO. unfold bal_power. rewrite zip4_series, map_map. match goal with |- context [ewma (map ?g ?l) w] => pose (f := g); destruct (ewma_outcome (map f l) w) as [[[Z|Z] _]|(_ & o & E & _)]; [lia|rewrite map_length, seq_length in Z; lia|exists o; split; [exact E|]] end.
  apply (ewma_f64_unit m _ w o E Hb). intros x Hx. apply in_map_iff in Hx as (k & <- & Hk). apply in_seq in Hk. destruct (HC k ltac:(lia)) as (F1 & F2 & F3 & B1). destruct (HO k ltac:(lia)) as (_ & _ & F4 & B2). unfold f. now apply body_part.
Qed.
