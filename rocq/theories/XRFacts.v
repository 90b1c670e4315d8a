(** * XRFacts: computing in the exact instance. *)

From Coq Require Export Reals Lra Psatz.
From Flocq Require Import Core.Raux.
From Verif Require Export XReal RSpec Spec BaseFacts.
Local Unset Implicit Arguments.
Local Open Scope R_scope.

(** ** Comparisons *)
Lemma Rltb_true a b : Rltb a b = true <-> a < b.
Proof. unfold Rltb. destruct (Rlt_dec a b); split; easy. Qed.
Lemma Rltb_false a b : Rltb a b = false <-> b <= a.
Proof. unfold Rltb. destruct (Rlt_dec a b); split; try easy; lra. Qed.
Lemma Rleb_true a b : Rleb a b = true <-> a <= b.
Proof. unfold Rleb. destruct (Rle_dec a b); split; easy. Qed.
Lemma Rleb_false a b : Rleb a b = false <-> b < a.
Proof. unfold Rleb. destruct (Rle_dec a b); split; try easy; lra. Qed.
Lemma Req_true a b : Req a b = true <-> a = b.
Proof. unfold Req. destruct (Req_EM_T a b); split; easy. Qed.
Lemma Req_false a b : Req a b = false <-> a <> b.
Proof. unfold Req. destruct (Req_EM_T a b); split; easy. Qed.

Ltac rcase :=
  repeat match goal with
  | |- context [Rltb ?a ?b] =>
      let E := fresh "E" in destruct (Rltb a b) eqn:E;
      [apply Rltb_true in E | apply Rltb_false in E]
  | |- context [Rleb ?a ?b] =>
      let E := fresh "E" in destruct (Rleb a b) eqn:E;
      [apply Rleb_true in E | apply Rleb_false in E]
  | |- context [Req ?a ?b] =>
      let E := fresh "E" in destruct (Req a b) eqn:E;
      [apply Req_true in E | apply Req_false in E]
  end.

(** ** Operations on reals *)
Lemma x_add a b : fadd (Fin a) (Fin b) = Fin (a + b). Proof. reflexivity. Qed.
Lemma x_sub a b : fsub (Fin a) (Fin b) = Fin (a - b). Proof. reflexivity. Qed.
Lemma x_mul a b : fmul (Fin a) (Fin b) = Fin (a * b). Proof. reflexivity. Qed.
Lemma x_neg a : fneg (Fin a) = Fin (- a). Proof. reflexivity. Qed.
Lemma x_abs a : fabs (Fin a) = Fin (Rabs a). Proof. reflexivity. Qed.
Lemma x_exp a : fexp (Fin a) = Fin (exp a). Proof. reflexivity. Qed.
Lemma x_cos a : fcos (Fin a) = Fin (cos a). Proof. reflexivity. Qed.
Lemma x_div a b : b <> 0 -> fdiv (Fin a) (Fin b) = Fin (a / b).
Proof. intros H. cbn. now rewrite (proj2 (Req_false b 0) H). Qed.
Lemma x_sqrt a : 0 <= a -> fsqrt (Fin a) = Fin (sqrt a).
Proof. intros H. cbn. now rewrite (proj2 (Rltb_false a 0) H). Qed.
Lemma x_ln a : 0 < a -> fln (Fin a) = Fin (ln a).
Proof. intros H. cbn. now rewrite (proj2 (Rltb_true 0 a) H). Qed.
Lemma x_lit n : flit n 1 = Fin (IZR n).
Proof. cbn. f_equal. lra. Qed.
Lemma x_frac n d : flit n d = Fin (IZR n / IZR (Zpos d)).
Proof. reflexivity. Qed.
Lemma x_nat n : fofnat n = Fin (INR n).
Proof.
  unfold fofnat. cbn. unfold xofN. f_equal. rewrite nat_N_Z. now rewrite INR_IZR_INZ.
Qed.
Lemma x_sum0 : fsum0 = Fin 0. Proof. reflexivity. Qed.
Lemma x_nan : @fnan xr XR = NaN. Proof. reflexivity. Qed.
Lemma x_ltb a b : fltb (Fin a) (Fin b) = Rltb a b. Proof. reflexivity. Qed.
Lemma x_leb a b : fleb (Fin a) (Fin b) = Rleb a b. Proof. reflexivity. Qed.
Lemma x_eqb a b : feqb (Fin a) (Fin b) = Req a b. Proof. reflexivity. Qed.
Lemma x_max a b : fmax (Fin a) (Fin b) = Fin (Rmax a b).
Proof.
  unfold fmax. cbn. unfold Rmax. rcase; destruct (Rle_dec a b); f_equal; lra.
Qed.
Lemma x_min a b : fmin (Fin a) (Fin b) = Fin (Rmin a b).
Proof.
  unfold fmin. cbn. unfold Rmin. rcase; destruct (Rle_dec a b); f_equal; lra.
Qed.
Lemma x_max_nan_l b : fmax NaN b = b. Proof. reflexivity. Qed.
Lemma x_min_nan_l b : fmin NaN b = b. Proof. reflexivity. Qed.
Lemma x_max_nan_r a : fmax (Fin a) NaN = Fin a. Proof. reflexivity. Qed.
Lemma x_min_nan_r a : fmin (Fin a) NaN = Fin a. Proof. reflexivity. Qed.
Lemma x_pow2 a : powi2 (Fin a) = Fin (a ^ 2).
Proof. unfold powi2. cbn. f_equal. lra. Qed.
Lemma x_pow3 a : powi3 (Fin a) = Fin (a ^ 3).
Proof. unfold powi3. cbn. f_equal. lra. Qed.
Lemma x_pow4 a : powi4 (Fin a) = Fin (a ^ 4).
Proof. unfold powi4. cbn. f_equal. lra. Qed.
Lemma x_bool b : fbool b = Fin (if b then 1 else 0).
Proof. destruct b; cbn; f_equal; lra. Qed.
Lemma x_fin_inj a b : Fin a = Fin b <-> a = b.
Proof. split; [now intros [= ->] | now intros ->]. Qed.

Global Hint Rewrite x_add x_sub x_mul x_neg x_abs x_exp x_cos x_lit x_nat x_sum0 x_nan x_ltb x_leb
  x_eqb x_max x_min x_max_nan_l x_min_nan_l x_max_nan_r x_min_nan_r x_pow2 x_pow3 x_pow4 x_bool : xr.
Ltac xr := autorewrite with xr.

Lemma INR_pos n : (0 < n)%nat -> 0 < INR n.
Proof. intros. now apply lt_0_INR. Qed.
Lemma INR_neq0 n : (0 < n)%nat -> INR n <> 0.
Proof. intros H. apply INR_pos in H. lra. Qed.

(** NaN absorbs. *)
Lemma x_add_nan_l b : fadd NaN b = NaN. Proof. now destruct b. Qed.
Lemma x_add_nan_r a : fadd a NaN = NaN. Proof. now destruct a. Qed.
Lemma x_sub_nan_l b : fsub NaN b = NaN. Proof. now destruct b. Qed.
Lemma x_sub_nan_r a : fsub a NaN = NaN. Proof. now destruct a. Qed.
Lemma x_mul_nan_l b : fmul NaN b = NaN. Proof. now destruct b. Qed.
Lemma x_mul_nan_r a : fmul a NaN = NaN. Proof. now destruct a. Qed.
Lemma x_div_nan_l b : fdiv NaN b = NaN. Proof. now destruct b. Qed.
Lemma x_div_nan_r a : fdiv a NaN = NaN. Proof. now destruct a. Qed.
Global Hint Rewrite x_add_nan_l x_add_nan_r x_sub_nan_l x_sub_nan_r x_mul_nan_l x_mul_nan_r
  x_div_nan_l x_div_nan_r : xr.

(** ** Lists *)
Lemma x_win w l i : win w (map Fin l) i = map Fin (win w l i).
Proof. unfold win. now rewrite skipn_map, firstn_map. Qed.
Lemma x_at l i : (i < length l)%nat -> at_ (map Fin l) i = Fin (nth i l 0).
Proof.
  intros H. unfold at_. rewrite nth_indep with (d' := Fin 0) by now rewrite map_length.
  now rewrite map_nth.
Qed.
Lemma x_last l : l <> [] -> last_ (map Fin l) = Fin (last l 0).
Proof.
  intros H. unfold last_. rewrite map_length. fold (at_ (map Fin l) (length l - 1)).
  rewrite x_at by (destruct l; cbn; [easy | lia]). f_equal.
  destruct (exists_last H) as (a & z & ->). rewrite app_length, last_last. cbn.
  rewrite app_nth2 by lia. now replace (length a + 1 - 1 - length a)%nat with 0%nat by lia.
Qed.

(** ** Sums *)
Lemma Rsum_nil : Rsum [] = 0. Proof. reflexivity. Qed.
Lemma Rsum_cons a l : Rsum (a :: l) = a + Rsum l. Proof. reflexivity. Qed.
Lemma Rsum_app a b : Rsum (a ++ b) = Rsum a + Rsum b.
Proof. induction a; cbn [app]; rewrite ?Rsum_nil, ?Rsum_cons; lra. Qed.
Lemma Rsum_rev l : Rsum (rev l) = Rsum l.
Proof. induction l; cbn [rev]; [easy|]. rewrite Rsum_app, Rsum_cons, Rsum_cons, Rsum_nil. lra. Qed.
Lemma Rsum_scale c l : Rsum (map (fun x => c * x) l) = c * Rsum l.
Proof. induction l; cbn [map]; rewrite ?Rsum_nil, ?Rsum_cons; lra. Qed.
Lemma Rsum_map_add {A} (f g : A -> R) l :
  Rsum (map (fun x => f x + g x) l) = Rsum (map f l) + Rsum (map g l).
Proof. induction l; cbn [map]; rewrite ?Rsum_nil, ?Rsum_cons; lra. Qed.
Lemma Rsum_map_sub {A} (f g : A -> R) l :
  Rsum (map (fun x => f x - g x) l) = Rsum (map f l) - Rsum (map g l).
Proof. induction l; cbn [map]; rewrite ?Rsum_nil, ?Rsum_cons; lra. Qed.
Lemma Rsum_map_scale {A} c (f : A -> R) l : Rsum (map (fun x => c * f x) l) = c * Rsum (map f l).
Proof. induction l; cbn [map]; rewrite ?Rsum_nil, ?Rsum_cons; lra. Qed.
Lemma Rsum_const {A} c (l : list A) : Rsum (map (fun _ => c) l) = INR (length l) * c.
Proof.
  induction l; cbn [map length]; rewrite ?Rsum_nil, ?Rsum_cons, ?S_INR; cbn [INR]; lra.
Qed.
Lemma Rsum_repeat c n : Rsum (repeat c n) = INR n * c.
Proof. induction n; cbn [repeat]; rewrite ?Rsum_nil, ?Rsum_cons, ?S_INR; cbn [INR]; lra. Qed.
Lemma Rsum_le {A} (f g : A -> R) l :
  (forall x, In x l -> f x <= g x) -> Rsum (map f l) <= Rsum (map g l).
Proof.
  induction l as [|a l IH]; intros H; cbn [map]; rewrite ?Rsum_nil, ?Rsum_cons; [lra|].
  pose proof (H a (or_introl eq_refl)). assert (Rsum (map f l) <= Rsum (map g l)).
  { apply IH. intros. apply H. now right. } lra.
Qed.
Lemma Rsum_nonneg l : (forall x, In x l -> 0 <= x) -> 0 <= Rsum l.
Proof.
  intros H. induction l as [|a l IH]; rewrite ?Rsum_nil, ?Rsum_cons; [lra|].
  pose proof (H a (or_introl eq_refl)). assert (0 <= Rsum l).
  { apply IH. intros. apply H. now right. } lra.
Qed.
Lemma Rsum_zero l : (forall x, In x l -> 0 <= x) -> Rsum l = 0 -> forall x, In x l -> x = 0.
Proof.
  induction l as [|a l IH]; intros H E x Hx; [easy|].
  rewrite Rsum_cons in E. pose proof (H a (or_introl eq_refl)).
  assert (H2 : forall x, In x l -> 0 <= x) by (intros; apply H; now right).
  pose proof (Rsum_nonneg l H2). destruct Hx as [<- | Hx]; [lra|].
  apply IH; try easy. lra.
Qed.
Lemma Rsum_pos l : (forall x, In x l -> 0 < x) -> l <> [] -> 0 < Rsum l.
Proof.
  intros H Hn. destruct l as [|a l]; [easy|]. rewrite Rsum_cons.
  pose proof (H a (or_introl eq_refl)). assert (0 <= Rsum l).
  { apply Rsum_nonneg. intros. apply Rlt_le, H. now right. } lra.
Qed.

Lemma fold_left_Rsum {A} (f : A -> R) l a :
  fold_left (fun acc x => acc + f x) l a = a + Rsum (map f l).
Proof.
  revert a. induction l as [|x l IH]; intros a; cbn [fold_left map]; rewrite ?Rsum_nil, ?Rsum_cons; [lra|].
  rewrite IH. lra.
Qed.
(** A running sum of exact terms. *)
Lemma x_fold_add {A} (g : A -> xr) (f : A -> R) l a :
  (forall x, In x l -> g x = Fin (f x)) ->
  fold_left (fun acc x => fadd acc (g x)) l (Fin a) = Fin (a + Rsum (map f l)).
Proof.
  revert a. induction l as [|x l IH]; intros a H; cbn [fold_left map].
  - rewrite Rsum_nil. f_equal. lra.
  - rewrite H by now left. rewrite x_add, IH by (intros; apply H; now right).
    rewrite Rsum_cons. f_equal. lra.
Qed.
Lemma x_fsum l : fsum (map Fin l) = Fin (Rsum l).
Proof.
  unfold fsum. change (@fsum0 xr XR) with (Fin 0).
  assert (H : forall a, fold_left fadd (map Fin l) (Fin a) = Fin (a + Rsum l)).
  { induction l as [|x l IH]; intros a; cbn [fold_left map]; rewrite ?Rsum_nil, ?Rsum_cons.
    - f_equal. lra.
    - rewrite x_add, IH. f_equal. lra. }
  rewrite H. f_equal. lra.
Qed.
Lemma x_fsum_map {A} (g : A -> xr) (f : A -> R) l :
  (forall x, In x l -> g x = Fin (f x)) -> fsum (map g l) = Fin (Rsum (map f l)).
Proof.
  intros H. rewrite <- x_fsum, map_map. f_equal. now apply map_ext_in.
Qed.

Lemma In_win {A} w (l : list A) i x : In x (win w l i) -> In x l.
Proof.
  unfold win. intros H. assert (In x (skipn (i + 1 - w) l)).
  { rewrite <- (firstn_skipn w (skipn _ _)). apply in_or_app. now left. }
  rewrite <- (firstn_skipn (i + 1 - w) l). apply in_or_app. now right.
Qed.
Lemma win_nonempty {A} w (l : list A) i : (0 < w <= i + 1)%nat -> (i < length l)%nat -> win w l i <> [].
Proof. intros H1 H2 E. assert (length (win w l i) = 0%nat) by now rewrite E. rewrite length_win in H; lia. Qed.

(** ** [within] *)
Lemma within_mean_gen (w l : list R) :
  length w = length l -> (forall a, In a w -> 0 <= a) -> 0 < Rsum w ->
  within l (wmean w l).
Proof.
  intros L Hw Hs.
  assert (Hl : l <> []) by (intros ->; destruct w; [cbn in Hs; lra | easy]).
  assert (M : exists m, is_max l m).
  { clear L. induction l as [|a l IH]; [easy|]. destruct l as [|b l].
    - exists a. split; [now left|]. intros x [-> | []]. lra.
    - destruct IH as (m & Hm & Hmx); [easy|]. destruct (Rle_dec a m).
      + exists m. split; [now right|]. intros x [<- | Hx]; auto.
      + exists a. split; [now left|]. intros x [<- | Hx]; [lra|]. apply Hmx in Hx. lra. }
  assert (N : exists m, is_min l m).
  { clear L M. induction l as [|a l IH]; [easy|]. destruct l as [|b l].
    - exists a. split; [now left|]. intros x [-> | []]. lra.
    - destruct IH as (m & Hm & Hmx); [easy|]. destruct (Rle_dec m a).
      + exists m. split; [now right|]. intros x [<- | Hx]; auto.
      + exists a. split; [now left|]. intros x [<- | Hx]; [lra|]. apply Hmx in Hx. lra. }
  destruct M as (M & HM & HMx), N as (m & Hm & Hmn).
  assert (B : m * Rsum w <= wsum w l <= M * Rsum w).
  { unfold wsum. clear Hl HM Hm Hs. revert l L HMx Hmn Hw.
    induction w as [|a w IH]; intros [|b l] L HMx Hmn Hw; try easy; cbn [combine map];
      rewrite ?Rsum_nil, ?Rsum_cons; [lra|]. cbn [fst snd].
    destruct (IH l) as [B1 B2].
    - now injection L.
    - intros; apply HMx; now right.
    - intros; apply Hmn; now right.
    - intros; apply Hw; now right.
    - pose proof (Hw a (or_introl eq_refl)). pose proof (HMx b (or_introl eq_refl)).
      pose proof (Hmn b (or_introl eq_refl)). nra. }
  unfold wmean. split.
  - exists m. split; [easy|]. apply Rmult_le_reg_r with (Rsum w); [easy|].
    unfold Rdiv. rewrite Rmult_assoc, Rinv_l, Rmult_1_r by lra. lra.
  - exists M. split; [easy|]. apply Rmult_le_reg_r with (Rsum w); [easy|].
    unfold Rdiv. rewrite Rmult_assoc, Rinv_l, Rmult_1_r by lra. lra.
Qed.
Lemma mean_wmean l : mean l = wmean (map (fun _ => 1) l) l.
Proof.
  unfold mean, wmean. rewrite Rsum_const, Rmult_1_r. f_equal. unfold wsum.
  induction l as [|a l IH]; [easy|]. cbn [map combine fst snd]. rewrite !Rsum_cons, IH. lra.
Qed.
Lemma within_mean l : l <> [] -> within l (mean l).
Proof.
  intros H. rewrite mean_wmean. apply within_mean_gen.
  - now rewrite map_length.
  - intros a Ha. apply in_map_iff in Ha. destruct Ha as (? & <- & _). lra.
  - rewrite Rsum_const, Rmult_1_r. apply INR_pos. destruct l; [easy | cbn; lia].
Qed.
Lemma mean_const c l : l <> [] -> (forall x, In x l -> x = c) -> mean l = c.
Proof.
  intros Hn H. unfold mean. replace (Rsum l) with (Rsum (map (fun _ => c) l)).
  - rewrite Rsum_const. field. apply INR_neq0. destruct l; [easy | cbn; lia].
  - f_equal. rewrite <- (map_id l) at 2. apply map_ext_in. intros. symmetry. auto.
Qed.
