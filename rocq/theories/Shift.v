(** * Shift: adding one constant to every price.

    [sh t x] is [x] with [t] added: infinities and NaN stay what they are.  The
    theorems of ShiftVals.v say how each function's result changes when the
    same constant is added to all its prices: an average or a band moves along,
    an oscillator does not change at all.

    The proofs relate the two runs: [sim g x y] says that [y] is [x] plus [g]. *)

From Coq Require Import Reals Lra Lia.
From Verif Require Import Base BaseFacts Num XReal XRFacts.
From Verif Require Scale.
Local Unset Implicit Arguments.
Local Open Scope R_scope.

Definition sh (t : R) (x : xr) : xr := match x with Fin r => Fin (r + t) | _ => x end.
Definition shifted (t : R) (l : list xr) : list xr := map (sh t) l.

(** ** The operations *)

Lemma Rltb_shift t x y : Rltb (x + t) (y + t) = Rltb x y.
Proof. unfold Rltb. destruct (Rlt_dec (x + t) (y + t)), (Rlt_dec x y); try easy; exfalso; lra. Qed.
Lemma Rleb_shift t x y : Rleb (x + t) (y + t) = Rleb x y.
Proof. unfold Rleb. destruct (Rle_dec (x + t) (y + t)), (Rle_dec x y); try easy; exfalso; lra. Qed.
Lemma Req_shift t x y : Req (x + t) (y + t) = Req x y.
Proof. unfold Req. destruct (Req_EM_T (x + t) (y + t)), (Req_EM_T x y); try easy; exfalso; lra. Qed.

Definition sim (g : R) (x y : xr) : Prop := y = sh g x.

Lemma s_conv g1 g2 a a' : sim g1 a a' -> g1 = g2 -> sim g2 a a'.
Proof. now intros ? <-. Qed.
Lemma f2_conv g1 g2 l l' : Forall2 (sim g1) l l' -> g1 = g2 -> Forall2 (sim g2) l l'.
Proof. now intros ? <-. Qed.
Lemma s_add g1 g2 g a a' b b' : sim g1 a a' -> sim g2 b b' -> g1 + g2 = g -> sim g (fadd a b) (fadd a' b').
Proof.
  unfold sim. intros -> -> <-. destruct a as [x|s|], b as [y|t|]; cbn; try easy.
  - f_equal. ring.
  - now destruct (Bool.eqb s t).
Qed.
Lemma s_sub g1 g2 g a a' b b' : sim g1 a a' -> sim g2 b b' -> g1 - g2 = g -> sim g (fsub a b) (fsub a' b').
Proof.
  unfold sim. intros -> -> <-. destruct a as [x|s|], b as [y|t|]; cbn; unfold xsub; cbn; try easy.
  - f_equal. ring.
  - now destruct (Bool.eqb s (negb t)).
Qed.
Lemma s_neg g1 g a a' : sim g1 a a' -> - g1 = g -> sim g (fneg a) (fneg a').
Proof. unfold sim. intros -> <-. destruct a; cbn; try easy. f_equal. ring. Qed.
Lemma s_mulk k g1 g a a' b : sim g1 a a' -> b = Fin k -> g1 * k = g -> sim g (fmul a b) (fmul a' b).
Proof.
  unfold sim. intros -> -> <-. destruct a as [x|s|]; cbn; try easy.
  - f_equal. ring.
  - destruct (Req k 0); [easy|]. easy.
Qed.
Lemma s_kmul k g1 g a a' b : sim g1 a a' -> b = Fin k -> k * g1 = g -> sim g (fmul b a) (fmul b a').
Proof.
  unfold sim. intros -> -> <-. destruct a as [x|s|]; cbn; try easy.
  - f_equal. ring.
  - destruct (Req k 0); [easy|]. easy.
Qed.
Lemma s_divk k g1 g a a' b : sim g1 a a' -> b = Fin k -> k <> 0 -> g1 / k = g -> sim g (fdiv a b) (fdiv a' b).
Proof.
  unfold sim. intros -> -> K <-. destruct a as [x|s|]; try easy.
  cbn [sh]. rewrite !x_div by easy. cbn. f_equal. now field.
Qed.
Lemma s_same a : sim 0 a a.
Proof. unfold sim. destruct a; cbn; try easy. f_equal. ring. Qed.
Lemma s_eq a a' : sim 0 a a' -> a' = a.
Proof. unfold sim. intros ->. symmetry. apply s_same. Qed.
Lemma s_eq_iff a a' : sim 0 a a' <-> a' = a.
Proof. split; [apply s_eq|intros ->; apply s_same]. Qed.
Lemma s_fun (f : xr -> xr) a a' : sim 0 a a' -> sim 0 (f a) (f a').
Proof. intros H. apply s_eq in H. subst. apply s_same. Qed.
Lemma s_fun2 (f : xr -> xr -> xr) a a' b b' : sim 0 a a' -> sim 0 b b' -> sim 0 (f a b) (f a' b').
Proof. intros H K. apply s_eq in H, K. subst. apply s_same. Qed.
Lemma s_nan g : sim g fnan fnan.
Proof. easy. Qed.
Lemma s_ltb g a a' b b' : sim g a a' -> sim g b b' -> fltb a' b' = fltb a b.
Proof. unfold sim. intros -> ->. destruct a as [x|s|], b as [y|t|]; cbn; try easy. apply Rltb_shift. Qed.
Lemma s_eqb g a a' b b' : sim g a a' -> sim g b b' -> feqb a' b' = feqb a b.
Proof. unfold sim. intros -> ->. destruct a as [x|s|], b as [y|t|]; cbn; try easy. apply Req_shift. Qed.
Lemma s_leb g a a' b b' : sim g a a' -> sim g b b' -> fleb a' b' = fleb a b.
Proof.
  unfold sim. intros -> ->. destruct a as [x|s|], b as [y|t|]; cbn; unfold xleb; cbn; try easy. apply Rleb_shift.
Qed.
Lemma s_isnan g a a' : sim g a a' -> fisnan a' = fisnan a.
Proof. unfold sim. intros ->. now destruct a. Qed.
Lemma s_max g a a' b b' : sim g a a' -> sim g b b' -> sim g (fmax a b) (fmax a' b').
Proof.
  intros Ha Hb. unfold fmax. rewrite (s_isnan _ _ _ Ha), (s_isnan _ _ _ Hb), (s_ltb _ _ _ _ _ Ha Hb).
  destruct (fisnan a), (fisnan b), (fltb a b); easy.
Qed.
Lemma s_min g a a' b b' : sim g a a' -> sim g b b' -> sim g (fmin a b) (fmin a' b').
Proof.
  intros Ha Hb. unfold fmin. rewrite (s_isnan _ _ _ Ha), (s_isnan _ _ _ Hb), (s_ltb _ _ _ _ _ Hb Ha).
  destruct (fisnan a), (fisnan b), (fltb b a); easy.
Qed.
Lemma s_at g l l' i : Forall2 (sim g) l l' -> sim g (at_ l i) (at_ l' i).
Proof. intros. unfold at_. apply Scale.f2_nth; [easy|apply s_nan]. Qed.
Lemma s_last g l l' : Forall2 (sim g) l l' -> sim g (last_ l) (last_ l').
Proof. intros H. unfold last_. rewrite (Scale.f2_length _ _ _ H). apply Scale.f2_nth; [easy|apply s_nan]. Qed.
Lemma s_fold_add g l l' a b g0 : Forall2 (sim g) l l' -> sim g0 a b ->
  sim (g0 + INR (length l) * g) (fold_left fadd l a) (fold_left fadd l' b).
Proof.
  intros H. revert a b g0. induction H as [|x y l l' H _ IH]; intros a b g0 S; cbn [fold_left length].
  - eapply s_conv; [exact S|]. cbn. ring.
  - eapply s_conv; [apply (IH _ _ (g0 + g)); now apply (s_add g0 g)|]. rewrite S_INR. ring.
Qed.
Lemma s_fsum g g1 l l' : Forall2 (sim g1) l l' -> INR (length l) * g1 = g -> sim g (fsum l) (fsum l').
Proof.
  intros H <-. eapply s_conv; [apply (s_fold_add g1 l l' _ _ 0 H); apply s_same|]. ring.
Qed.

(** ** Windows *)

(** [wrel w R]: related windows, all of the (positive) length [w]. *)
Definition wrel {A A'} (w : nat) (R : A -> A' -> Prop) (l : list A) (l' : list A') : Prop :=
  Forall2 R l l' /\ length l = w /\ (0 < w)%nat.
Lemma f2_windows_len {A A'} (R : A -> A' -> Prop) w l l' : (0 < w)%nat -> Forall2 R l l' ->
  Forall2 (wrel w R) (windows w l) (windows w l').
Proof.
  intros W H. unfold windows. rewrite (Scale.f2_length _ _ _ H). apply Scale.f2_same. intros i I. apply in_seq in I. split; [|split; [|easy]].
  - now apply Scale.f2_firstn, Scale.f2_skipn.
  - rewrite firstn_length, skipn_length. lia.
Qed.
Lemma r_rwindows {A A'} (R : A -> A' -> Prop) w l l' : Forall2 R l l' ->
  Scale.rrel (Forall2 (wrel w R)) (rwindows w l) (rwindows w l').
Proof. intros H. unfold rwindows. destruct (w =? 0)%nat eqn:E; [easy|]. apply f2_windows_len; [|easy]. apply Nat.eqb_neq in E. lia. Qed.
Lemma r_usub {B B'} (S : B -> B' -> Prop) a b (k : nat -> result B) (k' : nat -> result B') :
  ((b <= a)%nat -> Scale.rrel S (k (a - b)%nat) (k' (a - b)%nat)) -> Scale.rrel S (bind (usub a b) k) (bind (usub a b) k').
Proof. intros H. unfold usub. destruct (b <=? a)%nat eqn:E; [|easy]. apply Nat.leb_le in E. now apply H. Qed.
Lemma r_usubN {B B'} (S : B -> B' -> Prop) a b (k : N -> result B) (k' : N -> result B') :
  ((b <= a)%N -> Scale.rrel S (k (a - b)%N) (k' (a - b)%N)) -> Scale.rrel S (bind (usubN a b) k) (bind (usubN a b) k').
Proof. intros H. unfold usubN. destruct (b <=? a)%N eqn:E; [|easy]. apply N.leb_le in E. now apply H. Qed.
Lemma r_umul {B B'} (S : B -> B' -> Prop) a b (k : N -> result B) (k' : N -> result B') :
  Scale.rrel S (k (a * b)%N) (k' (a * b)%N) -> Scale.rrel S (bind (umul a b) k) (bind (umul a b) k').
Proof. intros H. unfold umul. now destruct (_ <? _)%N. Qed.
Lemma r_uadd {B B'} (S : B -> B' -> Prop) a b (k : N -> result B) (k' : N -> result B') :
  Scale.rrel S (k (a + b)%N) (k' (a + b)%N) -> Scale.rrel S (bind (uadd a b) k) (bind (uadd a b) k').
Proof. intros H. unfold uadd. now destruct (_ <? _)%N. Qed.

(** the first [k] items of a slice that did not panic *)
Definition srel {A A'} (k : nat) (R : A -> A' -> Prop) (l : list A) (l' : list A') : Prop := Forall2 R l l' /\ length l = k.
Lemma r_slice_to {A A'} (R : A -> A' -> Prop) l l' k : Forall2 R l l' ->
  Scale.rrel (srel k R) (slice_to l k) (slice_to l' k).
Proof.
  intros H. unfold slice_to. rewrite (Scale.f2_length _ _ _ H). destruct (k <=? length l)%nat eqn:E; [|easy].
  apply Nat.leb_le in E. split; [now apply Scale.f2_firstn|]. rewrite firstn_length. lia.
Qed.

(** ** Constants *)

Lemma c_N n : fofN n = Fin (IZR (Z.of_N n)). Proof. reflexivity. Qed.
Lemma c_add a b x y : a = Fin x -> b = Fin y -> fadd a b = Fin (x + y). Proof. now intros -> ->. Qed.
Lemma c_sub a b x y : a = Fin x -> b = Fin y -> fsub a b = Fin (x - y). Proof. now intros -> ->. Qed.
Lemma c_mul a b x y : a = Fin x -> b = Fin y -> fmul a b = Fin (x * y). Proof. now intros -> ->. Qed.
Lemma c_neg a x : a = Fin x -> fneg a = Fin (- x). Proof. now intros ->. Qed.
Lemma c_div a b x y : a = Fin x -> b = Fin y -> y <> 0 -> fdiv a b = Fin (x / y).
Proof. intros -> -> H. now apply x_div. Qed.
Lemma INR_S1 n : INR (n + 1) <> 0.
Proof. rewrite plus_INR. pose proof (pos_INR n). cbn. lra. Qed.
Lemma INR_w w : (1 <= w)%nat -> INR (w - 1) = INR w - 1.
Proof. intros. now rewrite minus_INR. Qed.

(** ** Back to equations *)

Lemma f2_shifted g l l' : Forall2 (sim g) l l' <-> l' = shifted g l.
Proof.
  split.
  - induction 1 as [|x y l l' H _ IH]; cbn; [easy|]. now rewrite H, IH.
  - intros ->. induction l; cbn; constructor; easy.
Qed.
Lemma shifted_0 l : shifted 0 l = l.
Proof. symmetry. apply f2_shifted. induction l; constructor; auto. apply s_same. Qed.
Lemma f2_same0 l l' : Forall2 (sim 0) l l' -> l' = l.
Proof. intros H. apply f2_shifted in H. now rewrite shifted_0 in H. Qed.
Lemma f2_prices g l : Forall2 (sim g) l (shifted g l).
Proof. now apply f2_shifted. Qed.
Lemma f2_eq_eq {A} (l l' : list A) : Forall2 eq l l' -> l' = l.
Proof. induction 1; congruence. Qed.
Lemma r_shifted g r r' : Scale.rrel (Forall2 (sim g)) r r' -> r' = Scale.res_map (shifted g) r.
Proof. destruct r, r'; cbn; try easy. intros H. f_equal. now apply f2_shifted. Qed.
Lemma r_same0 r r' : Scale.rrel (Forall2 (sim 0)) r r' -> r' = r.
Proof. destruct r, r'; cbn; try easy. intros H. f_equal. now apply f2_same0. Qed.
Lemma r_of_eq (r r' : result (list xr)) : r' = r -> Scale.rrel (Forall2 (sim 0)) r r'.
Proof. intros ->. destruct r; cbn; [|easy]. apply f2_shifted. symmetry. apply shifted_0. Qed.
