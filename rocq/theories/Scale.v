(** * Scale: the choice of units.

    [sc k x] is [x] expressed in a unit [k] times smaller: a finite value is
    multiplied by [k]; infinities and NaN stay what they are.  The theorems of
    ScaleVals.v say how each function's result changes when its input is given in
    another unit.  They hold for *all* inputs over [XR], infinities and NaN
    included, with no condition on windows or lengths: a panic before is a panic
    after.

    The proofs relate the two runs: [sim d x y] says that [y] is [x] in the new
    units, where the dimension [d = (p, q)] means (price unit)^p (volume
    unit)^q. *)

From Coq Require Import Reals Lra Lia.
From Verif Require Import Base BaseFacts Num XReal.
Local Unset Implicit Arguments.
Local Open Scope R_scope.

Definition sc (k : R) (x : xr) : xr := match x with Fin r => Fin (k * r) | _ => x end.
Definition scaled (k : R) (l : list xr) : list xr := map (sc k) l.

(** [res_map f r]: [f] applied to what was collected, if nothing panicked. *)
Definition res_map {A B} (f : A -> B) (r : result A) : result B :=
  match r with Ok a => Ok (f a) | Panic => Panic end.

(** ** The operations *)

Lemma Rltb_scale k x y : 0 < k -> Rltb (k * x) (k * y) = Rltb x y.
Proof.
  intros. unfold Rltb. destruct (Rlt_dec (k * x) (k * y)), (Rlt_dec x y); try easy; exfalso; nra.
Qed.
Lemma Rleb_scale k x y : 0 < k -> Rleb (k * x) (k * y) = Rleb x y.
Proof.
  intros. unfold Rleb. destruct (Rle_dec (k * x) (k * y)), (Rle_dec x y); try easy; exfalso; nra.
Qed.
Lemma Req_scale k x y : 0 < k -> Req (k * x) (k * y) = Req x y.
Proof.
  intros. unfold Req. destruct (Req_EM_T (k * x) (k * y)) as [E|E], (Req_EM_T x y) as [E'|E']; try easy; exfalso.
  - apply E'. nra.
  - apply E. nra.
Qed.
Lemma Rltb_scale0 k x : 0 < k -> Rltb (k * x) 0 = Rltb x 0.
Proof. intros. rewrite <- (Rltb_scale k x 0) by easy. now rewrite Rmult_0_r. Qed.
Lemma Req_scale0 k x : 0 < k -> Req (k * x) 0 = Req x 0.
Proof. intros. rewrite <- (Req_scale k x 0) by easy. now rewrite Rmult_0_r. Qed.

Lemma Req_false x y : Req x y = false -> x <> y.
Proof. unfold Req. now destruct (Req_EM_T x y). Qed.

Lemma sc_add k a b : xadd (sc k a) (sc k b) = sc k (xadd a b).
Proof.
  destruct a as [x|s|], b as [y|t|]; cbn [sc xadd]; try easy.
  - f_equal. ring.
  - now destruct (Bool.eqb s t).
Qed.
Lemma sc_neg k a : xneg (sc k a) = sc k (xneg a).
Proof. destruct a; cbn [sc xneg]; try easy. f_equal. ring. Qed.
Lemma sc_sub k a b : xsub (sc k a) (sc k b) = sc k (xsub a b).
Proof.
  unfold xsub. destruct a as [x|s|], b as [y|t|]; cbn [sc xadd xneg]; try easy.
  - f_equal. ring.
  - now destruct (Bool.eqb s (negb t)).
Qed.
Lemma sc_mul k j a b : 0 < k -> 0 < j -> xmul (sc k a) (sc j b) = sc (k * j) (xmul a b).
Proof.
  intros Hk Hj. destruct a as [x|s|], b as [y|t|]; cbn [sc xmul]; try easy.
  - f_equal. ring.
  - rewrite Req_scale0, Rltb_scale0 by easy. now destruct (Req x 0).
  - rewrite Req_scale0, Rltb_scale0 by easy. now destruct (Req y 0).
Qed.
Lemma sc_div k j a b : 0 < k -> 0 < j -> xdiv (sc k a) (sc j b) = sc (k / j) (xdiv a b).
Proof.
  intros Hk Hj. destruct a as [x|s|], b as [y|t|]; cbn [sc xdiv]; try easy.
  - rewrite Req_scale0, Req_scale0, Rltb_scale0 by easy. destruct (Req y 0) eqn:E.
    + now destruct (Req x 0).
    + apply Req_false in E. cbn [sc]. f_equal. field. split; [easy|lra].
  - f_equal. ring.
  - now rewrite Rltb_scale0.
Qed.
Lemma sc_abs k a : 0 < k -> xabs (sc k a) = sc k (xabs a).
Proof. intros. destruct a; cbn [sc xabs]; try easy. f_equal. rewrite Rabs_mult, (Rabs_pos_eq k); [easy|lra]. Qed.
Lemma sc_sqrt k a : 0 < k -> xsqrt (sc (k * k) a) = sc k (xsqrt a).
Proof.
  intros. destruct a as [x|s|]; cbn [sc xsqrt]; try easy.
  - rewrite Rltb_scale0 by nra. unfold Rltb. destruct (Rlt_dec x 0); [easy|]. cbn [sc]. f_equal.
    rewrite sqrt_mult; [|nra|lra]. rewrite sqrt_square by lra. easy.
  - now destruct s.
Qed.
Lemma sc_ltb k a b : 0 < k -> xltb (sc k a) (sc k b) = xltb a b.
Proof. intros. destruct a as [x|s|], b as [y|t|]; cbn [sc xltb]; try easy. now apply Rltb_scale. Qed.
Lemma sc_eqb k a b : 0 < k -> xeqb (sc k a) (sc k b) = xeqb a b.
Proof. intros. destruct a as [x|s|], b as [y|t|]; cbn [sc xeqb]; try easy. now apply Req_scale. Qed.
Lemma sc_leb k a b : 0 < k -> xleb (sc k a) (sc k b) = xleb a b.
Proof.
  intros. unfold xleb. destruct a as [x|s|], b as [y|t|]; cbn [sc xltb xeqb]; try easy. now apply Rleb_scale.
Qed.
Lemma sc_1 a : sc 1 a = a.
Proof. destruct a; cbn [sc]; try easy. f_equal. ring. Qed.
Lemma scaled_1 l : scaled 1 l = l.
Proof. unfold scaled. erewrite map_ext; [apply map_id|]. apply sc_1. Qed.
Lemma sc_sc k j a : sc k (sc j a) = sc (k * j) a.
Proof. destruct a; cbn [sc]; try easy. f_equal. ring. Qed.

(** ** Related runs *)

Definition dim := (Z * Z)%type.
Definition dadd (a b : dim) : dim := ((fst a + fst b)%Z, (snd a + snd b)%Z).
Definition dsub (a b : dim) : dim := ((fst a - fst b)%Z, (snd a - snd b)%Z).
Definition dhalf (a : dim) : dim := ((fst a / 2)%Z, (snd a / 2)%Z).
Definition deven (a : dim) : bool := Z.even (fst a) && Z.even (snd a).
(** no unit, price, volume, price times volume *)
Definition d0 : dim := (0, 0)%Z.
Definition dp : dim := (1, 0)%Z.
Definition dv : dim := (0, 1)%Z.
Definition dpv : dim := (1, 1)%Z.

Definition prel {A A' B B'} (R : A -> A' -> Prop) (S : B -> B' -> Prop) (x : A * B) (y : A' * B') : Prop :=
  R (fst x) (fst y) /\ S (snd x) (snd y).
Definition rrel {A A'} (R : A -> A' -> Prop) (x : result A) (y : result A') : Prop :=
  match x, y with Ok a, Ok b => R a b | Panic, Panic => True | _, _ => False end.
Definition orel {A A'} (R : A -> A' -> Prop) (x : option A) (y : option A') : Prop :=
  match x, y with Some a, Some b => R a b | None, None => True | _, _ => False end.

Section Rel.
  Context {A A' B B' : Type}.
  Implicit Types (R : A -> A' -> Prop) (S : B -> B' -> Prop).

  Lemma r_bind R S (m : result A) (m' : result A') (k : A -> result B) (k' : A' -> result B') :
    rrel R m m' -> (forall a a', R a a' -> rrel S (k a) (k' a')) -> rrel S (bind m k) (bind m' k').
  Proof. destruct m, m'; cbn; auto; easy. Qed.
  Lemma r_ok R a a' : R a a' -> rrel R (Ok a) (Ok a').
  Proof. easy. Qed.
  Lemma r_panic R : rrel R Panic Panic.
  Proof. easy. Qed.
  Lemma f2_length R l l' : Forall2 R l l' -> length l' = length l.
  Proof. induction 1; cbn; congruence. Qed.
  Lemma f2_app R l l' m m' : Forall2 R m m' -> Forall2 R l l' -> Forall2 R (l ++ m) (l' ++ m').
  Proof. intros. now apply Forall2_app. Qed.
  Lemma f2_map R S f f' l l' : Forall2 R l l' -> (forall a a', R a a' -> S (f a) (f' a')) ->
    Forall2 S (map f l) (map f' l').
  Proof. induction 1; cbn; auto. Qed.
  Lemma f2_combine R S l l' m m' : Forall2 R l l' -> Forall2 S m m' ->
    Forall2 (prel R S) (combine l m) (combine l' m').
  Proof.
    intros H. revert m m'. induction H; intros m m' [|]; cbn; auto. constructor; auto. now split.
  Qed.
  Lemma f2_repeat R x x' k : R x x' -> Forall2 R (repeat x k) (repeat x' k).
  Proof. intros. induction k; cbn; auto. Qed.
  Lemma f2_skipn R k l l' : Forall2 R l l' -> Forall2 R (skipn k l) (skipn k l').
  Proof. intros H. revert k. induction H; intros [|k]; cbn; auto. Qed.
  Lemma f2_firstn R k l l' : Forall2 R l l' -> Forall2 R (firstn k l) (firstn k l').
  Proof. intros H. revert k. induction H; intros [|k]; cbn; auto. Qed.
  Lemma f2_rev R l l' : Forall2 R l l' -> Forall2 R (rev l) (rev l').
  Proof. induction 1; cbn; auto. apply Forall2_app; auto. Qed.
  Lemma f2_fold R S (f : B -> A -> B) (f' : B' -> A' -> B') l l' b b' : Forall2 R l l' -> S b b' ->
    (forall b b' a a', S b b' -> R a a' -> S (f b a) (f' b' a')) ->
    S (fold_left f l b) (fold_left f' l' b').
  Proof. intros H. revert b b'. induction H; cbn; auto. Qed.
  Lemma f2_nth R l l' i d d' : Forall2 R l l' -> R d d' -> R (nth i l d) (nth i l' d').
  Proof. intros H D. revert i. induction H; intros [|i]; cbn; auto. Qed.
  Lemma f2_upd R l l' i x x' : Forall2 R l l' -> R x x' -> Forall2 R (upd l i x) (upd l' i x').
  Proof. intros H D. revert i. induction H; intros [|i]; cbn; auto. Qed.
  Lemma r_idx R l l' i : Forall2 R l l' -> rrel R (idx l i) (idx l' i).
  Proof. intros H. revert i. unfold idx. induction H; intros [|i]; cbn; auto. Qed.
  Lemma r_slice_to R l l' k : Forall2 R l l' -> rrel (Forall2 R) (slice_to l k) (slice_to l' k).
  Proof.
    intros H. unfold slice_to. rewrite (f2_length _ _ _ H). destruct (k <=? length l); [|easy]. now apply f2_firstn.
  Qed.
  Lemma r_slice_from R l l' k : Forall2 R l l' -> rrel (Forall2 R) (slice_from l k) (slice_from l' k).
  Proof.
    intros H. unfold slice_from. rewrite (f2_length _ _ _ H). destruct (k <=? length l); [|easy]. now apply f2_skipn.
  Qed.
  Lemma r_slice R l l' a b : Forall2 R l l' -> rrel (Forall2 R) (slice l a b) (slice l' a b).
  Proof.
    intros H. unfold slice. rewrite (f2_length _ _ _ H). destruct (_ && _); [|easy]. now apply f2_firstn, f2_skipn.
  Qed.
  Lemma f2_same (S : B -> B' -> Prop) (f : nat -> B) (f' : nat -> B') l : (forall i, In i l -> S (f i) (f' i)) ->
    Forall2 S (map f l) (map f' l).
  Proof. induction l; cbn; auto. Qed.
  Lemma f2_windows R w l l' : Forall2 R l l' -> Forall2 (Forall2 R) (windows w l) (windows w l').
  Proof.
    intros H. unfold windows. rewrite (f2_length _ _ _ H). induction (seq 0 (length l + 1 - w)); cbn; auto.
    constructor; auto. now apply f2_firstn, f2_skipn.
  Qed.
  Lemma r_rwindows R w l l' : Forall2 R l l' -> rrel (Forall2 (Forall2 R)) (rwindows w l) (rwindows w l').
  Proof. intros H. unfold rwindows. destruct (w =? 0)%nat; [easy|]. now apply f2_windows. Qed.
  Lemma r_if R (b b' : bool) (x y : result A) (x' y' : result A') : b' = b ->
    rrel R x x' -> rrel R y y' -> rrel R (if b then x else y) (if b' then x' else y').
  Proof. intros ->. now destruct b. Qed.
  Lemma p_if R (b b' : bool) x y x' y' : b' = b -> R x x' -> R y y' -> R (if b then x else y) (if b' then x' else y').
  Proof. intros ->. now destruct b. Qed.
  Lemma r_refl (x : result A) : rrel eq x x.
  Proof. now destruct x. Qed.
  Lemma o_unwrap R o o' x x' : orel R o o' -> R x x' -> R (unwrap_or o x) (unwrap_or o' x').
  Proof. now destruct o, o'. Qed.
End Rel.

Section Rel2.
  Context {A A' B B' T T' : Type}.
  Lemma f2_scan (R : A -> A' -> Prop) (S : B -> B' -> Prop) (U : T -> T' -> Prop) (f : T -> A -> T * B) (f' : T' -> A' -> T' * B') s s' l l' :
    Forall2 R l l' -> U s s' -> (forall s s' a a', U s s' -> R a a' -> prel U S (f s a) (f' s' a')) ->
    Forall2 S (scan f s l) (scan f' s' l').
  Proof.
    intros H U0 F. revert s s' U0. induction H; intros s s' U0; cbn; auto.
    specialize (F s s' _ _ U0 H) as F1. destruct (f s x) as [t b], (f' s' y) as [t' b']. destruct F1 as [F1 F2].
    constructor; auto.
  Qed.
  Lemma r_scan (R : A -> A' -> Prop) (S : B -> B' -> Prop) (U : T -> T' -> Prop) (f : T -> A -> result (T * B)) (f' : T' -> A' -> result (T' * B')) s s' l l' :
    Forall2 R l l' -> U s s' -> (forall s s' a a', U s s' -> R a a' -> rrel (prel U S) (f s a) (f' s' a')) ->
    rrel (Forall2 S) (rscan f s l) (rscan f' s' l').
  Proof.
    intros H U0 F. revert s s' U0. induction H; intros s s' U0; cbn [rscan]; [now constructor|].
    specialize (F s s' _ _ U0 H) as F1. destruct (f s x) as [[t b]|], (f' s' y) as [[t' b']|]; try easy. destruct F1 as [F1 F2].
    cbn [bind]. specialize (IHForall2 t t' F1). destruct (rscan f t l), (rscan f' t' l'); try easy. cbn. now constructor.
  Qed.
  Lemma r_rmap (R : A -> A' -> Prop) (S : B -> B' -> Prop) (f : A -> result B) (f' : A' -> result B') l l' :
    Forall2 R l l' -> (forall a a', R a a' -> rrel S (f a) (f' a')) -> rrel (Forall2 S) (rmap f l) (rmap f' l').
  Proof.
    intros H F. induction H; cbn [rmap]; [now constructor|].
    specialize (F x y H) as F1. destruct (f x), (f' y); try easy. cbn [bind].
    destruct (rmap f l), (rmap f' l'); try easy. cbn. now constructor.
  Qed.
  Lemma f2_flat_map (R : A -> A' -> Prop) (S : B -> B' -> Prop) (f : A -> list B) (f' : A' -> list B') l l' :
    Forall2 R l l' -> (forall a a', R a a' -> Forall2 S (f a) (f' a')) -> Forall2 S (flat_map f l) (flat_map f' l').
  Proof. induction 1; cbn; auto. intros. apply Forall2_app; auto. Qed.
End Rel2.

Lemma f2_refl {A} (l : list A) : Forall2 eq l l.
Proof. induction l; auto. Qed.
Lemma f2_enumerate {A A'} (R : A -> A' -> Prop) l l' : Forall2 R l l' -> Forall2 (prel eq R) (enumerate l) (enumerate l').
Proof.
  intros H. unfold enumerate. rewrite (f2_length _ _ _ H). apply f2_combine; [apply f2_refl|easy].
Qed.

Section Sim.
  Variables c v : R.
  Hypotheses (Hc : 0 < c) (Hv : 0 < v).

  Definition unit (d : dim) : R := powerRZ c (fst d) * powerRZ v (snd d).
  Definition sim (d : dim) (x y : xr) : Prop := y = sc (unit d) x.

  Lemma unit_pos d : 0 < unit d.
  Proof. apply Rmult_lt_0_compat; now apply powerRZ_lt. Qed.
  Lemma unit_add a b : unit (dadd a b) = unit a * unit b.
  Proof. unfold unit, dadd. cbn [fst snd]. rewrite !powerRZ_add by lra. ring. Qed.
  Lemma unit_sub a b : unit (dsub a b) = unit a / unit b.
  Proof.
    pose proof (unit_pos b). rewrite <- (Rmult_1_r (unit (dsub a b))). replace 1 with (unit b / unit b) by (field; lra).
    unfold Rdiv. rewrite <- Rmult_assoc, <- unit_add. f_equal. f_equal. unfold dadd, dsub. destruct a, b. cbn [fst snd]. f_equal; lia.
  Qed.
  Lemma unit_half a : deven a = true -> unit a = unit (dhalf a) * unit (dhalf a).
  Proof.
    intros H. apply andb_prop in H. destruct H as [H1 H2]. rewrite <- unit_add. f_equal. unfold dadd, dhalf. destruct a as [p q]. cbn [fst snd] in *.
    apply Zeven_bool_iff in H1, H2. apply Zeven_ex in H1, H2. destruct H1 as [m ->], H2 as [n ->].
    rewrite !(Z.mul_comm 2), !Z.div_mul by lia. f_equal; lia.
  Qed.
  Lemma unit_0 : unit d0 = 1.
  Proof. unfold unit, d0. cbn [fst snd]. rewrite !powerRZ_O. ring. Qed.
  Lemma unit_p : unit dp = c.
  Proof. unfold unit, dp. cbn [fst snd]. rewrite ?powerRZ_O, ?powerRZ_1. ring. Qed.
  Lemma unit_v : unit dv = v.
  Proof. unfold unit, dv. cbn [fst snd]. rewrite ?powerRZ_O, ?powerRZ_1. ring. Qed.
  Lemma unit_pv : unit dpv = c * v.
  Proof. unfold unit, dpv. cbn [fst snd]. rewrite ?powerRZ_O, ?powerRZ_1. ring. Qed.

  (** ** Operations on related values *)

  Lemma s_add d a a' b b' : sim d a a' -> sim d b b' -> sim d (fadd a b) (fadd a' b').
  Proof. unfold sim. intros -> ->. apply sc_add. Qed.
  Lemma s_sub d a a' b b' : sim d a a' -> sim d b b' -> sim d (fsub a b) (fsub a' b').
  Proof. unfold sim. intros -> ->. apply sc_sub. Qed.
  Lemma s_mul d1 d2 d a a' b b' : sim d1 a a' -> sim d2 b b' -> dadd d1 d2 = d -> sim d (fmul a b) (fmul a' b').
  Proof. unfold sim. intros -> -> <-. rewrite unit_add. apply sc_mul; apply unit_pos. Qed.
  Lemma s_div d1 d2 d a a' b b' : sim d1 a a' -> sim d2 b b' -> dsub d1 d2 = d -> sim d (fdiv a b) (fdiv a' b').
  Proof. unfold sim. intros -> -> <-. rewrite unit_sub. apply sc_div; apply unit_pos. Qed.
  Lemma s_mul_l d a b b' : sim d b b' -> sim d (fmul a b) (fmul a b').
  Proof.
    intros H. eapply (s_mul d0 d); [|exact H|now destruct d].
    unfold sim. now rewrite unit_0, sc_1.
  Qed.
  Lemma s_mul_r d a a' b : sim d a a' -> sim d (fmul a b) (fmul a' b).
  Proof.
    intros H. eapply (s_mul d d0); [exact H| |unfold dadd; destruct d; cbn; f_equal; lia].
    unfold sim. now rewrite unit_0, sc_1.
  Qed.
  Lemma s_div_r d a a' b : sim d a a' -> sim d (fdiv a b) (fdiv a' b).
  Proof.
    intros H. eapply (s_div d d0); [exact H| |unfold dsub; destruct d; cbn; f_equal; lia].
    unfold sim. now rewrite unit_0, sc_1.
  Qed.
  Lemma s_ratio d a a' b b' : sim d a a' -> sim d b b' -> sim d0 (fdiv a b) (fdiv a' b').
  Proof. intros H H'. eapply (s_div d d); [exact H|exact H'|]. unfold dsub, d0. f_equal; lia. Qed.
  Lemma s_conv d1 d2 a a' : sim d1 a a' -> d1 = d2 -> sim d2 a a'.
  Proof. now intros ? <-. Qed.
  Lemma s_neg d a a' : sim d a a' -> sim d (fneg a) (fneg a').
  Proof. unfold sim. intros ->. apply sc_neg. Qed.
  Lemma s_abs d a a' : sim d a a' -> sim d (fabs a) (fabs a').
  Proof. unfold sim. intros ->. apply sc_abs, unit_pos. Qed.
  Lemma s_sqrt d1 d a a' : sim d1 a a' -> deven d1 = true -> dhalf d1 = d -> sim d (fsqrt a) (fsqrt a').
  Proof. unfold sim. intros -> E <-. rewrite unit_half by easy. apply sc_sqrt, unit_pos. Qed.
  Lemma s_ltb d a a' b b' : sim d a a' -> sim d b b' -> fltb a' b' = fltb a b.
  Proof. unfold sim. intros -> ->. apply sc_ltb, unit_pos. Qed.
  Lemma s_leb d a a' b b' : sim d a a' -> sim d b b' -> fleb a' b' = fleb a b.
  Proof. unfold sim. intros -> ->. apply sc_leb, unit_pos. Qed.
  Lemma s_eqb d a a' b b' : sim d a a' -> sim d b b' -> feqb a' b' = feqb a b.
  Proof. unfold sim. intros -> ->. apply sc_eqb, unit_pos. Qed.
  Lemma s_isnan d a a' : sim d a a' -> fisnan a' = fisnan a.
  Proof. unfold sim. intros ->. now destruct a. Qed.
  Lemma s_signbit d a a' : sim d a a' -> fsignbit a' = fsignbit a.
  Proof. unfold sim. intros ->. destruct a; cbn; try easy. apply Rltb_scale0, unit_pos. Qed.
  Lemma s_nan d : sim d fnan fnan.
  Proof. easy. Qed.
  Lemma s_inf d : sim d finf finf.
  Proof. easy. Qed.
  Lemma s_zero d : sim d (flit 0 1) (flit 0 1).
  Proof. unfold sim. cbn. f_equal. unfold Rdiv. rewrite !Rmult_0_l. ring. Qed.
  Lemma s_sum0 d : sim d fsum0 fsum0.
  Proof. unfold sim. cbn. f_equal. ring. Qed.
  Lemma s_same a : sim d0 a a.
  Proof. unfold sim. now rewrite unit_0, sc_1. Qed.
  Lemma s_eq a a' : sim d0 a a' -> a' = a.
  Proof. unfold sim. now rewrite unit_0, sc_1. Qed.

  Lemma s_fun d (f : xr -> xr) a a' : sim d0 a a' -> d = d0 -> sim d (f a) (f a').
  Proof. intros H ->. rewrite (s_eq _ _ H). apply s_same. Qed.

  Lemma s_max d a a' b b' : sim d a a' -> sim d b b' -> sim d (fmax a b) (fmax a' b').
  Proof.
    intros Ha Hb. unfold fmax. rewrite (s_isnan _ _ _ Ha), (s_isnan _ _ _ Hb), (s_ltb _ _ _ _ _ Ha Hb).
    destruct (fisnan a), (fisnan b), (fltb a b); easy.
  Qed.
  Lemma s_min d a a' b b' : sim d a a' -> sim d b b' -> sim d (fmin a b) (fmin a' b').
  Proof.
    intros Ha Hb. unfold fmin. rewrite (s_isnan _ _ _ Ha), (s_isnan _ _ _ Hb), (s_ltb _ _ _ _ _ Hb Ha).
    destruct (fisnan a), (fisnan b), (fltb b a); easy.
  Qed.
  Lemma s_signum d a a' : sim d a a' -> fsignum a' = fsignum a.
  Proof. intros H. unfold fsignum. now rewrite (s_isnan _ _ _ H), (s_signbit _ _ _ H). Qed.
  Lemma s_at d l l' i : Forall2 (sim d) l l' -> sim d (at_ l i) (at_ l' i).
  Proof. intros. unfold at_. apply f2_nth; [easy|apply s_nan]. Qed.
  Lemma s_last d l l' : Forall2 (sim d) l l' -> sim d (last_ l) (last_ l').
  Proof. intros H. unfold last_. rewrite (f2_length _ _ _ H). apply f2_nth; [easy|apply s_nan]. Qed.
  Lemma s_fsum d l l' : Forall2 (sim d) l l' -> sim d (fsum l) (fsum l').
  Proof. intros H. unfold fsum. eapply f2_fold; [exact H|apply s_sum0|]. intros. now apply s_add. Qed.

  (** ** Back to equations *)
  Lemma f2_scaled d l l' : Forall2 (sim d) l l' <-> l' = scaled (unit d) l.
  Proof.
    split.
    - induction 1 as [|x y l l' H _ IH]; cbn; [easy|]. now rewrite H, IH.
    - intros ->. induction l; cbn; constructor; easy.
  Qed.
  Lemma f2_same0 l l' : Forall2 (sim d0) l l' -> l' = l.
  Proof. intros H. apply f2_scaled in H. subst. rewrite unit_0. unfold scaled. erewrite map_ext; [apply map_id|]. apply sc_1. Qed.
  Lemma f2_prices l : Forall2 (sim dp) l (scaled c l).
  Proof. apply f2_scaled. now rewrite unit_p. Qed.
  Lemma f2_volumes l : Forall2 (sim dv) l (scaled v l).
  Proof. apply f2_scaled. now rewrite unit_v. Qed.
  Lemma r_scaled d r r' : rrel (Forall2 (sim d)) r r' -> r' = res_map (scaled (unit d)) r.
  Proof. destruct r, r'; cbn; try easy. intros H. f_equal. now apply f2_scaled. Qed.
  Lemma r_same0 r r' : rrel (Forall2 (sim d0)) r r' -> r' = r.
  Proof. destruct r, r'; cbn; try easy. intros H. f_equal. now apply f2_same0. Qed.
  Lemma r_list0 r : rrel (Forall2 (sim d0)) r r.
  Proof. destruct r; cbn; [|easy]. apply f2_scaled. now rewrite unit_0, scaled_1. Qed.
  Lemma r_list {A} (R : A -> A -> Prop) (f : A -> A) r r' : (forall a a', R a a' -> a' = f a) ->
    rrel (Forall2 R) r r' -> r' = res_map (map f) r.
  Proof.
    intros E. destruct r as [l|], r' as [l'|]; cbn; try easy. intros H. f_equal. induction H; cbn; auto. f_equal; auto.
  Qed.
End Sim.
