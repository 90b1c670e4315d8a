(** * Mono: averages keep the order of series, in binary64. *)

From Coq Require Import Reals Lra Lia ZArith NArith.
From Flocq Require Import Core IEEE754.BinarySingleNaN.
From Verif Require Import Spec BaseFacts Tac SmoothShape XReal RSpec XRFacts Bars DistReal B64 F64 Smooth SmoothVals Pascal Volatility Distribution F64Facts F64Range F64Err F64Rec F64Win.
Local Unset Implicit Arguments.
Local Open Scope R_scope.

(** [y] is not less than [x]: [x <= y], or one of them is NaN. *)
Definition le64 (x y : f64) : Prop := Bltb y x = false.
(** Bar by bar. *)
Notation below := (Forall2 le64).

Lemma le64_refl x : le64 x x.
Proof. unfold le64. rewrite ltb_xval. destruct (xval x) as [r|[]|]; try easy. cbn. apply Rltb_f. lra. Qed.
Lemma ltb_minf (x : f64) : Bltb x (B754_infinity true) = false.
Proof. rewrite ltb_xval. now destruct (xval x) as [|[]|]. Qed.
Lemma ltb_pinf (x : f64) : Bltb (B754_infinity false) x = false.
Proof. rewrite ltb_xval. now destruct (xval x) as [|[]|]. Qed.
Lemma inf_plus s (k : f64) : fin k -> Bplus mode_NE (B754_infinity s) k = B754_infinity s.
Proof. now destruct k. Qed.
Lemma plus_inf s (k : f64) : fin k -> Bplus mode_NE k (B754_infinity s) = B754_infinity s.
Proof. now destruct k. Qed.

Lemma inf_fin_less (x : f64) s : fin x -> Bltb (B754_infinity s) x = s.
Proof. intros F. rewrite ltb_xval, (xval_fin x) by easy. now destruct s. Qed.
Lemma fin_inf_less (x : f64) s : fin x -> Bltb x (B754_infinity s) = negb s.
Proof. intros F. rewrite ltb_xval, (xval_fin x) by easy. now destruct s. Qed.
Ltac infs :=
  repeat match goal with
  | H : Bltb (B754_infinity ?s) ?x = false |- _ => rewrite (inf_fin_less x s) in H by easy
  | H : Bltb ?x (B754_infinity ?s) = false |- _ => rewrite (fin_inf_less x s) in H by easy
  end;
  repeat match goal with s : bool |- _ => destruct s; try discriminate end;
  rewrite ?inf_plus, ?plus_inf by easy; try reflexivity; first [apply ltb_pinf|apply ltb_minf|apply ltb_nan_l|apply ltb_nan_r].

Lemma le_add x y x' y' : le64 x y -> le64 x' y' -> le64 (Bplus mode_NE x x') (Bplus mode_NE y y').
Proof.
  unfold le64. intros C C'.
  fsplit x; fsplit x'; try (rewrite ?nan_plus_l, ?nan_plus_r; apply ltb_nan_r); fsplit y; fsplit y'; try (rewrite ?nan_plus_l, ?nan_plus_r; apply ltb_nan_l); try infs.
  apply (ltb_of _ _ _ _ (xval_add y y' ltac:(easy) ltac:(easy)) (xval_add x x' ltac:(easy) ltac:(easy))). rewrite ltb_xval, !xval_fin in C, C' by easy. cbn in C, C'. apply Rltb_f in C, C'. lra.
Qed.

Lemma pos_sign (k : f64) : fin k -> nn k -> (exists s, k = B754_zero s) \/ exists p e H, k = B754_finite false p e H.
Proof.
  intros F N. destruct k as [s|s| |s p e H]; try easy; [left; now exists s|right]. destruct s; [|now exists p, e, H]. exfalso. apply nn_fin in N; [|easy]. assert (B2R (B754_finite true p e H) < 0) by now apply F2R_lt_0. lra.
Qed.
Lemma le_mul (x y k : f64) : le64 x y -> nn k -> le64 (Bmult mode_NE x k) (Bmult mode_NE y k).
Proof.
  unfold le64. intros C N. fsplit k; [|destruct s; [easy|]|rewrite !nan_mult_r; apply ltb_nan_l].
  - fsplit x; fsplit y; try (rewrite ?nan_mult_l; (apply ltb_nan_l || apply ltb_nan_r)).
    + apply (ltb_of _ _ _ _ (xval_mul y k ltac:(easy) ltac:(easy)) (xval_mul x k ltac:(easy) ltac:(easy))). rewrite ltb_xval, !xval_fin in C by easy. cbn in C. apply Rltb_f in C. apply nn_fin in N; [|easy]. nra.
    + rewrite (inf_fin_less x s) in C by easy. subst s. destruct (pos_sign k F N) as [[t ->]|(p & e & H & ->)]; [apply ltb_nan_l|apply ltb_pinf].
    + rewrite (fin_inf_less y s) in C by easy. destruct s; [|discriminate]. destruct (pos_sign k F N) as [[t ->]|(p & e & H & ->)]; [apply ltb_nan_r|apply ltb_minf].
    + destruct (pos_sign k F N) as [[t ->]|(p & e & H & ->)]; [apply ltb_nan_r|]. now destruct s, s0.
  - assert (G : forall a : f64, (exists s, a = B754_zero s) \/ a = B754_nan \/ exists s, Bmult mode_NE a (B754_infinity false) = B754_infinity s /\ (s = true <-> Bltb a (B754_zero false) = true) /\ (s = false <-> Bltb (B754_zero false) a = true)).
    { intros [t|t| |t p e H]; [left; now exists t| |now right; left|]; right; right; exists t; destruct t; repeat split; easy. }
    destruct (G x) as [[t ->]|[->|(t & E1 & S1 & S2)]]; [apply ltb_nan_r|rewrite nan_mult_l; apply ltb_nan_r|].
    destruct (G y) as [[t' ->]|[->|(t' & E2 & S1' & S2')]]; [apply ltb_nan_l|rewrite nan_mult_l; apply ltb_nan_l|]. rewrite E1, E2.
    destruct t, t'; try easy. exfalso. assert (A : Bltb y (B754_zero false) = true) by now apply S1'. assert (B : Bltb (B754_zero false) x = true) by now apply S2.
    rewrite ltb_xval in A, B, C. destruct (xval x) as [a|[]|], (xval y) as [b|[]|]; cbn in A, B, C; try easy. apply Rltb_t in A, B. apply Rltb_f in C. lra.
Qed.
Lemma le_div (x y k : f64) : le64 x y -> Bltb (B754_zero false) k = true -> le64 (Bdiv mode_NE x k) (Bdiv mode_NE y k).
Proof.
  unfold le64. intros C P. fsplit k; [|destruct s; [easy|]|easy].
  - assert (PK : 0 < B2R k) by (rewrite ltb_xval, (xval_fin k) in P by easy; cbn in P; now apply Rltb_t in P).
    assert (exists p e H, k = B754_finite false p e H) as (p & e & H & EK).
    { destruct (pos_sign k F) as [[t ->]|Q]; [apply nn_fin; [easy|lra]|cbn in PK; lra|exact Q]. }
    fsplit x; fsplit y; try (rewrite ?nan_div_l; (apply ltb_nan_l || apply ltb_nan_r)).
    + apply (ltb_of _ _ _ _ (xval_div y k ltac:(easy) ltac:(easy) ltac:(lra)) (xval_div x k ltac:(easy) ltac:(easy) ltac:(lra))). rewrite ltb_xval, !xval_fin in C by easy. cbn in C. apply Rltb_f in C.
      apply Rmult_le_compat_r; [left; now apply Rinv_0_lt_compat|easy].
    + rewrite (inf_fin_less x s) in C by easy. subst s. rewrite EK. apply ltb_pinf.
    + rewrite (fin_inf_less y s) in C by easy. destruct s; [|discriminate]. rewrite EK. apply ltb_minf.
    + rewrite EK. now destruct s, s0.
  - destruct x as [t|t| |t p e H], y as [t'|t'| |t' p' e' H']; try reflexivity; try (now destruct t, t').
Qed.

(** ** Lists *)
Lemma below_length l l' : below l l' -> length l = length l'.
Proof. induction 1; cbn; congruence. Qed.
Lemma below_firstn k l l' : below l l' -> below (firstn k l) (firstn k l').
Proof. intros H. revert k. induction H; intros [|k]; cbn; constructor; auto. Qed.
Lemma below_skipn k l l' : below l l' -> below (skipn k l) (skipn k l').
Proof. intros H. revert k. induction H; intros [|k]; cbn; auto; constructor; auto. Qed.
Lemma below_pad k : below (pad k (B754_nan : f64)) (pad k (B754_nan : f64)).
Proof. unfold pad. induction k; cbn; constructor; auto. apply le64_refl. Qed.
Lemma below_refl l : below l l.
Proof. induction l; constructor; auto. apply le64_refl. Qed.
Lemma below_app a a' b b' : below a a' -> below b b' -> below (a ++ b) (a' ++ b').
Proof. apply Forall2_app. Qed.
Lemma below_fold m l l' : below l l' -> forall a b, le64 a b -> le64 (fold_left (@fadd f64 (B64 m)) l a) (fold_left (@fadd f64 (B64 m)) l' b).
Proof. induction 1; intros a b Hab; cbn [fold_left]; [easy|]. apply IHForall2. now apply le_add. Qed.
Lemma below_fsum m l l' : below l l' -> le64 (@fsum f64 (B64 m) l) (@fsum f64 (B64 m) l').
Proof. intros H. apply below_fold; [easy|]. apply le64_refl. Qed.
Lemma below_windows w l l' : below l l' -> Forall2 below (windows w l) (windows w l').
Proof.
  intros H. unfold windows. rewrite (below_length _ _ H). apply Forall2_maps. intros i _. now apply below_firstn, below_skipn.
Qed.
Lemma below_map {A} (f : A -> f64) (g : A -> f64) l : (forall a, In a l -> le64 (f a) (g a)) -> below (map f l) (map g l).
Proof. apply Forall2_maps. Qed.
Lemma below_map2 (f : list f64 -> f64) ws ws' : (forall a b, below a b -> le64 (f a) (f b)) -> Forall2 below ws ws' -> below (map f ws) (map f ws').
Proof. intros H. induction 1; cbn; constructor; auto. Qed.
Lemma below_scan (g : f64 -> f64 -> f64) : (forall a b x y, le64 a b -> le64 x y -> le64 (g a x) (g b y)) ->
  forall l l', below l l' -> forall a b, le64 a b -> below (scan (fun s x => (g s x, g s x)) a l) (scan (fun s x => (g s x, g s x)) b l').
Proof. intros Hg l l'. induction 1; intros a b Hab; cbn [scan]; constructor; auto. Qed.

(** A pass over the sliding windows. *)
Lemma below_windowed m (f : list f64 -> f64) data data' w o o' : (forall a b, below a b -> le64 (f a) (f b)) -> below data data' ->
  (let* k := usub w 1 in let* ws := rwindows w data in Ok (pad k (@fnan f64 (B64 m)) ++ map f ws)) = Ok o ->
  (let* k := usub w 1 in let* ws := rwindows w data' in Ok (pad k (@fnan f64 (B64 m)) ++ map f ws)) = Ok o' -> below o o'.
Proof.
  intros Hf H. unfold usub, rwindows. destruct (1 <=? w)%nat; cbn [bind]; [|easy]. destruct (w =? 0)%nat; cbn [bind]; [easy|]. intros [= <-] [= <-].
  apply below_app; [apply below_pad|]. apply below_map2; [easy|]. now apply below_windows.
Qed.

Lemma pos_add (x y : f64) : Bltb (B754_zero false) x = true -> Bltb (B754_zero false) y = true -> Bltb (B754_zero false) (Bplus mode_NE x y) = true.
Proof.
  intros Px Py. fsplit x; try easy; fsplit y; try easy.
  - rewrite ltb_xval, (xval_fin x) in Px by easy. rewrite ltb_xval, (xval_fin y) in Py by easy. cbn in Px, Py. apply Rltb_t in Px, Py. rewrite ltb_xval, xval_add by easy.
    pose proof (fl_le (B2R x) (B2R x + B2R y) ltac:(lra)) as L. rewrite (fl_B2R x) in L by easy. destruct (fl (B2R x + B2R y)) as [v|[]|]; try easy. cbn in L |- *. apply Rleb_t in L. apply Rltb_t. lra.
  - destruct s; [easy|]. now rewrite plus_inf.
  - destruct s; [easy|]. now rewrite inf_plus.
  - now destruct s, s0.
Qed.
(** Half a positive integer is positive. *)
Lemma pos_half m s : (0 < s)%N -> Bltb (B754_zero false) (@fofN f64 (B64 m) s / flit 2 1)%F = true.
Proof.
  intros H. cbn [fdiv B64]. change (@flit f64 (B64 m) 2 1) with (b64_of_Z 2). change (fofN s) with (b64_of_Z (Z.of_N s)).
  assert (X2 : xval (b64_of_Z 2) = Fin 2) by now apply xval_of_Z. apply xval_fin_inv in X2 as [X2 V2].
  assert (L : xleb (Fin 1) (xval (b64_of_Z (Z.of_N s))) = true) by (rewrite xval_of_Z_gen, <- (fl_Z 1) by easy; apply fl_le, IZR_le; lia).
  assert (Hh : fl (1 / 2) = xval (Bdiv mode_NE (b64_of_Z 1) (b64_of_Z 2))).
  { assert (X1 : xval (b64_of_Z 1) = Fin 1) by now apply xval_of_Z. apply xval_fin_inv in X1 as [X1 V1]. rewrite xval_div by (try easy; lra). now rewrite V1, V2. }
  assert (Ph : Bltb (B754_zero false) (Bdiv mode_NE (b64_of_Z 1) (b64_of_Z 2)) = true) by now vm_compute.
  set (x := b64_of_Z (Z.of_N s)) in *. clearbody x. fsplit x.
  - rewrite (xval_fin x) in L by easy. cbn in L. apply Rleb_t in L. rewrite ltb_xval, xval_div by (try easy; lra). rewrite V2.
    rewrite ltb_xval in Ph. rewrite <- Hh in Ph. pose proof (fl_le (1 / 2) (B2R x / 2) ltac:(lra)) as Q.
    destruct (fl (1 / 2)) as [u|[]|], (fl (B2R x / 2)) as [v|[]|]; try easy; cbn in *. apply Rltb_t in Ph. apply Rleb_t in Q. apply Rltb_t. lra.
  - destruct s0; [easy|]. destruct (b64_of_Z 2) as [t|t| |[] p e HH]; try easy; exfalso; cbn in V2; try lra. assert (B2R (B754_finite true p e HH) < 0) by now apply F2R_lt_0. cbn in *. lra.
  - easy.
Qed.
Lemma ewma_rest_nn m w : (0 < w)%nat -> (Z.of_nat w < 2 ^ 53)%Z -> nn (@flit f64 (B64 m) 1 1 - flit 2 1 / fofnat (w + 1))%F.
Proof.
  intros H Hw. apply nn_sub. cbn [fdiv B64]. set (q := Bdiv _ _ _).
  assert (FQ : xval q = fl (2 / INR (w + 1))).
  { unfold q. assert (X2 : xval (b64_of_Z 2) = Fin 2) by now apply xval_of_Z. assert (XW : xval (b64_of_Z (Z.of_N (N.of_nat (w + 1)))) = Fin (INR (w + 1))) by (rewrite xval_of_Z by lia; now rewrite INR_IZR_INZ, nat_N_Z).
    apply xval_fin_inv in X2 as [X2 V2]. apply xval_fin_inv in XW as [XW VW]. change (flit 2 1) with (b64_of_Z 2). change (fofnat (w + 1)) with (b64_of_Z (Z.of_N (N.of_nat (w + 1)))). rewrite xval_div by (try easy; rewrite VW; apply not_0_INR; lia). now rewrite V2, VW. }
  apply (ltb_of _ _ 1 (2 / INR (w + 1))); [|exact FQ|].
  - change (flit 1 1) with (b64_of_Z 1). now rewrite xval_of_Z_gen.
  - assert (2 <= INR (w + 1)) by (change 2 with (INR 2); apply le_INR; lia). apply (Rmult_le_reg_r (INR (w + 1))); [lra|]. unfold Rdiv. rewrite Rmult_assoc, Rinv_l by lra. lra.
Qed.

(** ** The averages *)
Section Averages.
  Variable m : libm.
  Local Instance MB : FOps f64 := B64 m.
  Theorem sma_f64_monotone data data' w o o' : below data data' -> sma data w = Ok o -> sma data' w = Ok o' -> below o o'.
  Proof.
    intros H E E'. refine (below_windowed m (sma_win w) data data' w o o' _ H E E'). intros a b Hab. unfold sma_win.
    unfold sma, usub in E. destruct (Nat.leb_spec 1 w); [|easy]. apply le_div; [now apply below_fsum|apply (pos_nat m); lia].
  Qed.
  Lemma le_dot ws a b : Forall nn ws -> below a b -> le64 (dot ws a) (dot ws b).
  Proof.
    intros HW H. apply below_fsum. revert ws HW. induction H as [|x y a b Hxy H IH]; intros [|w ws] HW; cbn [combine map]; try constructor.
    - apply Forall_cons_iff in HW. now apply le_mul.
    - apply Forall_cons_iff in HW. now apply IH.
  Qed.
  Lemma wma_weights_nn w ws : (0 < w)%nat -> wma_weights w = Ok ws -> Forall nn ws.
  Proof.
    intros Hw. unfold wma_weights. cbv zeta. destruct (umul _ _) as [q|] eqn:Q; cbn [bind]; [|easy]. destruct (uadd _ _) as [s|] eqn:S; cbn [bind]; [|easy]. intros [= <-].
    apply Forall_forall. intros x Hx. apply in_map_iff in Hx as (k & <- & Hk). apply in_seq in Hk.
    apply nn_div; [apply pos_nn, (pos_nat m); lia|]. apply (pos_half m). unfold uadd in S. destruct (_ <? _)%N; [|easy]. injection S as <-. lia.
  Qed.
  Theorem wma_f64_monotone data data' w o o' : below data data' -> wma data w = Ok o -> wma data' w = Ok o' -> below o o'.
  Proof.
    intros H. unfold wma. destruct (wma_weights w) as [ws|] eqn:W; cbn [bind]; [|easy]. intros E E'.
    assert (Hw : (0 < w)%nat) by (unfold usub in E; destruct (Nat.leb_spec 1 w); [lia|easy]).
    refine (below_windowed m (dot ws) data data' w o o' _ H E E'). intros a b Hab. apply le_dot; [|easy]. now apply (wma_weights_nn w).
  Qed.
  Theorem pwma_f64_monotone data data' w o o' : below data data' -> pwma data w = Ok o -> pwma data' w = Ok o' -> below o o'.
  Proof.
    intros H. unfold pwma. destruct (pascal_row w) as [[row d]|] eqn:W; cbn [bind]; [|easy]. intros E E'.
    assert (Hw : (0 < w)%nat) by (unfold usub in E; destruct (Nat.leb_spec 1 w); [lia|easy]).
    refine (below_windowed m (dot _) data data' w o o' _ H E E'). intros a b Hab. apply le_dot; [|easy].
    assert (Hs : (w < 64)%nat) by (destruct (Nat.lt_ge_cases w 64) as [L|L]; [easy|rewrite pascal_row_big in W by easy; easy]).
    rewrite pascal_row_small in W by lia. injection W as <- <-.
    apply Forall_forall. intros x Hx. apply in_map_iff in Hx as (k & <- & Hk). apply nn_div.
    - apply (nn_lit1 m (Z.of_N k)). lia.
    - apply of_Z_pos. lia.
  Qed.
  Theorem fwma_f64_monotone data data' w o o' : below data data' -> fwma data w = Ok o -> fwma data' w = Ok o' -> below o o'.
  Proof.
    intros H. unfold fwma. destruct (usub w 2) as [n|] eqn:W; cbn [bind]; [|easy]. intros E E'.
    refine (below_windowed m (dot _) data data' w o o' _ H E E'). intros a b Hab. apply le_dot; [|easy].
    assert (P1 : Bltb (B754_zero false) (@flit f64 (B64 m) 1 1) = true) by (apply of_Z_pos; lia).
    assert (P : Forall (fun x => Bltb (B754_zero false) x = true) (fib_seq n)).
    { unfold fib_seq. repeat (constructor; [easy|]). 
      assert (G : forall n a x y, Bltb (B754_zero false) x = true -> Bltb (B754_zero false) y = true -> Forall (fun x => Bltb (B754_zero false) x = true) (scan (fun '(a, b) (_ : nat) => ((b, (a + b)%F), (a + b)%F)) (x, y) (seq a n))).
      { clear. induction n as [|n IH]; intros a x y Px Py; cbn [seq scan]; constructor; [now apply pos_add|]. apply IH; [easy|now apply pos_add]. }
      now apply G. }
    unfold fib_weights. cbv zeta. set (den := fold_left _ _ _).
    assert (Pd : Bltb (B754_zero false) den = true).
    { unfold den. assert (P2 : Bltb (B754_zero false) (@flit f64 (B64 m) 2 1) = true) by (apply of_Z_pos; lia).
      assert (Q : Forall (fun x => Bltb (B754_zero false) x = true) (skipn 2 (fib_seq n))) by (apply Forall_forall; intros x Hx; apply (proj1 (Forall_forall _ _) P); now apply skipn_in in Hx).
      assert (G : forall l, Forall (fun x => Bltb (B754_zero false) x = true) l -> forall a, Bltb (B754_zero false) a = true -> Bltb (B754_zero false) (fold_left (fun d x => (d + x)%F) l a) = true).
      { clear. induction 1 as [|x l Hx Q IH]; intros a Ha; cbn [fold_left]; [easy|]. apply IH. now apply pos_add. }
      exact (G _ Q _ P2). }
    apply Forall_forall. intros x Hx. apply in_map_iff in Hx as (k & <- & Hk). apply nn_div; [|easy]. apply pos_nn. exact (proj1 (Forall_forall _ _) P _ Hk).
  Qed.
  Theorem trima_f64_monotone data data' w o o' : below data data' -> trima data w = Ok o -> trima data' w = Ok o' -> below o o'.
  Proof.
    intros H. unfold trima. cbv zeta. destruct (sma data _) as [a|] eqn:A; cbn [bind]; [|easy]. destruct (sma data' _) as [a'|] eqn:A'; cbn [bind]; [|easy].
    apply sma_f64_monotone. exact (sma_f64_monotone _ _ _ _ _ H A A').
  Qed.
  Theorem wilder_f64_monotone data data' w o o' : below data data' -> wilder data w = Ok o -> wilder data' w = Ok o' -> below o o'.
  Proof.
    intros H. unfold wilder, slice_to, slice_from. rewrite <- (below_length _ _ H). destruct (Nat.eqb_spec w 1) as [-> |N]; [now intros [= <-] [= <-]|].
    unfold usub. destruct (Nat.leb_spec 1 w); cbn [bind]; [|easy]. destruct (_ <=? _)%nat; cbn [bind]; [|easy]. intros [= <-] [= <-]. apply below_app; [apply below_pad|].
    apply (below_scan (fun s x => (s * fofnat (w - 1) + x) / fofnat w)%F).
    - intros a b x y Hab Hxy. apply le_div; [|apply (pos_nat m); lia]. apply le_add; [|easy]. apply le_mul; [easy|apply (nn_nat m)].
    - now apply below_skipn.
    - apply le_div; [|apply (pos_nat m); lia]. now apply below_fsum, below_firstn.
  Qed.
  Theorem ewma_f64_monotone data data' w o o' : (Z.of_nat w < 2 ^ 53)%Z -> below data data' -> ewma data w = Ok o -> ewma data' w = Ok o' -> below o o'.
  Proof.
    intros Hw H. unfold ewma, slice_to, slice_from. rewrite <- (below_length _ _ H). destruct (_ <=? _)%nat; cbn [bind]; [|easy].
    unfold usub. destruct (Nat.leb_spec 1 w); cbn [bind]; [|easy]. intros E E'. assert (J : forall a b : list f64, Ok a = Ok b -> a = b) by (intros ? ? Q; now injection Q). apply J in E, E'. subst o o'. apply below_app; [apply below_pad|].
    assert (I : le64 (fsum (firstn w data) / fofnat w)%F (fsum (firstn w data') / fofnat w)%F) by (apply le_div; [|apply (pos_nat m); lia]; now apply below_fsum, below_firstn).
    constructor; [exact I|].
    apply (below_scan (fun s x => x * (flit 2 1 / fofnat (w + 1)) + s * (flit 1 1 - flit 2 1 / fofnat (w + 1)))%F); [|now apply below_skipn|exact I].
    intros a b x y Hab Hxy. apply le_add; apply le_mul; try easy; [|now apply (ewma_rest_nn m)].
    apply nn_div; [now apply (nn_lit1 m)|apply (pos_nat m); lia].
  Qed.
  Theorem hlc3_f64_monotone h l c h' l' c' : below h h' -> below l l' -> below c c' -> below (hlc3 h l c) (hlc3 h' l' c').
  Proof.
    intros H. unfold hlc3, zip3. revert l l' c c'. induction H as [|x x' h h' Hx H IH]; intros l l' c c' [|y y' l0 l0' Hy Hl] Hc; cbn [combine map]; try constructor.
    destruct Hc as [|z z' c c' Hz Hc]; cbn [combine map]; [constructor|]. constructor; [|now apply IH].
    apply le_div; [|now apply of_Z_pos]. apply le_add; [now apply le_add|easy].
  Qed.
  Theorem typical_f64_monotone h l c h' l' c' w o o' : below h h' -> below l l' -> below c c' -> typical h l c w = Ok o -> typical h' l' c' w = Ok o' -> below o o'.
  Proof. intros H1 H2 H3. unfold typical. apply sma_f64_monotone. now apply hlc3_f64_monotone. Qed.
End Averages.
