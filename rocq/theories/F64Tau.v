(** * F64Tau: Kendall's rank correlation in binary64 rounds only twice *)

From Coq Require Import Reals Lra Lia ZArith.
From Flocq Require Import Core IEEE754.BinarySingleNaN.
From Verif Require Import Spec BaseFacts Tac XReal Select RSpec XRFacts Bars B64 F64 Correlation CorrReal DistShape DistReal RankCorr F64Facts F64Range F64Osc.
Local Unset Implicit Arguments.
Local Open Scope R_scope.

(** A float that is exactly a whole number. *)
Definition is_int (z : Z) (x : f64) : Prop := xval x = Fin (IZR z).
Lemma int_add a b x y : is_int a x -> is_int b y -> (Z.abs (a + b) <= 2 ^ 53)%Z -> is_int (a + b) (Bplus mode_NE x y).
Proof. intros Hx Hy Hb. apply xval_fin_inv in Hx as [Fx Vx], Hy as [Fy Vy]. unfold is_int. rewrite xval_add, Vx, Vy, <- plus_IZR by easy. now apply fl_Z. Qed.
Lemma int_sub a b x y : is_int a x -> is_int b y -> (Z.abs (a - b) <= 2 ^ 53)%Z -> is_int (a - b) (Bminus mode_NE x y).
Proof. intros Hx Hy Hb. apply xval_fin_inv in Hx as [Fx Vx], Hy as [Fy Vy]. unfold is_int. rewrite xval_sub, Vx, Vy, <- minus_IZR by easy. now apply fl_Z. Qed.
Lemma int_mul a b x y : is_int a x -> is_int b y -> (Z.abs (a * b) <= 2 ^ 53)%Z -> is_int (a * b) (Bmult mode_NE x y).
Proof. intros Hx Hy Hb. apply xval_fin_inv in Hx as [Fx Vx], Hy as [Fy Vy]. unfold is_int. rewrite xval_mul, Vx, Vy, <- mult_IZR by easy. now apply fl_Z. Qed.
Lemma int_bool m (b : bool) : is_int (if b then 1 else 0) (@fbool f64 (B64 m) b).
Proof. destruct b; apply xval_of_Z; lia. Qed.
Lemma feqb_fin m (x y : f64) : fin x -> fin y -> @feqb f64 (B64 m) x y = Req (B2R x) (B2R y).
Proof. intros Fx Fy. change (@feqb f64 (B64 m) x y) with (Beqb x y). rewrite eqb_xval, !xval_fin by easy. reflexivity. Qed.

(** The sign of a computed difference is the sign of the difference. *)
Lemma sub_signbit (x y : f64) : fin x -> fin y -> B2R x <> B2R y -> Bsign (Bminus mode_NE x y) = Rltb (B2R x - B2R y) 0.
Proof.
  intros Fx Fy N. pose proof (Bminus_correct 53 1024 _ _ mode_NE x y Fx Fy) as C. destruct (Rlt_bool _ _).
  - destruct C as (_ & _ & ->). destruct (Rcompare_spec (B2R x - B2R y) 0) as [L|L|L]; [symmetry; now apply Rltb_t|exfalso; lra|symmetry; apply Rltb_f; lra].
  - destruct C as [C S]. assert (SX : Bsign (Bminus mode_NE x y) = Bsign x) by now destruct (Bminus mode_NE x y) as [[]|[]| |[]]; try discriminate; injection C. rewrite SX.
    pose proof (Bsign_le x Fx) as L1. pose proof (Bsign_le y Fy) as L2. rewrite S in L1. rewrite S. destruct (Bsign y); cbn [negb] in *; symmetry; [apply Rltb_f; lra|]. apply Rltb_t. lra.
Qed.
Lemma signum_differs m (u v : f64) : is_nan u = false -> is_nan v = false -> @feqb f64 (B64 m) (fsignum u) (fsignum v) = Bool.eqb (Bsign u) (Bsign v).
Proof. intros Nu Nv. unfold fsignum. change (@fisnan f64 (B64 m) u) with (is_nan u). change (@fisnan f64 (B64 m) v) with (is_nan v). rewrite Nu, Nv. change (@fsignbit f64 (B64 m)) with (@Bsign 53 1024). destruct (Bsign u), (Bsign v); reflexivity. Qed.

(** Ties of the second series are ties of the first. *)
Definition ties_agree (x y : list R) : Prop := forall i j, (i < j < length x)%nat -> nth i y 0 = nth j y 0 -> nth i x 0 = nth j x 0.
(** One counting step. *)
Definition counts4 (a b c d : nat) (st : f64 * f64 * f64 * f64) : Prop :=
  let '(nc, xyt, xt, yt) := st in is_int (Z.of_nat a) nc /\ is_int (Z.of_nat b) xyt /\ is_int (Z.of_nat c) xt /\ is_int (Z.of_nat d) yt.
Definition one (q : bool) : nat := if q then 1 else 0.
Lemma int_count m (n : nat) (q : bool) (v : f64) : is_int (Z.of_nat n) v -> (Z.of_nat n < 2 ^ 26)%Z -> is_int (Z.of_nat (n + one q)) (@fadd f64 (B64 m) v (@fbool f64 (B64 m) q)).
Proof. intros Hv Hn. pose proof (int_add _ _ _ _ Hv (int_bool m q)) as A. unfold one. replace (Z.of_nat (n + (if q then 1 else 0))) with (Z.of_nat n + (if q then 1 else 0))%Z by (destruct q; lia). apply A. destruct q; lia. Qed.
Lemma counts4_fold (X Y : list R) (step : f64 * f64 * f64 * f64 -> nat * nat -> f64 * f64 * f64 * f64) l : 
  (forall p a b c d st, In p l -> counts4 a b c d st -> (Z.of_nat a < 2 ^ 26)%Z -> (Z.of_nat b < 2 ^ 26)%Z -> (Z.of_nat c < 2 ^ 26)%Z -> (Z.of_nat d < 2 ^ 26)%Z ->
     counts4 (a + one (concordant X Y p)) (b + one (tied X p && tied Y p)) (c + one (tied X p)) (d + one (tied Y p)) (step st p)) ->
  forall a b c d st, counts4 a b c d st -> (Z.of_nat (a + length l) <= 2 ^ 26)%Z -> (Z.of_nat (b + length l) <= 2 ^ 26)%Z -> (Z.of_nat (c + length l) <= 2 ^ 26)%Z -> (Z.of_nat (d + length l) <= 2 ^ 26)%Z ->
  counts4 (a + count (concordant X Y) l) (b + count (fun p => tied X p && tied Y p)%bool l) (c + count (tied X) l) (d + count (tied Y) l) (fold_left step l st).
Proof.
  induction l as [|p l IH]; intros S a b c d st I H1 H2 H3 H4; cbn [fold_left].
  - unfold count. cbn [filter length]. rewrite !Nat.add_0_r. exact I.
  - cbn [length] in *. assert (CN : forall (f : nat * nat -> bool) n, (n + count f (p :: l) = n + one (f p) + count f l)%nat) by (intros f n; unfold count, one; cbn [filter]; destruct (f p); cbn [length]; lia).
    rewrite !CN. apply IH.
    + intros q a' b' c' d' st' Hq. apply S. now right.
    + apply S; [now left|exact I|lia|lia|lia|lia].
    + unfold one. destruct (concordant X Y p); lia.
    + unfold one. destruct (tied X p && tied Y p)%bool; lia.
    + unfold one. destruct (tied X p); lia.
    + unfold one. destruct (tied Y p); lia.
Qed.
Lemma f64_krcc_counts m w (x y : list f64) : length x = w -> length y = w -> (Z.of_nat w <= 2 ^ 13)%Z -> (forall v, In v x -> fin v) -> (forall v, In v y -> fin v) -> ties_agree (map B2R x) (map B2R y) ->
  let P := pairs_below w in let X := map B2R x in let Y := map B2R y in
  counts4 (count (concordant X Y) P) (count (fun p => tied X p && tied Y p)%bool P) (count (tied X) P) (count (tied Y) P) (@krcc_counts f64 (B64 m) w x y).
Proof.
  intros Lx Ly Hw Fx Fy T P X Y. unfold krcc_counts. rewrite krcc_pairs_spec. fold P.
  assert (HP : (Z.of_nat (length P) <= 2 ^ 26)%Z).
  { pose proof (length_pairs_below w) as L. fold P in L. nia. }
  assert (B : forall i j, In (i, j) P -> (i < j < w)%nat) by (intros i j; apply In_pairs).
  refine (counts4_fold X Y _ P _ 0%nat 0%nat 0%nat 0%nat _ _ HP HP HP HP).
  - intros [i j] a b c d [[[nc xyt] xt] yt] Hp (I1 & I2 & I3 & I4) H1 H2 H3 H4. destruct (B i j Hp) as [Hij Hj]. clear HP B Hp.
      assert (AT : forall (z : list f64) k, length z = w -> (k < w)%nat -> (forall v, In v z -> fin v) -> fin (@at_ f64 (B64 m) z k) /\ B2R (@at_ f64 (B64 m) z k) = nth k (map B2R z) 0).
      { intros z k Lz Hk Fz. unfold at_. split; [apply Fz, nth_In; lia|]. change 0 with (B2R (B754_nan : f64)). now rewrite map_nth. }
      destruct (AT x i Lx ltac:(lia) Fx) as [Fxi Vxi]. destruct (AT x j Lx ltac:(lia) Fx) as [Fxj Vxj]. destruct (AT y i Ly ltac:(lia) Fy) as [Fyi Vyi]. destruct (AT y j Ly ltac:(lia) Fy) as [Fyj Vyj].
      set (xi := at_ x i) in *. set (xj := at_ x j) in *. set (yi := at_ y i) in *. set (yj := at_ y j) in *. clearbody xi xj yi yj.
      unfold fneb. rewrite !(feqb_fin m xi xj Fxi Fxj), !(feqb_fin m yi yj Fyi Fyj).
      assert (TX : Req (B2R xi) (B2R xj) = tied X (i, j)) by (unfold tied; cbn [fst snd]; now rewrite Vxi, Vxj).
      assert (TY : Req (B2R yi) (B2R yj) = tied Y (i, j)) by (unfold tied; cbn [fst snd]; now rewrite Vyi, Vyj).
      assert (CC : (feqb (fsignum (fsub xi xj)) (fsignum (@fsub f64 (B64 m) yi yj)) && negb (Req (B2R xi) (B2R xj)))%bool = concordant X Y (i, j)).
      { rewrite signum_differs by (apply sub_nnan; easy). cbn [fsub B64]. unfold concordant. cbn [fst snd]. unfold X, Y. rewrite <- Vxi, <- Vxj, <- Vyi, <- Vyj. destruct (Req (B2R xi) (B2R xj)) eqn:E.
        - rewrite andb_false_r. symmetry. apply Req_true in E. apply Rltb_f. rewrite E. lra.
        - rewrite andb_true_r. apply Req_false in E. assert (EY : B2R yi <> B2R yj). { intros Q. apply E. rewrite Vxi, Vxj. apply T; [rewrite map_length; split; [exact Hij|]; apply Nat.lt_le_trans with (1 := Hj); rewrite <- Lx; apply le_n|]. now rewrite <- Vyi, <- Vyj. }
          rewrite !sub_signbit by easy. destruct (Rltb (B2R xi - B2R xj) 0) eqn:E1, (Rltb (B2R yi - B2R yj) 0) eqn:E2; cbn [Bool.eqb]; (apply Rltb_t in E1 || apply Rltb_f in E1); (apply Rltb_t in E2 || apply Rltb_f in E2); symmetry; (apply Rltb_t || apply Rltb_f); nra. }
      rewrite CC, TX, TY.
      exact (conj (int_count m a _ nc I1 H1) (conj (int_count m b _ xyt I2 H2) (conj (int_count m c _ xt I3 H3) (int_count m d _ yt I4 H4)))).
  - assert (Z0 : is_int (Z.of_nat 0) (@flit f64 (B64 m) 0 1)) by (unfold is_int; change (@flit f64 (B64 m) 0 1) with (b64_of_Z 0); apply (xval_of_Z 0); lia).
    exact (conj Z0 (conj Z0 (conj Z0 Z0))).
Qed.

(** ** krcc *)
Definition tau_num (x y : list R) : R :=
  INR (count (concordant x y) (pairs_below (length x))) - INR (count (discordant x y) (pairs_below (length x))).
Lemma of_nat_INR n : IZR (Z.of_nat n) = INR n. Proof. symmetry. apply INR_IZR_INZ. Qed.
Lemma zero_of (v : f64) : xval v = Fin 0 -> exists s, v = B754_zero s.
Proof. intros H. apply xval_fin_inv in H as [F V]. destruct v as [s|s| |s q e Bd]; try easy; [now exists s|]. exfalso. revert V. cbn -[F2R]. intros V. apply eq_0_F2R in V. now destruct s. Qed.
(** Over a window of finite prices the code counts exactly and rounds twice: once in the
    square root, once in the quotient. *)
Lemma krcc_win_f64 m w (x y : list f64) : (0 < w)%nat -> length x = w -> length y = w -> (Z.of_nat w <= 2 ^ 13)%Z -> (forall v, In v x -> fin v) -> (forall v, In v y -> fin v) -> ties_agree (map B2R x) (map B2R y) ->
  exists v, @krcc_win f64 (B64 m) w (x, y) = Ok v /\
  (tau_den (map B2R x) (map B2R y) = 0 -> is_nan v = true) /\
  (tau_den (map B2R x) (map B2R y) <> 0 -> xval v = fl (tau_num (map B2R x) (map B2R y) / rnd (sqrt (tau_den (map B2R x) (map B2R y))))).
Proof.
  intros H0 Lx Ly Hw Fx Fy T. pose proof (f64_krcc_counts m w x y Lx Ly Hw Fx Fy T) as C. cbv zeta in C. unfold counts4 in C. set (X := map B2R x) in *. set (Y := map B2R y) in *. set (P := pairs_below w) in *.
  unfold krcc_win. cbn [fst snd]. destruct (krcc_counts w x y) as [[[nc xyt] xt] yt]. destruct C as (I1 & I2 & I3 & I4).
  unfold umul. destruct (N.ltb _ _) eqn:MU; [|exfalso; apply N.ltb_ge in MU; unfold two64 in MU; nia]. clear MU. cbn [bind]. eexists. split; [reflexivity|].
  pose proof (length_pairs_below w) as LP. fold P in LP. assert (HP : (Z.of_nat (length P) <= 2 ^ 25)%Z) by nia.
  assert (LX : length X = w) by (unfold X; now rewrite map_length).
  assert (TT : is_int (Z.of_nat (length P)) (@fmul f64 (B64 m) (fofN (N.of_nat w * N.of_nat (w - 1))) (flit 5 10))).
  { cbn [fmul fofN B64]. assert (X5 : exists h, @flit f64 (B64 m) 5 10 = h /\ fin h /\ B2R h = 1 / 2). { exists (flit 5 10). split; [easy|]. split; [vm_compute; reflexivity|]. change (flit 5 10) with (Bdiv mode_NE (b64_of_Z 5) (b64_of_Z 10)). assert (A5 : xval (b64_of_Z 5) = Fin 5) by now apply xval_of_Z. assert (A10 : xval (b64_of_Z 10) = Fin 10) by now apply xval_of_Z. apply xval_fin_inv in A5 as [F5 V5], A10 as [F10 V10].
      pose proof (xval_div _ _ F5 F10 ltac:(lra)) as XD. rewrite V5, V10 in XD. destruct (rep_F 1 (-1) (5 / 10) ltac:(cbn; lra) ltac:(easy) ltac:(lia)) as [R1 R2]. rewrite fl_fin, R1 in XD by now rewrite R1. apply xval_fin_inv in XD as [_ ->]. lra. }
    destruct X5 as (h & -> & Fh & Vh). assert (XN : xval (b64_of_Z (Z.of_N (N.of_nat w * N.of_nat (w - 1)))) = Fin (IZR (Z.of_nat (2 * length P)))). { rewrite LP, Nat2Z.inj_mul, N2Z.inj_mul, !nat_N_Z. apply xval_of_Z. nia. }
    apply xval_fin_inv in XN as [FN VN]. unfold is_int. rewrite xval_mul, VN, Vh by easy. replace (IZR (Z.of_nat (2 * length P)) * (1 / 2)) with (IZR (Z.of_nat (length P))) by (rewrite !of_nat_INR, mult_INR; cbn [INR]; lra). apply fl_Z. lia. }
  set (tot := fmul _ _) in *. clearbody tot.
  assert (CL : forall p : nat * nat -> bool, (0 <= Z.of_nat (count p P) <= Z.of_nat (length P))%Z) by (intros p; pose proof (count_le p P); lia).
  pose proof (CL (concordant X Y)) as C1. pose proof (CL (fun p => tied X p && tied Y p)%bool) as C2. pose proof (CL (tied X)) as C3. pose proof (CL (tied Y)) as C4. pose proof (CL (discordant X Y)) as C5.
  pose proof (kinds X Y P) as K. rewrite <- !of_nat_INR, <- ?plus_IZR, <- ?minus_IZR, <- ?plus_IZR in K. apply eq_IZR in K.
  set (zc := Z.of_nat (count (concordant X Y) P)) in *. set (zb := Z.of_nat (count (fun p => tied X p && tied Y p)%bool P)) in *. set (zx := Z.of_nat (count (tied X) P)) in *. set (zy := Z.of_nat (count (tied Y) P)) in *. set (zd := Z.of_nat (count (discordant X Y) P)) in *. set (zt := Z.of_nat (length P)) in *.
  pose proof (int_sub _ _ _ _ TT I1 ltac:(lia)) as J1. pose proof (int_sub _ _ _ _ J1 I3 ltac:(lia)) as J2. pose proof (int_sub _ _ _ _ J2 I4 ltac:(lia)) as J3. pose proof (int_add _ _ _ _ J3 I2 ltac:(lia)) as J4. replace (zt - zc - zx - zy + zb)%Z with zd in J4 by lia.
  pose proof (int_sub _ _ _ _ I1 J4 ltac:(lia)) as N. pose proof (int_mul _ _ _ _ (int_sub _ _ _ _ TT I3 ltac:(lia)) (int_sub _ _ _ _ TT I4 ltac:(lia)) ltac:(nia)) as D.
  cbn [fdiv fsqrt fmul fsub fadd B64].
  assert (DE : tau_den X Y = IZR ((zt - zx) * (zt - zy))). { unfold tau_den. rewrite LX. fold P. rewrite mult_IZR, !minus_IZR. unfold zt, zx, zy. now rewrite !of_nat_INR. }
  assert (NE : tau_num X Y = IZR (zc - zd)). { unfold tau_num. rewrite LX. fold P. rewrite minus_IZR. unfold zc, zd. now rewrite !of_nat_INR. }
  rewrite DE, NE. set (num := Bminus mode_NE nc _) in *. set (den := Bmult mode_NE _ _) in *. clearbody num den.
  split.
  - intros Z. unfold is_int in D. rewrite Z in D. apply zero_of in D as [s ->].
    assert (ZZ : ((zt - zx) * (zt - zy) = 0)%Z) by now apply eq_IZR.
    assert (N0 : (zc - zd = 0)%Z).
    { assert (L1 : (zb <= zy)%Z). { unfold zb, zy. apply inj_le. unfold count. clear. induction P as [|p P IH]; [easy|]. cbn. destruct (tied X p), (tied Y p); cbn; lia. }
      assert (L2 : (zb <= zx)%Z). { unfold zb, zx. apply inj_le. unfold count. clear. induction P as [|p P IH]; [easy|]. cbn. destruct (tied X p), (tied Y p); cbn; lia. }
      apply Z.mul_eq_0 in ZZ. lia. }
    unfold is_int in N. rewrite N0 in N. apply zero_of in N as [t ->]. now destruct s.
  - intros NZ. apply xval_fin_inv in D as [Fd Vd]. apply xval_fin_inv in N as [Fn Vn]. assert (DP : 0 <= B2R den). { rewrite Vd. apply IZR_le. nia. }
    pose proof (xval_sqrt den Fd DP) as S. rewrite Vd in S. apply xval_fin_inv in S as [Fs Vs].
    assert (SP : 1 <= rnd (sqrt (IZR ((zt - zx) * (zt - zy))))). { rewrite <- (rnd_Z 1) at 1 by easy. apply rnd_le. rewrite <- sqrt_1. apply sqrt_le_1_alt. apply IZR_le. assert ((zt - zx) * (zt - zy) <> 0)%Z by (intros Q; apply NZ; now rewrite Q). nia. }
    rewrite xval_div by (try easy; rewrite Vs; lra). now rewrite Vn, Vs.
Qed.

(** The numerator never exceeds the square root of the denominator. *)
Lemma tau_num_le x y : Rabs (tau_num x y) <= sqrt (tau_den x y).
Proof.
  unfold tau_num, tau_den. set (P := pairs_below (length x)). destruct (kind_bounds x y P) as [B1 B2]. pose proof (pos_INR (count (concordant x y) P)). pose proof (pos_INR (count (discordant x y) P)).
  rewrite <- sqrt_Rsqr_abs. apply sqrt_le_1_alt. unfold Rsqr. set (c := INR (count (concordant x y) P)) in *. set (d := INR (count (discordant x y) P)) in *. apply Rle_trans with ((c + d) * (c + d)); [nra|]. apply Rmult_le_compat; lra.
Qed.
Lemma tau_num_Z x y : exists z, tau_num x y = IZR z /\ (2 * Z.abs z <= Z.of_nat (length x) * Z.of_nat (length x))%Z.
Proof.
  exists (Z.of_nat (count (concordant x y) (pairs_below (length x))) - Z.of_nat (count (discordant x y) (pairs_below (length x))))%Z. unfold tau_num. rewrite minus_IZR, !of_nat_INR. split; [easy|].
  pose proof (count_le (concordant x y) (pairs_below (length x))). pose proof (count_le (discordant x y) (pairs_below (length x))). pose proof (length_pairs_below (length x)). nia.
Qed.
Lemma tau_den_Z x y : exists z, tau_den x y = IZR z /\ (0 <= z)%Z /\ (4 * z <= (Z.of_nat (length x) * Z.of_nat (length x)) * (Z.of_nat (length x) * Z.of_nat (length x)))%Z.
Proof.
  set (P := pairs_below (length x)). exists ((Z.of_nat (length P) - Z.of_nat (count (tied x) P)) * (Z.of_nat (length P) - Z.of_nat (count (tied y) P)))%Z. unfold tau_den. fold P. rewrite mult_IZR, !minus_IZR, !of_nat_INR. split; [easy|].
  pose proof (count_le (tied x) P). pose proof (count_le (tied y) P). pose proof (length_pairs_below (length x)) as L. fold P in L.
  set (a := (Z.of_nat (length P) - Z.of_nat (count (tied x) P))%Z). set (b := (Z.of_nat (length P) - Z.of_nat (count (tied y) P))%Z). assert (0 <= 2 * a <= Z.of_nat (length x) * Z.of_nat (length x))%Z by nia. assert (0 <= 2 * b <= Z.of_nat (length x) * Z.of_nat (length x))%Z by nia. split; [nia|]. replace (4 * (a * b))%Z with ((2 * a) * (2 * b))%Z by lia. apply Z.mul_le_mono_nonneg; lia.
Qed.
Lemma tau_b_quot x y : tau_b x y = tau_num x y / sqrt (tau_den x y). Proof. reflexivity. Qed.

(** Two roundings keep the quotient inside [-1, 1] and within 2^-52 of tau-b. *)
Lemma two_roundings x y (v : f64) : (Z.of_nat (length x) <= 2 ^ 13)%Z -> tau_den x y <> 0 -> xval v = fl (tau_num x y / rnd (sqrt (tau_den x y))) ->
  fin v /\ -1 <= B2R v <= 1 /\ Rabs (B2R v - tau_b x y) <= bpow radix2 (-52).
Proof.
  intros Hl D V. destruct (tau_num_Z x y) as (z & Ez & Hz). destruct (tau_den_Z x y) as (t & Et & Ht & Ht'). pose proof (tau_num_le x y) as L. rewrite tau_b_quot.
  set (n := tau_num x y) in *. set (s := sqrt (tau_den x y)) in *.
  assert (S1 : 1 <= s). { unfold s. rewrite <- sqrt_1. apply sqrt_le_1_alt. rewrite Et. apply IZR_le. assert (t <> 0)%Z by (intros ->; now rewrite Et in D). lia. }
  assert (W : (Z.of_nat (length x) * Z.of_nat (length x) <= 2 ^ 26)%Z) by nia.
  assert (SB : s <= IZR (2 ^ 25)). { unfold s. rewrite <- (sqrt_square (IZR (2 ^ 25))) by (apply IZR_le; lia). apply sqrt_le_1_alt. rewrite Et, <- mult_IZR. apply IZR_le. nia. }
  assert (R1 : 1 <= rnd s) by (rewrite <- (rnd_Z 1) at 1 by easy; now apply rnd_le).
  assert (RB : rnd s <= IZR (2 ^ 25)) by (rewrite <- (rnd_Z (2 ^ 25)) by easy; now apply rnd_le).
  assert (NR : Rabs n <= rnd s). { rewrite Ez, <- abs_IZR, <- rnd_Z by nia. apply rnd_le. rewrite abs_IZR, <- Ez. exact L. }
  assert (Q : Rabs (n / rnd s) <= 1). { unfold Rdiv. rewrite Rabs_mult, Rabs_inv, (Rabs_pos_eq (rnd s)) by lra. apply Rmult_le_reg_r with (rnd s); [lra|]. rewrite Rmult_assoc, Rinv_l by lra. lra. }
  assert (Q' : -1 <= n / rnd s <= 1) by (revert Q; unfold Rabs; destruct (Rcase_abs _); lra).
  assert (RQ : -1 <= rnd (n / rnd s) <= 1). { split; [rewrite <- (rnd_Z (-1)) at 1 by easy|rewrite <- (rnd_Z 1) by easy]; now apply rnd_le. }
  rewrite fl_fin in V. 2:{ apply Rle_lt_trans with 1; [apply Rabs_le; lra|]. unfold lim. change 1 with (bpow radix2 0). now apply bpow_lt. }
  apply xval_fin_inv in V as [Fv Vv]. split; [easy|]. rewrite Vv. split; [easy|].
  pose proof (bpow_gt_0 radix2 (-53)) as U0. assert (U2 : bpow radix2 (-52) = 2 * bpow radix2 (-53)) by (change (-52)%Z with (1 + -53)%Z; rewrite bpow_plus; reflexivity).
  assert (M : bpow radix2 (-1022) <= 1) by (change 1 with (bpow radix2 0); apply bpow_le; lia).
  pose proof (rnd_rel s ltac:(rewrite Rabs_pos_eq; lra)) as ES. rewrite (Rabs_pos_eq s) in ES by lra.
  assert (E1 : Rabs (n / rnd s - n / s) <= bpow radix2 (-53)).
  { replace (n / rnd s - n / s) with ((n / rnd s) * ((s - rnd s) / s)) by (field; lra). rewrite Rabs_mult. rewrite <- (Rmult_1_l (bpow radix2 (-53))). apply Rmult_le_compat; try apply Rabs_pos; [exact Q|]. unfold Rdiv. rewrite Rabs_mult, Rabs_inv, (Rabs_pos_eq s), Rabs_minus_sym by lra. apply Rmult_le_reg_r with s; [lra|]. rewrite Rmult_assoc, Rinv_l by lra. lra. }
  assert (E2 : Rabs (rnd (n / rnd s) - n / rnd s) <= bpow radix2 (-53)).
  { destruct (Z.eq_dec z 0) as [Z0|Z0].
    - rewrite Ez, Z0. unfold Rdiv. rewrite Rmult_0_l, rnd_0, Rminus_0_r, Rabs_R0. lra.
    - apply Rle_trans with (bpow radix2 (-53) * Rabs (n / rnd s)); [|nra]. apply rnd_rel. apply Rle_trans with (bpow radix2 (-25)); [apply bpow_le; lia|].
      unfold Rdiv. rewrite Rabs_mult, Rabs_inv, (Rabs_pos_eq (rnd s)) by lra. assert (1 <= Rabs n) by (rewrite Ez, <- abs_IZR; apply IZR_le; lia). apply Rmult_le_reg_r with (rnd s); [lra|]. rewrite Rmult_assoc, Rinv_l, Rmult_1_r by lra. apply Rle_trans with (bpow radix2 (-25) * IZR (2 ^ 25)); [apply Rmult_le_compat_l; [apply bpow_ge_0|easy]|]. change (IZR (2 ^ 25)) with (bpow radix2 25). rewrite <- bpow_plus. change (bpow radix2 (-25 + 25)) with 1. lra. }
  replace (rnd (n / rnd s) - n / s) with ((rnd (n / rnd s) - n / rnd s) + (n / rnd s - n / s)) by lra. apply Rle_trans with (1 := Rabs_triang _ _). lra.
Qed.

(** krcc on finite prices, when bars tied in the second series are tied in the first: NaN
    exactly where tau-b has no value, and otherwise a number in [-1, 1] within 2^-52 of it. *)
Theorem krcc_f64_tau m (a b : list f64) w : (0 < w)%nat -> (Z.of_nat w <= 2 ^ 13)%Z -> length a = length b -> (forall v, In v a -> fin v) -> (forall v, In v b -> fin v) -> ties_agree (map B2R a) (map B2R b) ->
  exists o, @krcc f64 (B64 m) a b w = Ok o /\ length o = Nat.max (w - 1) (length a) /\ (forall i, (i < w - 1)%nat -> nth_error o i = Some B754_nan) /\
  forall i, (w - 1 <= i < length a)%nat -> exists v, nth_error o i = Some v /\
    let x := map B2R (win w a i) in let y := map B2R (win w b i) in
    (tau_den x y = 0 -> v = B754_nan) /\ (tau_den x y <> 0 -> fin v /\ -1 <= B2R v <= 1 /\ Rabs (B2R v - tau_b x y) <= bpow radix2 (-52)).
Proof.
  intros Hw Hb L Fa Fb T. unfold krcc. zap. rewrite zip_windows_val by lia. cbn [bind].
  assert (W : forall i, (w - 1 <= i < length a)%nat -> exists v, @krcc_win f64 (B64 m) w (win w a i, win w b i) = Ok v /\ (tau_den (map B2R (win w a i)) (map B2R (win w b i)) = 0 -> v = B754_nan) /\ (tau_den (map B2R (win w a i)) (map B2R (win w b i)) <> 0 -> fin v /\ -1 <= B2R v <= 1 /\ Rabs (B2R v - tau_b (map B2R (win w a i)) (map B2R (win w b i))) <= bpow radix2 (-52))).
  { intros i Hi. assert (I : forall (l : list f64) v, In v (win w l i) -> In v l). { intros l v Hv. unfold win in Hv. rewrite <- (firstn_skipn (i + 1 - w) l). apply in_or_app. right. rewrite <- (firstn_skipn w (skipn (i + 1 - w) l)). apply in_or_app. left. exact Hv. }
    assert (LW : forall l : list f64, length l = length a -> length (win w l i) = w) by (intros l Hl; apply length_win; rewrite ?Hl; lia).
    assert (N : forall (l : list f64) j, length l = length a -> (j < w)%nat -> nth j (map B2R (win w l i)) 0 = nth (i + 1 - w + j) (map B2R l) 0).
    { intros l j Hl Hj. assert (HH : (i + 1 - w + j < length l)%nat) by (rewrite Hl; lia). rewrite <- win_map. apply nth_error_nth. rewrite nth_error_win by easy. apply nth_error_nth'. rewrite map_length. exact HH. }
    destruct (krcc_win_f64 m w (win w a i) (win w b i) Hw (LW a eq_refl) (LW b (eq_sym L)) Hb ltac:(intros v Hv; now apply Fa, I) ltac:(intros v Hv; now apply Fb, I)) as (v & E & A & B).
    - intros p q Hp. assert (Hp' : (p < q < length (win w a i))%nat) by (rewrite map_length in Hp; exact Hp). rewrite (LW a eq_refl) in Hp'. assert (Hq : (i + 1 - w + p < i + 1 - w + q < length a)%nat) by lia. rewrite !N by (easy || lia). apply T. rewrite map_length. exact Hq.
    - exists v. split; [exact E|]. split; [intros Z; specialize (A Z); now destruct v|]. intros Z. specialize (B Z). apply two_roundings; try easy. rewrite map_length. exact (eq_ind_r (fun k => (Z.of_nat k <= 2 ^ 13)%Z) Hb (LW a eq_refl)). }
  assert (exists o', rmap (@krcc_win f64 (B64 m) w) (combine (windows w a) (windows w b)) = Ok o') as [o' E]; [apply rmap_no_panic|].
  { intros [x y] Hp. apply In_nth_error in Hp as [k Hk]. pose proof (nth_error_Some (combine (windows w a) (windows w b)) k) as S. rewrite Hk in S. assert (K : (k < length (combine (windows w a) (windows w b)))%nat) by (apply S; easy). rewrite combine_length, !length_windows in K.
    destruct (W (k + (w - 1))%nat ltac:(lia)) as (v & E & _). rewrite nth_error_combine in Hk. assert (Kx : k = (k + (w - 1) - (w - 1))%nat) by lia. rewrite Kx, !nth_error_windows_win in Hk by lia. injection Hk as <- <-. now rewrite E. }
  rewrite E. cbn [bind]. eexists; split; [reflexivity|]. pose proof (length_rmap E) as LO. rewrite combine_length, !length_windows in LO. split; [|split].
  - rewrite app_length, length_pad. lia.
  - intros i Hi. rewrite nth_error_app1 by (rewrite length_pad; lia). unfold pad. now rewrite nth_error_repeat.
  - intros i Hi. destruct (W i Hi) as (v & EV & G). exists v. split; [|exact G]. rewrite nth_error_app2, length_pad by (rewrite length_pad; lia).
    assert (NE : nth_error (combine (windows w a) (windows w b)) (i - (w - 1)) = Some (win w a i, win w b i)) by (rewrite nth_error_combine, !nth_error_windows_win by lia; reflexivity).
    pose proof (rmap_nth E NE) as (v' & E1 & E2). congruence.
Qed.

(** A case: four bars without ties. *)
Definition tau_a : list f64 := [b64_of_Z 1; b64_of_Z 3; b64_of_Z 2; b64_of_Z 5].
Definition tau_b' : list f64 := [b64_of_Z 2; b64_of_Z 7; b64_of_Z 1; b64_of_Z 9].
Lemma B2R_of_Z z : (Z.abs z <= 2 ^ 53)%Z -> B2R (b64_of_Z z) = IZR z.
Proof. intros H. apply xval_of_Z in H. now apply xval_fin_inv in H as [_ H]. Qed.
Example krcc_f64_tau_case m : exists o, @krcc f64 (B64 m) tau_a tau_b' 3 = Ok o /\ exists v, nth_error o 3 = Some v /\ fin v /\ Rabs (B2R v - tau_b (map B2R (win 3 tau_a 3)) (map B2R (win 3 tau_b' 3))) <= bpow radix2 (-52).
Proof.
  assert (FA : forall v, In v tau_a -> fin v) by (unfold tau_a; intros v [<-|[<-|[<-|[<-|[]]]]]; vm_compute; reflexivity).
  assert (FB : forall v, In v tau_b' -> fin v) by (unfold tau_b'; intros v [<-|[<-|[<-|[<-|[]]]]]; vm_compute; reflexivity).
  assert (MB : map B2R tau_b' = [2; 7; 1; 9]) by (unfold tau_b'; cbn [map]; rewrite !B2R_of_Z by easy; easy).
  assert (MA : map B2R tau_a = [1; 3; 2; 5]) by (unfold tau_a; cbn [map]; rewrite !B2R_of_Z by easy; easy).
  assert (WA : map B2R (win 3 tau_a 3) = [3; 2; 5]) by (rewrite <- win_map, MA; reflexivity). assert (WB : map B2R (win 3 tau_b' 3) = [7; 1; 9]) by (rewrite <- win_map, MB; reflexivity).
  destruct (krcc_f64_tau m tau_a tau_b' 3 ltac:(lia) ltac:(easy) eq_refl FA FB) as (o & E & _ & _ & V).
  - intros i j Hij. rewrite MB. unfold tau_a in Hij. cbn in Hij. destruct i as [|[|[|i]]]; destruct j as [|[|[|[|j]]]]; try lia; cbn [nth]; intros; lra.
  - exists o. split; [exact E|]. destruct (V 3%nat ltac:(cbn; lia)) as (v & Ev & _ & G). exists v. split; [exact Ev|]. clear E Ev V FA FB.
    rewrite WA, WB in *. destruct G as (G1 & _ & G2); [|split; assumption]. unfold tau_den. change (pairs_below (length [3; 2; 5])) with [(0, 1); (0, 2); (1, 2)]%nat. unfold count. cbn [filter]. unfold tied. cbn [fst snd nth].
    rewrite !(proj2 (Req_false _ _)) by lra. cbn [length INR]. lra.
Qed.
