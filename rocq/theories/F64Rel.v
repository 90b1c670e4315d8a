(** * F64Rel: how far binary64 can be from exact arithmetic, relative to the result.

    [near k lo hi x X]: if the exact value [X] is a number [r] then it is 0 or between
    2^lo and 2^hi, and the float [x] is [r] up to [k] roundings.  Sums, products,
    quotients and roots of such values are such values, as long as the exponents stay
    away from the limits of the format; so is a difference of two inputs. *)

From Coq Require Import Reals Lra Lia ZArith.
From Flocq Require Import Core IEEE754.BinarySingleNaN.
From Verif Require Import Spec BaseFacts XReal XRFacts Bars B64 F64 F64Range F64Err F64Osc.
Local Unset Implicit Arguments.
Local Open Scope R_scope.

Notation p2 := (bpow radix2).
Definition tol (k : nat) : R := (1 - uu) ^ k.
Definition near (k : nat) (lo hi : Z) (x : f64) (X : xr) : Prop := forall r, X = Fin r ->
  fin x /\ 0 <= r /\ (r = 0 \/ p2 lo <= r <= p2 hi) /\ r * tol k <= B2R x <= r * / tol k.
Definition few (k : nat) : Prop := (Z.of_nat k <= 2 ^ 50)%Z.

Lemma uu_small : uu <= / 1024.
Proof. unfold uu. replace (/ 1024) with (p2 (-10)) by (cbn; lra). apply bpow_le. lia. Qed.
Lemma tol_pos k : 0 < tol k.
Proof. pose proof uu_small. unfold tol. apply pow_lt. lra. Qed.
Lemma tol_le1 k : tol k <= 1.
Proof. pose proof uu_small. pose proof uu_pos. induction k; [unfold tol; cbn; lra|]. unfold tol. rewrite <- tech_pow_Rmult. fold (tol k). pose proof (tol_pos k). apply Rle_trans with (1 * tol k); [apply Rmult_le_compat_r|]; lra. Qed.
Lemma tol_S k : tol (S k) = tol k * (1 - uu). Proof. unfold tol. cbn. ring. Qed.
Lemma tol_add j k : tol (j + k) = tol j * tol k. Proof. unfold tol. apply pow_add. Qed.
Lemma tol_le j k : (j <= k)%nat -> tol k <= tol j.
Proof. intros H. replace k with (j + (k - j))%nat by lia. rewrite tol_add. pose proof (tol_pos j). pose proof (tol_le1 (k - j)). nra. Qed.
Lemma tol_bernoulli k : 1 - INR k * uu <= tol k.
Proof. pose proof uu_small. pose proof uu_pos. induction k; [unfold tol; cbn; lra|]. rewrite tol_S, S_INR. pose proof (tol_le1 k). pose proof (pos_INR k). nra. Qed.
Lemma few_uu k : few k -> INR k * uu <= / 8.
Proof.
  unfold few. intros H. rewrite INR_IZR_INZ. apply IZR_le in H. replace (/ 8) with (IZR (2 ^ 50) * uu).
  - apply Rmult_le_compat_r; [apply Rlt_le, uu_pos|easy].
  - change (IZR (2 ^ 50)) with (IZR (radix2 ^ 50)). rewrite IZR_Zpower by easy. unfold uu. rewrite <- bpow_plus. cbn. lra.
Qed.
Lemma tol_half k : few k -> / 2 <= tol k.
Proof. intros H. pose proof (few_uu k H). pose proof (tol_bernoulli k). lra. Qed.
Lemma tol_inv2 k : few k -> / tol k <= 2.
Proof. intros H. pose proof (tol_half k H). replace 2 with (/ / 2) by lra. apply Rinv_le; lra. Qed.
Lemma inv_tol_ge1 k : 1 <= / tol k.
Proof. rewrite <- Rinv_1. apply Rinv_le; [apply tol_pos|apply tol_le1]. Qed.

(** What [near] means in the end. *)
Theorem near_rel k lo hi x r : few k -> near k lo hi x (Fin r) -> fin x /\ Rabs (B2R x - r) <= INR k * p2 (-52) * Rabs r.
Proof.
  intros Hk H. destruct (H r eq_refl) as (F & P & _ & B). split; [easy|].
  assert (E52 : p2 (-52) = 2 * uu) by (unfold uu; change (-52)%Z with (1 + -53)%Z; rewrite bpow_plus; reflexivity).
  rewrite E52, (Rabs_pos_eq r) by easy. pose proof (few_uu k Hk). pose proof (tol_bernoulli k). pose proof (tol_pos k). pose proof (tol_le1 k). pose proof uu_pos. pose proof (pos_INR k).
  assert (T : / tol k <= 1 + 2 * (INR k * uu)).
  { apply Rmult_le_reg_l with (tol k); [easy|]. rewrite Rinv_r by lra. nra. }
  apply Rabs_le. split; nra.
Qed.

Lemma rnd_tol z r k (x : f64) lo hi : xval x = fl z -> Rabs (rnd z - z) <= uu * Rabs z -> few k -> (hi <= 1020)%Z ->
  0 <= r -> (r = 0 \/ p2 lo <= r <= p2 hi) -> r * tol k <= z <= r * / tol k ->
  fin x /\ 0 <= r /\ (r = 0 \/ p2 lo <= r <= p2 hi) /\ r * tol (S k) <= B2R x <= r * / tol (S k).
Proof.
  intros E Hr Hk Hh P Rg B. pose proof (tol_pos k). pose proof (tol_inv2 k Hk). pose proof uu_small. pose proof uu_pos. pose proof (inv_tol_ge1 k).
  assert (Z0 : 0 <= z) by nra. rewrite (Rabs_pos_eq z) in Hr by easy. apply Rabs_le_inv in Hr.
  assert (U : r <= p2 hi) by (destruct Rg as [-> |[_ ?]]; [apply bpow_ge_0|easy]).
  assert (L : Rabs (rnd z) < lim).
  { rewrite Rabs_pos_eq by nra. unfold lim. apply Rle_lt_trans with (4 * p2 hi); [nra|]. replace (4 * p2 hi) with (p2 (hi + 2)) by (rewrite bpow_plus; cbn; ring).
    apply bpow_lt. lia. }
  rewrite (fl_fin z L) in E. apply xval_fin_inv in E as [F V]. split; [easy|]. split; [easy|]. split; [easy|]. rewrite V, tol_S.
  rewrite Rinv_mult. assert (1 + uu <= / (1 - uu)). { apply Rmult_le_reg_l with (1 - uu); [lra|]. rewrite Rinv_r by lra. nra. }
  set (t := / tol k) in *. set (s := / (1 - uu)) in *. split; [nra|]. apply Rle_trans with (z * (1 + uu)); [lra|]. apply Rle_trans with (z * s); [nra|]. rewrite <- Rmult_assoc. apply Rmult_le_compat_r; nra.
Qed.

Lemma near_weaken k k' lo lo' hi hi' x X : near k lo hi x X -> (k <= k')%nat -> (lo' <= lo)%Z -> (hi <= hi')%Z -> near k' lo' hi' x X.
Proof.
  intros H Hk Hl Hh r E. destruct (H r E) as (F & P & Rg & B). split; [easy|]. split; [easy|]. split.
  - destruct Rg as [?|[? ?]]; [now left|right]. pose proof (bpow_le radix2 _ _ Hl). pose proof (bpow_le radix2 _ _ Hh). lra.
  - pose proof (tol_le k k' Hk). pose proof (tol_pos k'). assert (/ tol k <= / tol k') by (apply Rinv_le; easy). nra.
Qed.
Lemma near_zero k lo hi x : fin x -> B2R x = 0 -> near k lo hi x (Fin 0).
Proof. intros F V r [= <-]. split; [easy|]. split; [lra|]. split; [now left|]. rewrite V. lra. Qed.
Lemma near_exact lo hi x : fin x -> 0 <= B2R x -> (B2R x = 0 \/ p2 lo <= B2R x <= p2 hi) -> near 0 lo hi x (Fin (B2R x)).
Proof. intros F P Rg r [= <-]. split; [easy|]. split; [easy|]. split; [easy|]. unfold tol. cbn. lra. Qed.
Lemma near_nan k lo hi x : near k lo hi x NaN. Proof. intros r E. easy. Qed.

Lemma xadd_fin X Y r : xadd X Y = Fin r -> exists a b, X = Fin a /\ Y = Fin b /\ r = a + b.
Proof. destruct X as [a|[]|], Y as [b|[]|]; cbn; try easy. intros [= <-]. now exists a, b. Qed.
Lemma xmul_fin X Y r : xmul X Y = Fin r -> exists a b, X = Fin a /\ Y = Fin b /\ r = a * b.
Proof.
  destruct X as [a|s|], Y as [b|t|]; cbn; try easy.
  - intros [= <-]. now exists a, b.
  - now destruct (Req a 0).
  - now destruct (Req b 0).
Qed.
Lemma xdiv_fin X b r : xdiv X (Fin b) = Fin r -> exists a, X = Fin a /\ b <> 0 /\ r = a / b.
Proof.
  destruct X as [a|s|]; cbn; try easy. destruct (Req b 0) eqn:E; [now destruct (Req a 0)|]. intros [= <-]. exists a. split; [easy|]. split; [now apply Req_false|easy].
Qed.

Section Op.
  Context (m : libm).
  Notation fadd := (@fadd f64 (B64 m)). Notation fmul := (@fmul f64 (B64 m)). Notation fdiv := (@fdiv f64 (B64 m)).
  Lemma near_add j k lo lo' hi hi' x y X Y : near j lo hi x X -> near k lo' hi' y Y -> few (Nat.max j k) -> (Z.max hi hi' <= 1019)%Z ->
    near (S (Nat.max j k)) (Z.min lo lo') (Z.max hi hi' + 1) (fadd x y) (xadd X Y).
  Proof.
    intros Hx Hy Hf Hb r E. apply xadd_fin in E as (a & b & -> & -> & ->).
    assert (Hx' := near_weaken _ (Nat.max j k) _ (Z.min lo lo') _ (Z.max hi hi') _ _ Hx ltac:(lia) ltac:(lia) ltac:(lia)).
    assert (Hy' := near_weaken _ (Nat.max j k) _ (Z.min lo lo') _ (Z.max hi hi') _ _ Hy ltac:(lia) ltac:(lia) ltac:(lia)).
    destruct (Hx' a eq_refl) as (Fx & Pa & Ra & Ba). destruct (Hy' b eq_refl) as (Fy & Pb & Rb & Bb).
    apply rnd_tol with (z := B2R x + B2R y); try easy; try lra; try lia.
    - now apply xval_add.
    - apply rnd_add_err.
    - pose proof (bpow_gt_0 radix2 (Z.max hi hi')). pose proof (bpow_gt_0 radix2 (Z.min lo lo')).
      replace (p2 (Z.max hi hi' + 1)) with (2 * p2 (Z.max hi hi')) by (rewrite bpow_plus; cbn; ring).
      destruct Ra as [->|[? ?]], Rb as [->|[? ?]]; try (right; lra). left; lra.
  Qed.
  Lemma near_mul j k lo lo' hi hi' x y X Y : near j lo hi x X -> near k lo' hi' y Y -> few (j + k) -> (hi + hi' <= 1020)%Z -> (-1020 <= lo + lo')%Z ->
    near (S (j + k)) (lo + lo') (hi + hi') (fmul x y) (xmul X Y).
  Proof.
    intros Hx Hy Hf Hh Hl r E. apply xmul_fin in E as (a & b & -> & -> & ->).
    destruct (Hx a eq_refl) as (Fx & Pa & Ra & Ba). destruct (Hy b eq_refl) as (Fy & Pb & Rb & Bb).
    pose proof (tol_pos j). pose proof (tol_pos k). pose proof (inv_tol_ge1 j). pose proof (inv_tol_ge1 k). pose proof (tol_half _ Hf) as Th.
    assert (Bz : a * b * tol (j + k) <= B2R x * B2R y <= a * b * / tol (j + k)).
    { rewrite tol_add, Rinv_mult. assert (0 <= a * tol j) by nra. assert (0 <= b * tol k) by nra. split.
      - replace (a * b * (tol j * tol k)) with ((a * tol j) * (b * tol k)) by ring. apply Rmult_le_compat; lra.
      - replace (a * b * (/ tol j * / tol k)) with ((a * / tol j) * (b * / tol k)) by ring. apply Rmult_le_compat; lra. }
    assert (Rg : a * b = 0 \/ p2 (lo + lo') <= a * b <= p2 (hi + hi')).
    { rewrite !bpow_plus. pose proof (bpow_gt_0 radix2 lo). pose proof (bpow_gt_0 radix2 lo'). pose proof (bpow_gt_0 radix2 hi). pose proof (bpow_gt_0 radix2 hi').
      destruct Ra as [->|[? ?]]; [left; lra|]. destruct Rb as [->|[? ?]]; [left; lra|]. right. split; apply Rmult_le_compat; lra. }
    apply rnd_tol with (z := B2R x * B2R y); try easy; try nra.
    - now apply xval_mul.
    - destruct Rg as [Z0|[L _]].
      + rewrite Z0 in Bz. replace (B2R x * B2R y) with 0 by lra. rewrite rnd_0, Rabs_R0, Rminus_0_r, Rabs_R0. lra.
      + assert (0 <= a * tol j) by nra. assert (0 <= b * tol k) by nra.
        apply rnd_rel. rewrite Rabs_pos_eq by (apply Rmult_le_pos; lra). pose proof (bpow_gt_0 radix2 (lo + lo')).
        apply Rle_trans with (p2 (lo + lo') * / 2); [|apply Rle_trans with (a * b * tol (j + k)); [apply Rmult_le_compat; lra|lra]]. replace (/ 2) with (p2 (-1)) by (cbn; lra). rewrite <- bpow_plus. apply bpow_le. lia.
  Qed.
  Lemma near_div j k lo lo' hi hi' x y X b : near j lo hi x X -> near k lo' hi' y (Fin b) -> few (j + k) -> (hi - lo' <= 1020)%Z -> (-1020 <= lo - hi')%Z ->
    near (S (j + k)) (lo - hi') (hi - lo') (fdiv x y) (xdiv X (Fin b)).
  Proof.
    intros Hx Hy Hf Hh Hl r E. apply xdiv_fin in E as (a & -> & B0 & ->).
    destruct (Hx a eq_refl) as (Fx & Pa & Ra & Ba). destruct (Hy b eq_refl) as (Fy & Pb & Rb & Bb).
    destruct Rb as [?|Rb]; [easy|]. assert (0 < b) by lra.
    pose proof (tol_pos j). pose proof (tol_pos k). pose proof (inv_tol_ge1 j). pose proof (inv_tol_ge1 k). pose proof (tol_half _ Hf) as Th.
    assert (Yp : 0 < B2R y) by nra.
    assert (Bz : a / b * tol (j + k) <= B2R x / B2R y <= a / b * / tol (j + k)).
    { rewrite tol_add, Rinv_mult. split.
      - replace (a / b * (tol j * tol k)) with ((a * tol j) * / (b * / tol k)) by (field; lra). apply Rmult_le_compat; try nra; [apply Rlt_le, Rinv_0_lt_compat; nra|]. apply Rinv_le; lra.
      - replace (a / b * (/ tol j * / tol k)) with ((a * / tol j) * / (b * tol k)) by (field; lra). apply Rmult_le_compat; try nra; [apply Rlt_le, Rinv_0_lt_compat; nra|]. apply Rinv_le; [nra|lra]. }
    assert (Ib : p2 (- hi') <= / b <= p2 (- lo')).
    { rewrite !bpow_opp. split; apply Rinv_le; try lra. apply bpow_gt_0. }
    assert (Rg : a / b = 0 \/ p2 (lo - hi') <= a / b <= p2 (hi - lo')).
    { unfold Zminus, Rdiv. rewrite !bpow_plus. pose proof (bpow_gt_0 radix2 lo). pose proof (bpow_gt_0 radix2 (- lo')). pose proof (bpow_gt_0 radix2 hi). pose proof (bpow_gt_0 radix2 (- hi')).
      destruct Ra as [->|[? ?]]; [left; lra|]. right. split; apply Rmult_le_compat; lra. }
    assert (Q : 0 <= a / b) by (unfold Rdiv; apply Rmult_le_pos; [easy|]; pose proof (bpow_gt_0 radix2 (- hi')); lra).
    apply rnd_tol with (z := B2R x / B2R y); try easy.
    - apply xval_div; try easy. lra.
    - destruct Rg as [Z0|[L _]].
      + rewrite Z0 in Bz. replace (B2R x / B2R y) with 0 by lra. rewrite rnd_0, Rabs_R0, Rminus_0_r, Rabs_R0. lra.
      + apply rnd_rel. pose proof (bpow_gt_0 radix2 (lo - hi')).
        assert (p2 (lo - hi') * / 2 <= B2R x / B2R y) by (apply Rle_trans with (a / b * tol (j + k)); [apply Rmult_le_compat; lra|lra]).
        rewrite Rabs_pos_eq by lra. apply Rle_trans with (p2 (lo - hi') * / 2); [|easy]. replace (/ 2) with (p2 (-1)) by (cbn; lra). rewrite <- bpow_plus. apply bpow_le. lia.
  Qed.
  Lemma near_sqrt k lo hi x X : near k (2 * lo) (2 * hi) x X -> few k -> (hi <= 1020)%Z -> (-1020 <= lo)%Z ->
    near (S k) lo hi (@fsqrt f64 (B64 m) x) (xsqrt X).
  Proof.
    intros Hx Hf Hh Hl r E. destruct X as [a|s|]; [|now destruct s|easy]. destruct (Hx a eq_refl) as (Fx & Pa & Ra & Ba).
    assert (Es : xsqrt (Fin a) = Fin (sqrt a)) by now apply x_sqrt. rewrite Es in E. injection E as <-. clear Es.
    pose proof (tol_pos k). pose proof (tol_le1 k). pose proof (inv_tol_ge1 k). pose proof (tol_half _ Hf) as Th.
    assert (X0 : 0 <= B2R x) by nra. pose proof (sqrt_pos a) as Sa.
    assert (Bz : sqrt a * tol k <= sqrt (B2R x) <= sqrt a * / tol k).
    { split.
      - apply Rle_trans with (sqrt (a * tol k * tol k)); [|apply sqrt_le_1_alt; nra]. rewrite Rmult_assoc, sqrt_mult by nra. rewrite sqrt_square by lra. lra.
      - apply Rle_trans with (sqrt (a * / tol k * / tol k)); [apply sqrt_le_1_alt; nra|]. rewrite Rmult_assoc, sqrt_mult by nra. rewrite sqrt_square by lra. lra. }
    assert (Rg : sqrt a = 0 \/ p2 lo <= sqrt a <= p2 hi).
    { destruct Ra as [->|[L U]]; [left; apply sqrt_0|right]. replace (2 * lo)%Z with (lo + lo)%Z in L by lia. replace (2 * hi)%Z with (hi + hi)%Z in U by lia. rewrite bpow_plus in L, U.
      pose proof (bpow_ge_0 radix2 lo). pose proof (bpow_ge_0 radix2 hi). split.
      - rewrite <- (sqrt_square (p2 lo)) by easy. now apply sqrt_le_1_alt.
      - rewrite <- (sqrt_square (p2 hi)) by easy. now apply sqrt_le_1_alt. }
    assert (Hr : Rabs (rnd (sqrt (B2R x)) - sqrt (B2R x)) <= uu * Rabs (sqrt (B2R x))).
    { destruct Rg as [Z0|[L _]].
      - rewrite Z0 in Bz. replace (sqrt (B2R x)) with 0 by lra. rewrite rnd_0, Rabs_R0, Rminus_0_r, Rabs_R0. lra.
      - apply rnd_rel. rewrite Rabs_pos_eq by apply sqrt_pos. apply Rle_trans with (p2 lo * / 2); [|nra]. replace (/ 2) with (p2 (-1)) by (cbn; lra). rewrite <- bpow_plus. apply bpow_le. lia. }
    apply rnd_tol with (z := sqrt (B2R x)); try easy.
    rewrite fl_fin; [now apply xval_sqrt|].
    assert (U : sqrt a <= p2 hi) by (destruct Rg as [-> |[_ ?]]; [apply bpow_ge_0|easy]). pose proof (sqrt_pos (B2R x)) as Sx. rewrite (Rabs_pos_eq (sqrt (B2R x))) in Hr by easy. apply Rabs_le_inv in Hr.
    pose proof uu_small. pose proof uu_pos. pose proof (tol_inv2 k Hf). rewrite Rabs_pos_eq by nra. unfold lim. apply Rle_lt_trans with (4 * p2 hi); [nra|]. replace (4 * p2 hi) with (p2 (hi + 2)) by (rewrite bpow_plus; cbn; ring).
    apply bpow_lt. lia.
  Qed.
End Op.

(** A total of [length l] such values, however the total is started at 0. *)
Lemma near_sum m {A} k lo hi p (l : list A) (f : A -> f64) (g : A -> xr) s : few (k + length l) -> (0 <= p)%Z -> (Z.of_nat (length l) <= 2 ^ p)%Z -> (hi + p <= 1019)%Z ->
  (forall a, In a l -> near k lo hi (f a) (g a)) -> fin s -> B2R s = 0 ->
  near (k + length l) lo (hi + p) (fold_left (fun t a => @fadd f64 (B64 m) t (f a)) l s) (fold_left (fun t a => xadd t (g a)) l (Fin 0)).
Proof.
  intros Hf Hp Hn Hh H Fs Vs.
  assert (I : forall r, fold_left (fun t a => xadd t (g a)) l (Fin 0) = Fin r -> fin (fold_left (fun t a => @fadd f64 (B64 m) t (f a)) l s) /\ 0 <= r /\ (r = 0 \/ p2 lo <= r) /\ r <= INR (length l) * p2 hi /\
    r * tol (k + length l) <= B2R (fold_left (fun t a => @fadd f64 (B64 m) t (f a)) l s) <= r * / tol (k + length l)).
  - clear Hp. induction l as [|a l IH] using rev_ind; intros r; [cbn [fold_left length INR]; intros [= <-]|].
    + rewrite Vs. split; [easy|]. split; [lra|]. split; [now left|]. split; lra.
    + rewrite !fold_left_app, app_length. cbn [fold_left length]. rewrite app_length in *. cbn [length] in *. intros E. apply xadd_fin in E as (u & v & Eu & Ev & ->).
      assert (Hl : few (k + length l)) by (unfold few in *; lia).
      destruct (IH Hl ltac:(lia) ltac:(intros; apply H, in_or_app; now left) u Eu) as (Fu & Pu & Lu & Uu & Bu).
      destruct (H a ltac:(apply in_or_app; right; now left) v Ev) as (Fv & Pv & Rv & Bv).
      set (x := fold_left (fun t a => @fadd f64 (B64 m) t (f a)) l s) in *. replace (k + (length l + 1))%nat with (S (k + length l)) by lia.
      assert (Bv' : v * tol (k + length l) <= B2R (f a) <= v * / tol (k + length l)).
      { pose proof (tol_le k (k + length l) ltac:(lia)). pose proof (tol_pos (k + length l)). assert (/ tol k <= / tol (k + length l)) by (apply Rinv_le; lra). nra. }
      assert (Ip : 0 <= INR (length l)) by apply pos_INR. pose proof (bpow_gt_0 radix2 hi). pose proof (bpow_gt_0 radix2 lo).
      assert (Vh : v <= p2 hi) by (destruct Rv as [->|[_ ?]]; lra).
      assert (Uv : u + v <= INR (length l + 1) * p2 hi) by (rewrite plus_INR; cbn [INR]; nra).
      assert (Hn' : INR (length l + 1) <= p2 p).
      { rewrite INR_IZR_INZ. apply Rle_trans with (IZR (2 ^ p)); [apply IZR_le; lia|]. rewrite <- (IZR_Zpower radix2); [apply Rle_refl|]. destruct p; [lia|lia|]. cbn in Hn. lia. }
      assert (Cap : u + v <= p2 (hi + p)). { rewrite bpow_plus, Rmult_comm. eapply Rle_trans; [exact Uv|]. apply Rmult_le_compat_r; lra. }
      assert (Lv : u + v = 0 \/ p2 lo <= u + v) by (destruct Lu as [->|?], Rv as [->|[? _]]; try (right; lra); left; lra).
      destruct (rnd_tol (B2R x + B2R (f a)) (u + v) (k + length l) (@fadd f64 (B64 m) x (f a)) lo (hi + p)) as (G1 & G2 & G3 & G4); try easy; try lra; try lia.
      * now apply xval_add.
      * apply rnd_add_err.
  - intros r E. destruct (I r E) as (F & P & L & U & B). split; [easy|]. split; [easy|]. split; [|easy]. destruct L as [?|L]; [now left|right]. split; [easy|].
    eapply Rle_trans; [exact U|]. rewrite bpow_plus, Rmult_comm. apply Rmult_le_compat_l; [apply bpow_ge_0|].
    rewrite INR_IZR_INZ, <- (IZR_Zpower radix2) by easy. now apply IZR_le.
Qed.
Lemma fold_add_map {A B} (op : B -> B -> B) (f : A -> B) l s : fold_left op (map f l) s = fold_left (fun t a => op t (f a)) l s.
Proof. revert s. induction l; intros; cbn; [easy|]. apply IHl. Qed.

(** ** Inputs: prices and volumes of a reasonable size, exact as they come *)
Definition sane (x : f64) : Prop := fin x /\ (B2R x = 0 \/ p2 (-200) <= Rabs (B2R x) <= p2 200).
Lemma sane_grid x : sane x -> exists z, B2R x = IZR z * p2 (-252).
Proof.
  intros [F H]. destruct H as [->|[H _]]; [exists 0%Z; lra|]. destruct x as [s| | |s p e B]; try easy; [exists 0%Z; cbn; lra|].
  cbn [B2R] in *. assert (He : (-252 <= e)%Z).
  { destruct (Z_lt_le_dec e (-252)) as [L|]; [exfalso|easy]. rewrite <- F2R_Zabs in H.
    assert (Z.abs (SpecFloat.cond_Zopp s (Zpos p)) < 2 ^ 53)%Z.
    { destruct (andb_prop _ _ B) as [C _]. unfold SpecFloat.canonical_mantissa in C. apply Zeq_bool_eq in C. rewrite abs_cond_Zopp. cbn [Z.abs].
      pose proof (Digits.Zdigits_correct radix2 (Zpos p)) as [_ D]. cbn [Z.abs] in D. eapply Z.lt_le_trans; [exact D|]. change (radix2 ^ Digits.Zdigits radix2 (Zpos p))%Z with (2 ^ Digits.Zdigits radix2 (Zpos p))%Z. apply Z.pow_le_mono_r; [lia|].
      rewrite <- Digits.Zpos_digits2_pos. unfold SpecFloat.fexp in C. change (SpecFloat.emin 53 1024) with (-1074)%Z in C. fold (Digits.digits2_pos p) in C. change (SpecFloat.digits2_pos p) with (Digits.digits2_pos p) in C. lia. }
    apply (Rle_not_lt _ _ H). unfold F2R. cbn [Fnum Fexp]. apply Rlt_le_trans with (IZR (2 ^ 53) * p2 e).
    - apply Rmult_lt_compat_r; [apply bpow_gt_0|now apply IZR_lt].
    - change (IZR (2 ^ 53)) with (IZR (radix2 ^ 53)). rewrite IZR_Zpower by easy. rewrite <- bpow_plus. apply bpow_le. lia. }
  exists (SpecFloat.cond_Zopp s (Zpos p) * 2 ^ (e + 252))%Z. rewrite (F2R_change_exp radix2 (-252) _ e) by easy. unfold F2R. cbn [Fnum Fexp]. now replace (e - -252)%Z with (e + 252)%Z by ring.
Qed.
Lemma near_sub m a b : sane a -> sane b -> B2R b <= B2R a -> near 1 (-252) 201 (@fsub f64 (B64 m) a b) (Fin (B2R a - B2R b)).
Proof.
  intros Ha Hb L r [= <-]. destruct (sane_grid a Ha) as [y Ey]. destruct (sane_grid b Hb) as [z Ez]. destruct Ha as [Fa Ra], Hb as [Fb Rb].
  assert (Ea : Rabs (B2R a) <= p2 200) by (destruct Ra as [->|[_ ?]]; [rewrite Rabs_R0; apply bpow_ge_0|easy]).
  assert (Eb : Rabs (B2R b) <= p2 200) by (destruct Rb as [->|[_ ?]]; [rewrite Rabs_R0; apply bpow_ge_0|easy]).
  apply Rabs_le_inv in Ea, Eb. replace (p2 201) with (2 * p2 200) by (change 201%Z with (1 + 200)%Z; rewrite bpow_plus; reflexivity).
  assert (Rg : B2R a - B2R b = 0 \/ p2 (-252) <= B2R a - B2R b <= 2 * p2 200).
  { destruct (Req_dec (B2R a - B2R b) 0) as [|N]; [now left|right]. split; [|lra]. rewrite Ey, Ez in *. pose proof (bpow_gt_0 radix2 (-252)).
    assert (1 <= y - z)%Z. { cut (z < y)%Z; [lia|]. apply lt_IZR. nra. } apply IZR_le in H0. rewrite minus_IZR in H0. nra. }
  replace (2 * p2 200) with (p2 201) in * by (change 201%Z with (1 + 200)%Z; rewrite bpow_plus; reflexivity).
  apply rnd_tol with (z := B2R a - B2R b) (k := 0%nat); try easy; try lra.
  - now apply xval_sub.
  - pose proof (rnd_add_err a (Bopp b)) as E. rewrite B2R_Bopp in E. exact E.
  - unfold tol. cbn. lra.
Qed.
Lemma near_in x : sane x -> 0 <= B2R x -> near 0 (-200) 200 x (Fin (B2R x)).
Proof. intros [F R] P. apply near_exact; try easy. now rewrite Rabs_pos_eq in R. Qed.
Lemma near_dist m a b : sane a -> sane b -> near 1 (-252) 201 (@fabs f64 (B64 m) (@fsub f64 (B64 m) a b)) (Fin (Rabs (B2R a - B2R b))).
Proof.
  intros Ha Hb. destruct (Rle_lt_dec (B2R b) (B2R a)) as [L|L].
  - pose proof (near_sub m a b Ha Hb L) as N. intros r [= <-]. destruct (N _ eq_refl) as (F & P & R & B). rewrite (Rabs_pos_eq (B2R a - B2R b)) by lra.
    cbn [fabs B64] in *. split; [now rewrite is_finite_Babs|]. split; [easy|]. split; [easy|]. rewrite B2R_Babs, Rabs_pos_eq; [easy|]. pose proof (tol_pos 1). nra.
  - pose proof (near_sub m b a Hb Ha ltac:(lra)) as N. intros r [= <-]. destruct (N _ eq_refl) as (F & P & R & B). rewrite (Rabs_left1 (B2R a - B2R b)) by lra.
    replace (- (B2R a - B2R b)) with (B2R b - B2R a) by ring. cbn [fabs fsub B64] in *.
    assert (V : xval (Babs (Bminus mode_NE a b)) = xval (Bminus mode_NE b a)).
    { rewrite xval_abs, (xval_fin _ F), xval_sub by (apply Ha || apply Hb). pose proof (xval_sub b a (proj1 Hb) (proj1 Ha)) as S. rewrite (xval_fin _ F) in S.
      rewrite xabs_fl. symmetry. rewrite S. f_equal. rewrite Rabs_left1; lra. }
    rewrite (xval_fin _ F) in V. apply xval_fin_inv in V as [F' V']. split; [easy|]. split; [easy|]. split; [easy|]. now rewrite V'.
Qed.
