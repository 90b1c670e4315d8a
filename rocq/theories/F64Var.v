(** * F64Var: rounding error of the variance. *)

From Coq Require Import Reals Lra Lia ZArith NArith.
From Flocq Require Import Core Relative Plus_error IEEE754.BinarySingleNaN.
From Verif Require Import Spec BaseFacts Tac SmoothShape XReal RSpec XRFacts Bars DistReal B64 F64 Smooth SmoothVals Distribution F64Facts F64Range F64Err F64Rec F64Win.
Local Unset Implicit Arguments.
Local Open Scope R_scope.

(** A sum of nearly known terms. *)
Lemma fsum_near m (qs : list f64) rs e B n : Forall2 (fun q r => near q r e) qs rs -> length rs = n -> (0 < n)%nat -> small_window n ->
  (forall r, In r rs -> Rabs r <= B) -> 0 <= e -> 2 * (INR n * (B + e)) <= bpow radix2 1000 ->
  near (@fsum f64 (B64 m) qs) (Rsum rs) (INR n * e + 2 * INR n * uu * (INR n * (B + e))).
Proof.
  intros HQ <- Hn Hs HB He HL. assert (L : length qs = length rs) by (clear - HQ; induction HQ; cbn; congruence). set (n := length rs) in *.
  assert (F1 : forall q, In q qs -> fin q). { clear - HQ. induction HQ as [|q r qs rs H HQ IH]; [easy|]. intros p [<-|Hp]; [apply H|now apply IH]. }
  assert (A1 : asum qs <= INR n * (B + e) /\ Rabs (rsum qs - Rsum rs) <= INR n * e).
  { unfold n. clear - HQ HB He. induction HQ as [|q r qs rs H HQ IH].
    - unfold asum, rsum, Rsum. cbn. rewrite Rminus_0_r, Rabs_R0. lra.
    - destruct (IH ltac:(intros; apply HB; now right)) as [I1 I2]. unfold asum, rsum in *. cbn [map]. rewrite !Rsum_cons. cbn [length]. rewrite S_INR.
      pose proof (near_abs _ _ _ _ H (HB r (or_introl eq_refl))) as NA. destruct H as [_ H]. split; [lra|].
      match goal with |- Rabs (_ + ?a - (_ + ?b)) <= _ => replace (B2R q + a - (r + b)) with ((B2R q - r) + (a - b)) by ring end.
      eapply Rle_trans; [apply Rabs_triang|]. lra. }
  destruct A1 as [A1 A2]. pose proof uu_pos as PU. pose proof (small_uu n Hs) as U.
  assert (P1 : 1 <= INR n) by (change 1 with (INR 1); apply le_INR; lia). pose proof (pow_uu n ltac:(lra)) as PW. pose proof (powge n) as PG. pose proof (asum_nonneg qs) as A0.
  destruct (fsum_err m qs F1) as [F2 E2].
  { rewrite L. apply Rle_lt_trans with (bpow radix2 1000); [|apply bpow_lt; lia]. eapply Rle_trans; [|exact HL]. apply Rmult_le_compat; lra. }
  rewrite L in E2. fold n in E2. split; [exact F2|].
  replace (B2R (@fsum f64 (B64 m) qs) - Rsum rs) with ((B2R (@fsum f64 (B64 m) qs) - rsum qs) + (rsum qs - Rsum rs)) by ring. eapply Rle_trans; [apply Rabs_triang|].
  assert (((1 + uu) ^ n - 1) * asum qs <= 2 * INR n * uu * (INR n * (B + e))) by (apply Rmult_le_compat; lra). lra.
Qed.

(** The same arithmetic, whose sums start at +0. *)
Definition from_zero (m : libm) : libm :=
  {| lm_ln := lm_ln m; lm_exp := lm_exp m; lm_log2 := lm_log2 m; lm_log10 := lm_log10 m; lm_cos := lm_cos m; lm_atan := lm_atan m; lm_pow := lm_pow m; lm_negsum0 := false |}.

Section Var.
  Variables (m : libm) (M : R) (w : nat).
  Hypotheses (Hw : (0 < w)%nat) (Hs : small_window w) (HM : sized M) (HX : sized (M * M)) (HM2 : M <= bpow radix2 440).
  Let K := INR w * uu.
  Let X := M * M.
  Lemma var_win_near (l : list f64) : length l = w -> (forall x, In x l -> fin x /\ Rabs (B2R x) <= M) ->
    near (@variance_win f64 (B64 m) w l) (var (@map f64 R B2R l)) (64 * INR w * uu * (M * M)).
  Proof.
    intros Hl H. pose proof uu_pos as PU. pose proof uu_le as UL. pose proof (sized_pos M HM) as PM. pose proof (small_uu w Hs) as UK. fold K in UK.
    assert (P1 : 1 <= INR w) by (change 1 with (INR 1); apply le_INR; lia).
    assert (KU : uu <= K) by (unfold K; nra). pose proof (eta_small _ HX) as ET. fold X in ET. assert (PX : 0 < X) by (unfold X; nra).
    assert (ET2 : eta <= K * X * / 1024). { eapply Rle_trans; [exact ET|]. apply Rmult_le_compat_r; [lra|]. apply Rmult_le_compat_r; lra. }
    assert (Hz : (Z.of_nat w <= 2 ^ 53)%Z) by (unfold small_window in Hs; lia).
    assert (BX : X <= bpow radix2 880). { unfold X. apply Rle_trans with (bpow radix2 440 * bpow radix2 440); [apply Rmult_le_compat; lra|]. rewrite <- bpow_plus. apply bpow_le. lia. }
    pose proof (small_INR w Hs) as WB.
    assert (BWX : INR w * X <= bpow radix2 920). { apply Rle_trans with (bpow radix2 40 * bpow radix2 880); [apply Rmult_le_compat; lra|]. rewrite <- bpow_plus. apply bpow_le. lia. }
    assert (B10 : 1024 * bpow radix2 920 <= bpow radix2 1000). { change 1024 with (bpow radix2 10). rewrite <- bpow_plus. apply bpow_le. lia. }
    assert (BM : M <= bpow radix2 920). { eapply Rle_trans; [exact HM2|]. apply bpow_le. lia. }
    assert (BX' : X <= bpow radix2 920). { eapply Rle_trans; [exact BX|]. apply bpow_le. lia. }
    (* the mean *)
    pose proof (mean_near m l M) as N. rewrite Hl in N. specialize (N Hw Hs HM H). set (mu := Bdiv mode_NE (@fsum f64 (B64 m) l) (@fofnat f64 (B64 m) w)) in *. set (r := mean (@map f64 R B2R l)) in *.
    set (e0 := 5 * INR w * uu * M) in *. assert (E0 : e0 = 5 * (K * M)) by (unfold e0, K; ring).
    assert (KM : K * M <= / 8192 * M) by (apply Rmult_le_compat_r; lra). assert (KM0 : 0 < K * M) by nra. assert (UM : uu * M <= K * M) by (apply Rmult_le_compat_r; lra). assert (UM0 : 0 < uu * M) by nra.
    assert (R0 : Rabs r <= M). { apply mean_abs; [destruct l; [cbn in Hl; lia|easy]|]. intros y Hy. apply in_map_iff in Hy as (x & <- & Hx). now apply H. }
    (* the deviations and their squares *)
    set (ed := 0 + e0 + uu * (3 * M)). assert (ED : ed <= 8 * (K * M)) by (unfold ed; lra). assert (ED0 : 0 < ed) by (unfold ed; lra).
    set (eq := 2 * M * ed + 2 * M * ed + ed * ed + uu * (5 * X) + eta).
    assert (XM : X = M * M) by reflexivity. assert (KX : K * X = K * M * M) by (rewrite XM; ring). assert (UX : uu * X <= K * X) by (apply Rmult_le_compat_r; lra). assert (KX0 : 0 < K * X) by nra.
    assert (KX1 : K * X <= / 8192 * X) by (apply Rmult_le_compat_r; lra).
    assert (MD : M * ed <= 8 * (K * X)) by (rewrite KX; nra). assert (DD : ed * ed <= M * ed) by nra.
    assert (EQ : eq <= 48 * (K * X)) by (unfold eq; pose proof eta_pos; lra). assert (EQ0 : 0 <= eq) by (unfold eq; pose proof eta_pos; nra).
    assert (Q : forall x, In x l -> near (@powi2 f64 (B64 m) (@fsub f64 (B64 m) x mu)) ((B2R x - r) ^ 2) eq /\ Rabs ((B2R x - r) ^ 2) <= 4 * X).
    { intros x Hx. destruct (H x Hx) as [Fx Bx]. assert (D2 : Rabs (B2R x - r) <= 2 * M) by (eapply Rle_trans; [apply Rabs_triang|]; rewrite Rabs_Ropp; lra).
      pose proof (near_sub x mu (B2R x) r 0 e0 (3 * M) (near_exact x Fx) N ltac:(lra) ltac:(lra)) as ND. fold ed in ND.
      assert (L5 : (2 * M + ed) * (2 * M + ed) <= 5 * X). { rewrite XM. assert (ed <= / 512 * M) by lra. nra. }
      pose proof (near_mul _ _ _ _ ed ed (2 * M) (2 * M) (5 * X) ND ND D2 D2 L5 ltac:(lra)) as NQ. fold eq in NQ.
      replace ((B2R x - r) ^ 2) with ((B2R x - r) * (B2R x - r)) by ring. split; [exact NQ|]. rewrite Rabs_mult. rewrite XM. pose proof (Rabs_pos (B2R x - r)). nra. }
    (* the sum *)
    set (qs := map (fun x => @powi2 f64 (B64 m) (@fsub f64 (B64 m) x mu)) l). set (rs := map (fun x => (x - r) ^ 2) (@map f64 R B2R l)).
    assert (SM : @sum_dev2 f64 (B64 m) mu l = @fsum f64 (B64 (from_zero m)) qs).
    { unfold sum_dev2, fsum, qs. rewrite fold_left_map. reflexivity. }
    assert (F2 : Forall2 (fun q r => near q r eq) qs rs). { unfold qs, rs. rewrite map_map. apply Forall2_maps. intros x Hx. now apply Q. }
    assert (Lr : length rs = w) by (unfold rs; now rewrite !map_length).
    assert (Br : forall y, In y rs -> Rabs y <= 4 * X). { intros y Hy. unfold rs in Hy. rewrite map_map in Hy. apply in_map_iff in Hy as (x & <- & Hx). now apply Q. }
    assert (T1 : INR w * (4 * X + eq) <= 5 * (INR w * X)). { assert (eq <= X) by lra. nra. }
    pose proof (fsum_near (from_zero m) qs rs eq (4 * X) w F2 Lr Hw Hs Br EQ0 ltac:(lra)) as NS. rewrite <- SM in NS.
    (* the quotient *)
    set (es := INR w * eq + 2 * INR w * uu * (INR w * (4 * X + eq))) in *.
    assert (ES : es <= INR w * (58 * (K * X))).
    { unfold es. replace (2 * INR w * uu * (INR w * (4 * X + eq))) with (2 * K * (INR w * (4 * X + eq))) by (unfold K; ring).
      assert (2 * K * (INR w * (4 * X + eq)) <= 2 * K * (5 * (INR w * X))) by (apply Rmult_le_compat_l; lra).
      assert (INR w * eq <= INR w * (48 * (K * X))) by (apply Rmult_le_compat_l; lra).
      replace (2 * K * (5 * (INR w * X))) with (INR w * (10 * (K * X))) in * by ring. lra. }
    assert (RS : Rabs (Rsum rs) <= INR w * (4 * X)).
    { rewrite <- Lr. clear - Br PX. induction rs as [|y ys IH]; [cbn; rewrite Rabs_R0; lra|]. rewrite Rsum_cons. cbn [length]. rewrite S_INR. eapply Rle_trans; [apply Rabs_triang|].
      specialize (IH ltac:(intros; apply Br; now right)). specialize (Br y (or_introl eq_refl)). lra. }
    assert (LQ : Rabs (Rsum rs) + es <= INR w * (5 * X)). { assert (INR w * (58 * (K * X)) <= INR w * X) by (apply Rmult_le_compat_l; lra). lra. }
    pose proof (near_div_nat m _ _ _ w (INR w * (5 * X)) NS Hw Hz LQ ltac:(lra)) as ND.
    change (@variance_win f64 (B64 m) w l) with (Bdiv mode_NE (@sum_dev2 f64 (B64 m) mu l) (@fofnat f64 (B64 m) w)).
    replace (var (@map f64 R B2R l)) with (Rsum rs / INR w).
    2:{ unfold var, mean at 1. fold r. fold rs. now rewrite Lr. }
    eapply near_weaken; [exact ND|]. replace (INR w * (5 * X) / INR w) with (5 * X) by (field; lra).
    assert (es / INR w <= 58 * (K * X)). { apply Rmult_le_reg_r with (INR w); [lra|]. unfold Rdiv. rewrite Rmult_assoc, Rinv_l by lra. lra. }
    replace (64 * INR w * uu * (M * M)) with (64 * (K * X)) by (unfold K, X; ring). lra.
  Qed.
End Var.

Theorem variance_f64_error m (data : list f64) w M : (0 < w)%nat -> small_window w -> sized M -> sized (M * M) -> M <= bpow radix2 440 ->
  (forall x, In x data -> fin x /\ Rabs (B2R x) <= M) ->
  exists o, @variance f64 (B64 m) data w = Ok o /\
  forall i, (w - 1 <= i < length data)%nat -> exists x, nth_error o i = Some x /\
    near x (var (@map f64 R B2R (win w data i))) (64 * INR w * uu * (M * M)).
Proof.
  intros Hw Hs HM HX HM2 H. unfold variance. zap. eexists. split; [reflexivity|]. intros i Hi.
  pose proof (@aligned_windows f64 f64 (@fnan f64 (B64 m)) (@variance_win f64 (B64 m) w) data w Hw) as (_ & _ & V).
  eexists. split; [apply V; lia|]. apply var_win_near; auto.
  - apply length_win; lia.
  - intros x Hx. apply H. eapply win_in_data, Hx.
Qed.

(** The square root of the error: on a window that is nearly flat, far from 0, the
    deviation printed can be noise of relative size [sqrt uu] instead of [uu]. *)
Lemma sqrt_gap a b : 0 <= a -> 0 <= b -> Rabs (sqrt a - sqrt b) <= sqrt (Rabs (a - b)).
Proof.
  assert (G : forall a b, 0 <= a -> 0 <= b -> a <= b -> sqrt b - sqrt a <= sqrt (b - a)).
  { intros x y Hx Hy H. pose proof (sqrt_pos x). pose proof (sqrt_pos (y - x)). assert (sqrt y <= sqrt x + sqrt (y - x)); [|lra].
    apply Rsqr_incr_0_var; [|lra]. unfold Rsqr. rewrite sqrt_sqrt by easy. replace ((sqrt x + sqrt (y - x)) * (sqrt x + sqrt (y - x))) with (sqrt x * sqrt x + sqrt (y - x) * sqrt (y - x) + 2 * (sqrt x * sqrt (y - x))) by ring.
    rewrite !sqrt_sqrt by lra. nra. }
  intros Ha Hb. destruct (Rle_lt_dec a b) as [L|L].
  - pose proof (G a b Ha Hb L) as Q. pose proof (sqrt_le_1 a b Ha Hb L). rewrite (Rabs_left1 (sqrt a - sqrt b)), (Rabs_left1 (a - b)) by lra. replace (- (a - b)) with (b - a) by ring. lra.
  - pose proof (G b a Hb Ha ltac:(lra)) as Q. pose proof (sqrt_le_1 b a Hb Ha ltac:(lra)). rewrite (Rabs_pos_eq (sqrt a - sqrt b)), (Rabs_pos_eq (a - b)) by lra. lra.
Qed.
Theorem std_dev_f64_error m (data : list f64) w M : (0 < w)%nat -> small_window w -> sized M -> sized (M * M) -> M <= bpow radix2 440 ->
  (forall x, In x data -> fin x /\ Rabs (B2R x) <= M) ->
  exists o, @std_dev f64 (B64 m) data w = Ok o /\
  forall i, (w - 1 <= i < length data)%nat -> exists x, nth_error o i = Some x /\
    near x (sqrt (var (@map f64 R B2R (win w data i)))) (16 * sqrt (INR w * uu) * M).
Proof.
  intros Hw Hs HM HX HM2 H. unfold std_dev, std_dev_raw. zap. eexists. split; [reflexivity|]. intros i Hi.
  pose proof (@aligned_windows f64 f64 (@fnan f64 (B64 m)) (@std_dev_win f64 (B64 m) w) data w Hw) as (_ & _ & V).
  eexists. split; [apply V; lia|].
  pose proof (var_win_near m M w Hw Hs HM HX HM2 (win w data i) ltac:(apply length_win; lia) ltac:(intros x Hx; apply H; eapply win_in_data, Hx)) as [F E].
  change (@std_dev_win f64 (B64 m) w (win w data i)) with (Bsqrt mode_NE (@variance_win f64 (B64 m) w (win w data i))).
  set (v := @variance_win f64 (B64 m) w (win w data i)) in *. set (r := var _) in *.
  assert (Pr : 0 <= r) by apply var_nonneg.
  assert (Pv : 0 <= B2R v). { apply nn_fin; [exact F|]. apply nn_div; [apply nn_dev2|apply (pos_nat m); lia]. }
  pose proof (xval_sqrt v F Pv) as S. apply xval_fin_inv in S as [FS VS]. split; [exact FS|]. rewrite VS.
  pose proof uu_pos as PU. pose proof uu_le as UL. pose proof (sized_pos M HM) as PM. pose proof (small_uu w Hs) as UK.
  assert (P1 : 1 <= INR w) by (change 1 with (INR 1); apply le_INR; lia). set (K := INR w * uu) in *. assert (KU : uu <= K) by (unfold K; nra).
  pose proof (eta_small _ HM) as ET.
  assert (G : Rabs (sqrt (B2R v) - sqrt r) <= 8 * sqrt K * M).
  { eapply Rle_trans; [apply sqrt_gap; easy|]. replace (8 * sqrt K * M) with (sqrt (64 * INR w * uu * (M * M))).
    - apply sqrt_le_1; [apply Rabs_pos| |exact E]. eapply Rle_trans; [apply Rabs_pos|exact E].
    - replace (64 * INR w * uu * (M * M)) with (K * ((8 * M) * (8 * M))) by (unfold K; ring). rewrite sqrt_mult by nra. rewrite sqrt_square by lra. ring. }
  assert (R4 : r <= (2 * M) * (2 * M)).
  { assert (B : forall y, In y (@map f64 R B2R (win w data i)) -> Rabs y <= M) by (intros y Hy; apply in_map_iff in Hy as (x & <- & Hx); apply H; eapply win_in_data, Hx).
    assert (NE : @map f64 R B2R (win w data i) <> []).
    { intros Q. apply (f_equal (@length R)) in Q. rewrite map_length in Q. rewrite length_win in Q by lia. change (length (@nil R)) with 0%nat in Q. lia. }
    unfold r, var. set (l := @map f64 R B2R (win w data i)) in *. pose proof (mean_abs l M NE B) as MA.
    eapply Rle_trans; [apply Rle_abs|]. apply mean_abs; [destruct l; easy|]. intros y Hy. apply in_map_iff in Hy as (x & <- & Hx). specialize (B x Hx).
    assert (D2 : Rabs (x - mean l) <= 2 * M) by (eapply Rle_trans; [apply Rabs_triang|]; rewrite Rabs_Ropp; lra).
    replace ((x - mean l) ^ 2) with ((x - mean l) * (x - mean l)) by ring. rewrite Rabs_mult. pose proof (Rabs_pos (x - mean l)). nra. }
  assert (R5 : sqrt r <= 2 * M). { rewrite <- (sqrt_square (2 * M)) by lra. apply sqrt_le_1; try easy. nra. }
  assert (SK : uu <= sqrt K). { eapply Rle_trans; [exact KU|]. assert (K = sqrt K * sqrt K) by (symmetry; apply sqrt_sqrt; lra). pose proof (sqrt_pos K). assert (sqrt K <= 1) by (rewrite <- sqrt_1; apply sqrt_le_1; lra). nra. }
  pose proof (rnd_err (sqrt (B2R v))) as RE. rewrite (Rabs_pos_eq (sqrt (B2R v))) in RE by apply sqrt_pos.
  set (q := sqrt K) in *. assert (QM : uu * M <= q * M) by (apply Rmult_le_compat_r; lra).
  assert (SV : sqrt (B2R v) <= 2 * M + 8 * q * M). { pose proof (Rle_abs (sqrt (B2R v) - sqrt r)). lra. }
  assert (UV : uu * sqrt (B2R v) <= uu * (2 * M + 8 * q * M)) by (apply Rmult_le_compat_l; lra).
  assert (UQ : uu * (8 * q * M) <= / 1024 * (8 * q * M)). { apply Rmult_le_compat_r; [|lra]. assert (0 <= q) by apply sqrt_pos. assert (0 <= q * M) by (apply Rmult_le_pos; lra). lra. }
  replace (rnd (sqrt (B2R v)) - sqrt r) with ((rnd (sqrt (B2R v)) - sqrt (B2R v)) + (sqrt (B2R v) - sqrt r)) by ring. eapply Rle_trans; [apply Rabs_triang|]. assert (0 < uu * M) by (apply Rmult_lt_0_compat; lra). lra.
Qed.
