(** * F64Win: rounding errors of the weighted averages over a window. *)

From Coq Require Import Reals Lra Lia ZArith NArith.
From Flocq Require Import Core Relative Plus_error IEEE754.BinarySingleNaN.
From Verif Require Import Spec BaseFacts Tac SmoothShape XReal RSpec XRFacts Bars DistReal B64 F64 Smooth SmoothVals Pascal SmoothReal F64Facts F64Range F64Err F64Rec.
Local Unset Implicit Arguments.
Local Open Scope R_scope.

(** A weight: finite, near the fraction [r] it stands for. *)
Definition weighs (w : f64) (r : R) : Prop := fin w /\ 0 <= r <= 1 /\ Rabs (B2R w - r) <= 3 * uu * r.

Lemma product_near (v w : f64) r M : sized M -> fin v -> Rabs (B2R v) <= M -> weighs w r ->
  near (Bmult mode_NE v w) (r * B2R v) (5 * uu * r * M + eta).
Proof.
  intros HM Fv Hv (Fw & Hr & Hw). pose proof uu_pos as P. pose proof uu_le as PL. pose proof (sized_pos M HM) as PM.
  assert (A : Rabs (B2R v * B2R w - r * B2R v) <= 3 * uu * r * M).
  { replace (B2R v * B2R w - r * B2R v) with ((B2R w - r) * B2R v) by ring. rewrite Rabs_mult. apply Rmult_le_compat; auto using Rabs_pos. }
  assert (W : Rabs (B2R w) <= r * (1 + 3 * uu)).
  { replace (B2R w) with ((B2R w - r) + r) by ring. eapply Rle_trans; [apply Rabs_triang|]. rewrite (Rabs_pos_eq r) by lra. lra. }
  assert (B : Rabs (B2R v * B2R w) <= M * (r * (1 + 3 * uu))). { rewrite Rabs_mult. apply Rmult_le_compat; auto using Rabs_pos. }
  assert (C : M * (r * (1 + 3 * uu)) <= 2 * M). { assert (r * (1 + 3 * uu) <= 2) by nra. nra. }
  assert (D : Rabs (B2R v * B2R w) <= bpow radix2 1000).
  { eapply Rle_trans; [exact B|]. eapply Rle_trans; [exact C|]. destruct HM as [_ HM]. apply Rle_trans with (bpow radix2 1 * bpow radix2 900).
    - change (bpow radix2 1) with 2. lra.
    - rewrite <- bpow_plus. apply bpow_le. lia. }
  pose proof (xval_mul v w Fv Fw) as V. rewrite fl_fin in V by now apply rnd_lim. apply xval_fin_inv in V as [F1 V]. split; [exact F1|]. rewrite V.
  replace (rnd (B2R v * B2R w) - r * B2R v) with ((rnd (B2R v * B2R w) - B2R v * B2R w) + (B2R v * B2R w - r * B2R v)) by ring.
  eapply Rle_trans; [apply Rabs_triang|]. pose proof (rnd_err (B2R v * B2R w)) as R1.
  assert (uu * Rabs (B2R v * B2R w) <= uu * (M * (r * (1 + 3 * uu)))) by (apply Rmult_le_compat_l; lra).
  assert (uu * (M * (r * (1 + 3 * uu))) <= 2 * uu * r * M). { replace (uu * (M * (r * (1 + 3 * uu)))) with (uu * M * r * (1 + 3 * uu)) by ring. assert (0 <= uu * M * r) by (repeat apply Rmult_le_pos; lra). nra. }
  lra.
Qed.

Definition prods (vs ws : list f64) : list f64 := map (fun '(v, w) => Bmult mode_NE v w) (combine vs ws).
Lemma products_near M rs : sized M -> forall (ws vs : list f64), Forall2 weighs ws rs -> length vs = length rs ->
  (forall v, In v vs -> fin v /\ Rabs (B2R v) <= M) ->
  let ps := prods vs ws in
  length ps = length rs /\ (forall p, In p ps -> fin p) /\
  asum ps <= Rsum rs * (M * (1 + 5 * uu)) + INR (length rs) * eta /\
  Rabs (rsum ps - wsum rs (@map f64 R B2R vs)) <= Rsum rs * (5 * uu * M) + INR (length rs) * eta.
Proof.
  intros HM. pose proof (sized_pos M HM) as PM. pose proof uu_pos as P. induction rs as [|r rs IH]; intros ws vs HW L HV; inversion HW as [|w ? ws' ? H1 H2]; subst; cbv zeta.
  - destruct vs; [|easy]. cbn. unfold asum, rsum, wsum, Rsum. cbn. rewrite Rminus_0_r, Rabs_R0. repeat split; try easy; lra.
  - destruct vs as [|v vs]; [easy|]. cbn [length] in *. destruct (IH ws' vs H2 ltac:(congruence) ltac:(intros; apply HV; now right)) as (L1 & F1 & A1 & E1). cbv zeta in *.
    destruct (HV v (or_introl eq_refl)) as [Fv Hv]. pose proof (product_near v w r M HM Fv Hv H1) as [F2 E2]. set (p := Bmult mode_NE v w) in *. change (prods (v :: vs) (w :: ws')) with (p :: prods vs ws'). set (ps := prods vs ws') in *.
    split; [cbn [length]; now f_equal|]. split; [intros q [<-|Hq]; auto|]. destruct H1 as (_ & Hr & _).
    unfold asum, rsum, wsum in *. cbn [map combine fst snd]. rewrite !Rsum_cons, S_INR. cbn [fst snd] in *. split.
    + assert (Rabs (B2R p) <= r * M + (5 * uu * r * M + eta)); [|lra].
      replace (B2R p) with ((B2R p - r * B2R v) + r * B2R v) by ring. eapply Rle_trans; [apply Rabs_triang|].
      assert (Rabs (r * B2R v) <= r * M) by (rewrite Rabs_mult, (Rabs_pos_eq r) by lra; apply Rmult_le_compat_l; lra). lra.
    + match goal with |- Rabs (_ + ?a - (_ + ?b)) <= _ => replace (B2R p + a - (r * B2R v + b)) with ((B2R p - r * B2R v) + (a - b)) by ring end.
      eapply Rle_trans; [apply Rabs_triang|]. lra.
Qed.

(** The computed weighted sum of a window of [n] values of size at most [M]. *)
Lemma dot_near m M rs (ws vs : list f64) : sized M -> small_window (length rs) -> (0 < length rs)%nat -> Forall2 weighs ws rs -> Rsum rs = 1 ->
  length vs = length rs -> (forall v, In v vs -> fin v /\ Rabs (B2R v) <= M) ->
  near (@dot f64 (B64 m) ws vs) (wsum rs (@map f64 R B2R vs)) (8 * INR (length rs) * uu * M).
Proof.
  intros HM Hn Hp HW HS L HV. destruct (products_near M rs HM ws vs HW L HV) as (L1 & F1 & A1 & E1). cbv zeta in *.
  unfold dot. change (map (fun '(value, weight) => @fmul f64 (B64 m) value weight) (combine vs ws)) with (prods vs ws).
  set (ps := prods vs ws) in *. set (n := length rs) in *. rewrite HS in A1, E1.
  pose proof uu_pos as P. pose proof uu_le as PL. pose proof (sized_pos M HM) as PM. pose proof (eta_small M HM) as EM. pose proof (small_uu n Hn) as U. pose proof (sized_mul M n HM Hn) as SM.
  assert (P1 : 1 <= INR n) by (change 1 with (INR 1); apply le_INR; lia). pose proof (pow_uu n ltac:(lra)) as PW. pose proof (asum_nonneg ps) as A0. pose proof (powge n) as P2.
  assert (N : INR n * eta <= INR n * (uu * M * / 1024)) by (apply Rmult_le_compat_l; lra).
  assert (Q : INR n * uu * M <= / 8192 * M) by (apply Rmult_le_compat_r; lra).
  assert (A2 : asum ps <= 2 * M). { assert (M * (1 + 5 * uu) <= M * (1 + 5 * / 1024)) by (apply Rmult_le_compat_l; lra). nra. }
  destruct (fsum_err m ps F1) as [F2 E2].
  { rewrite L1. apply Rle_lt_trans with (bpow radix2 1000); [|apply bpow_lt; lia]. apply Rle_trans with (2 * (2 * M)); [apply Rmult_le_compat; lra|]. nra. }
  rewrite L1 in E2. split; [exact F2|].
  replace (B2R (@fsum f64 (B64 m) ps) - wsum rs (@map f64 R B2R vs)) with ((B2R (@fsum f64 (B64 m) ps) - rsum ps) + (rsum ps - wsum rs (@map f64 R B2R vs))) by ring.
  eapply Rle_trans; [apply Rabs_triang|].
  assert (T : ((1 + uu) ^ n - 1) * asum ps <= 2 * INR n * uu * (asum ps)) by (apply Rmult_le_compat_r; lra).
  assert (UM : 0 < uu * M) by (apply Rmult_lt_0_compat; lra).
  assert (K : uu * M <= INR n * uu * M) by (rewrite Rmult_assoc; apply (Rmult_le_compat_r (uu * M)) in P1; lra).
  (* asum ps <= M + 5uuM + n eta <= 1.005 M *)
  assert (A3 : asum ps <= 17 / 16 * M). { assert (uu * M <= / 1024 * M) by (apply Rmult_le_compat_r; lra). lra. }
  assert (2 * INR n * uu * asum ps <= 2 * INR n * uu * (17 / 16 * M)). { apply Rmult_le_compat_l; [|lra]. assert (0 <= INR n * uu) by (apply Rmult_le_pos; lra). lra. }
  lra.
Qed.

(** The quotient of a nearly exact dividend and an exact divisor is a weight. *)
Lemma quotient_weighs (x y : f64) a b : fin x -> fin y -> Rabs (B2R x - a) <= 9 / 8 * uu * a -> B2R y = b -> 0 < a <= b -> bpow radix2 (-80) <= a / b ->
  weighs (Bdiv mode_NE x y) (a / b).
Proof.
  intros Fx Fy Hx Hy Hab Hr. pose proof uu_pos as P. pose proof uu_le as PL. assert (Pb : 0 < / b) by (apply Rinv_0_lt_compat; lra).
  set (r := a / b) in *. assert (R1 : r <= 1). { unfold r. apply Rmult_le_reg_r with b; [lra|]. unfold Rdiv. rewrite Rmult_assoc, Rinv_l by lra. lra. }
  assert (R0 : 0 < r) by (unfold r, Rdiv; apply Rmult_lt_0_compat; lra).
  assert (Q : Rabs (B2R x / b - r) <= 9 / 8 * uu * r).
  { unfold r. replace (B2R x / b - a / b) with ((B2R x - a) * / b) by (unfold Rdiv; ring). rewrite Rabs_mult, (Rabs_pos_eq (/ b)) by lra.
    replace (9 / 8 * uu * (a / b)) with (9 / 8 * uu * a * / b) by (unfold Rdiv; ring). apply Rmult_le_compat_r; lra. }
  assert (Q2 : Rabs (B2R x / b) <= r * (1 + 9 / 8 * uu)).
  { replace (B2R x / b) with ((B2R x / b - r) + r) by ring. eapply Rle_trans; [apply Rabs_triang|]. rewrite (Rabs_pos_eq r) by lra. lra. }
  assert (E : eta <= uu * r * / 1024).
  { apply Rle_trans with (uu * bpow radix2 (-80) * / 1024); [|apply Rmult_le_compat_r; [lra|]; apply Rmult_le_compat_l; lra].
    unfold eta, uu. replace (/ 1024) with (bpow radix2 (-10)) by (simpl; lra). rewrite <- !bpow_plus. apply bpow_le. lia. }
  pose proof (xval_div x y Fx Fy ltac:(rewrite Hy; lra)) as D. rewrite Hy in D. rewrite fl_fin in D.
  2:{ apply rnd_lim. apply Rle_trans with 2; [nra|]. change 2 with (bpow radix2 1). apply bpow_le. lia. }
  apply xval_fin_inv in D as [FD VD]. split; [exact FD|]. split; [lra|]. rewrite VD.
  replace (rnd (B2R x / b) - r) with ((rnd (B2R x / b) - B2R x / b) + (B2R x / b - r)) by ring. eapply Rle_trans; [apply Rabs_triang|].
  pose proof (rnd_err (B2R x / b)) as R2. assert (uu * Rabs (B2R x / b) <= uu * (r * (1 + 9 / 8 * uu))) by (apply Rmult_le_compat_l; lra).
  assert (0 < uu * r) by (apply Rmult_lt_0_compat; lra). nra.
Qed.

Lemma wsum_div ws vs d : d <> 0 -> wsum (map (fun x => x / d) ws) vs = wsum ws vs / d.
Proof.
  intros Hd. revert vs. induction ws as [|w ws IH]; intros vs; unfold wsum in *; cbn [map combine]; [rewrite Rsum_nil; field; easy|].
  destruct vs as [|v vs]; cbn [map combine]; [rewrite Rsum_nil; field; easy|]. rewrite !Rsum_cons, IH. cbn [fst snd]. field. easy.
Qed.
Lemma Rsum_div ws d : Rsum (map (fun x => x / d) ws) = Rsum ws / d.
Proof. induction ws as [|w ws IH]; cbn [map]; [rewrite Rsum_nil; unfold Rdiv; ring|]. rewrite !Rsum_cons, IH. unfold Rdiv. ring. Qed.

(** A weighted mean of a window, from the weights [ws] that stand for the
    fractions [rs / sum rs]. *)
Lemma wmean_near m M rs n (ws vs : list f64) : length rs = n -> sized M -> small_window n -> (0 < n)%nat -> 0 < Rsum rs ->
  Forall2 weighs ws (map (fun r => r / Rsum rs) rs) -> length vs = n -> (forall v, In v vs -> fin v /\ Rabs (B2R v) <= M) ->
  near (@wdot f64 (B64 m) ws vs) (wmean rs (@map f64 R B2R vs)) (8 * INR n * uu * M).
Proof.
  intros <- HM Hn Hp HS HW L HV. unfold wmean. rewrite <- wsum_div by lra. set (qs := map _ rs) in *.
  assert (L2 : length qs = length rs) by apply map_length. rewrite <- L2 in *. apply dot_near; auto. unfold qs. rewrite Rsum_div. field. lra.
Qed.

Lemma in_sub_firstn {A} n (l : list A) y : In y (firstn n l) -> In y l.
Proof. intros H. rewrite <- (firstn_skipn n l). apply in_or_app. now left. Qed.
Lemma in_sub_skipn {A} n (l : list A) y : In y (skipn n l) -> In y l.
Proof. intros H. rewrite <- (firstn_skipn n l). apply in_or_app. now right. Qed.
Lemma win_in_data {A} w (l : list A) i x : In x (win w l i) -> In x l.
Proof. unfold win. intros H. apply in_sub_firstn in H. now apply in_sub_skipn in H. Qed.
Lemma Forall2_maps {A B C} (P : B -> C -> Prop) (f : A -> B) (g : A -> C) l : (forall x, In x l -> P (f x) (g x)) -> Forall2 P (map f l) (map g l).
Proof. induction l as [|a l IH]; intros H; cbn [map]; constructor; [apply H; now left|apply IH; intros; apply H; now right]. Qed.
Lemma even_pair z : exists k, (z * z + z = 2 * k)%Z.
Proof. destruct (Z.Even_or_Odd z) as [[k ->]|[k ->]]; [exists (2 * k * k + k)%Z|exists (2 * k * k + 3 * k + 1)%Z]; ring. Qed.

(** [wma]: windows up to 94 million bars, over which the denominator is exact. *)
Theorem wma_f64_error m (data : list f64) w M : (0 < w)%nat -> (N.of_nat w * N.of_nat w + N.of_nat w <= 2 ^ 53)%N -> sized M ->
  (forall x, In x data -> fin x /\ Rabs (B2R x) <= M) ->
  exists o, @wma f64 (B64 m) data w = Ok o /\
  forall i, (w - 1 <= i < length data)%nat -> exists x, nth_error o i = Some x /\
    near x (wmean (map INR (seq 1 w)) (@map f64 R B2R (win w data i))) (8 * INR w * uu * M).
Proof.
  intros Hw Hb HM H. destruct (@wma_values f64 (B64 m) data w Hw ltac:(nia)) as (o & E & (_ & _ & V)). exists o. split; [exact E|].
  intros i Hi. specialize (V i Hi). cbv beta in V. eexists. split; [exact V|].
  set (rs := map INR (seq 1 w)). assert (Lr : length rs = w) by (unfold rs; now rewrite map_length, seq_length).
  assert (P : 0 < INR w) by now apply lt_0_INR. assert (P1 : 1 <= INR w) by (change 1 with (INR 1); apply le_INR; lia).
  set (S := (N.of_nat w * N.of_nat w + N.of_nat w)%N) in *.
  assert (RS : RN S = INR w * INR w + INR w). { unfold RN, S. rewrite N2Z.inj_add, N2Z.inj_mul, nat_N_Z, plus_IZR, mult_IZR, <- INR_IZR_INZ. reflexivity. }
  assert (D : Rsum rs = RN S / 2) by (unfold rs; rewrite Rsum_seq, RS; field).
  assert (HS : (Z.abs (Z.of_N S) <= 2 ^ 53)%Z) by lia.
  assert (Ub : RN S <= bpow radix2 53). { unfold RN. change (bpow radix2 53) with (IZR (2 ^ 53)). apply IZR_le. lia. }
  apply wmean_near; auto.
  - unfold small_window. nia.
  - rewrite D, RS. nra.
  - rewrite D. unfold rs. rewrite map_map. apply Forall2_maps. intros k Hk. apply in_seq in Hk.
    cbn [fdiv fofN flit B64]. pose proof (xval_of_Z _ HS) as V1. apply xval_fin_inv in V1 as [F1 V1].
    pose proof (xval_of_Z 2 ltac:(easy)) as V2. apply xval_fin_inv in V2 as [F2 V2].
    pose proof (xval_div _ _ F1 F2 ltac:(rewrite V2; lra)) as DV. rewrite V1, V2 in DV.
    destruct (even_pair (Z.of_nat w)) as [z Hz]. assert (Sz : Z.of_N S = (2 * z)%Z) by (unfold S; lia).
    replace (IZR (Z.of_N S) / 2) with (IZR z) in DV by (rewrite Sz, mult_IZR; field). rewrite fl_Z in DV by lia. apply xval_fin_inv in DV as [F3 V3].
    assert (Kz : (Z.of_nat k <= 2 ^ 53)%Z) by nia. pose proof (xval_nat m k Kz) as V4. apply xval_fin_inv in V4 as [F4 V4].
    assert (Q : IZR z = RN S / 2) by (unfold RN; rewrite Sz, mult_IZR; field). rewrite <- Q.
    assert (K1 : 1 <= INR k) by (change 1 with (INR 1); apply le_INR; lia). assert (K2 : INR k <= INR w) by (apply le_INR; lia).
    assert (Z1 : INR k <= IZR z) by (rewrite Q, RS; nra). pose proof uu_pos as PU.
    apply quotient_weighs; auto.
    + rewrite V4. replace (INR k - INR k) with 0 by ring. rewrite Rabs_R0. nra.
    + lra.
    + apply Rmult_le_reg_r with (IZR z); [lra|]. unfold Rdiv. rewrite Rmult_assoc, Rinv_l, Rmult_1_r by lra. apply Rle_trans with (2 := K1).
      apply Rle_trans with (bpow radix2 (-80) * bpow radix2 53); [apply Rmult_le_compat_l; [apply bpow_ge_0|lra]|]. rewrite <- bpow_plus. change 1 with (bpow radix2 0). apply bpow_le. lia.
  - apply length_win; lia.
  - intros v Hv. apply H. eapply win_in_data, Hv.
Qed.

Lemma binom_ge_1 n : forall k, (k <= n)%nat -> (1 <= binom n k)%N.
Proof.
  induction n as [|n IH]; intros [|k] H; cbn [binom]; try lia. specialize (IH k ltac:(lia)). lia.
Qed.
Lemma binom_le_pow n : forall k, (binom n k <= 2 ^ N.of_nat n)%N.
Proof.
  induction n as [|n IH]; intros [|k]; cbn [binom]; try (cbn; lia).
  rewrite Nat2N.inj_succ, N.pow_succ_r'. pose proof (IH k). pose proof (IH (S k)). lia.
Qed.

(** [pwma] *)
Theorem pwma_f64_error m (data : list f64) w M : (0 < w < 64)%nat -> sized M ->
  (forall x, In x data -> fin x /\ Rabs (B2R x) <= M) ->
  exists o, @pwma f64 (B64 m) data w = Ok o /\
  forall i, (w - 1 <= i < length data)%nat -> exists x, nth_error o i = Some x /\
    near x (wmean (map (fun k => IZR (Z.of_N (binom (w - 1) k))) (seq 0 w)) (@map f64 R B2R (win w data i))) (8 * INR w * uu * M).
Proof.
  intros Hw HM H. destruct (@pwma_values f64 (B64 m) data w Hw) as (o & E & (_ & _ & V)). exists o. split; [exact E|].
  intros i Hi. specialize (V i Hi). cbv beta in V. eexists. split; [exact V|].
  set (rs := map (fun k => IZR (Z.of_N (binom (w - 1) k))) (seq 0 w)). assert (Lr : length rs = w) by (unfold rs; now rewrite map_length, seq_length).
  set (S := (2 ^ N.of_nat (w - 1))%N) in *.
  assert (D : Rsum rs = RN S). { unfold rs, S. rewrite <- Rsum_binom. replace (Datatypes.S (w - 1)) with w by lia. reflexivity. }
  assert (S1 : (1 <= S)%N). { unfold S. pose proof (N.pow_nonzero 2 (N.of_nat (w - 1)) ltac:(lia)). lia. }
  assert (S2 : (S <= 2 ^ 63)%N) by (unfold S; apply N.pow_le_mono_r; lia).
  assert (RS : RN S = bpow radix2 (Z.of_nat (w - 1))). { unfold RN, S. rewrite N2Z.inj_pow, nat_N_Z. change (Z.of_N 2) with (radix2 : Z). apply IZR_Zpower. lia. }
  assert (P1 : 1 <= RN S) by (unfold RN; apply (IZR_le 1); lia). pose proof uu_pos as PU.
  apply wmean_near; auto; try lia.
  - unfold small_window. lia.
  - rewrite D. lra.
  - rewrite D. unfold rs. rewrite map_map. apply Forall2_maps. intros k Hk. apply in_seq in Hk.
    assert (B1 : (1 <= binom (w - 1) k)%N) by (apply binom_ge_1; lia). assert (B2 : (binom (w - 1) k <= S)%N) by apply binom_le_pow.
    cbn [fdiv fofN B64]. set (a := binom (w - 1) k) in *.
    assert (RA : 1 <= RN a) by (unfold RN; apply (IZR_le 1); lia). assert (RB : RN a <= RN S) by (unfold RN; apply IZR_le; lia).
    assert (RL : RN S <= bpow radix2 63). { rewrite RS. apply bpow_le. lia. }
    assert (LIM : bpow radix2 63 <= bpow radix2 1000) by (apply bpow_le; lia).
    pose proof (xval_of_Z_gen (Z.of_N a)) as VA. rewrite fl_fin in VA by (apply rnd_lim; fold (RN a); rewrite Rabs_pos_eq; lra). apply xval_fin_inv in VA as [FA VA].
    pose proof (xval_of_Z_gen (Z.of_N S)) as VS. rewrite fl_fin in VS by (apply rnd_lim; fold (RN S); rewrite Rabs_pos_eq; lra). apply xval_fin_inv in VS as [FS VS].
    fold (RN a) in VA. fold (RN S) in VS. change (IZR (Z.of_N a)) with (RN a).
    apply quotient_weighs; auto.
    + rewrite VA. pose proof (rnd_err (RN a)) as R. pose proof eta_uu as EU. rewrite (Rabs_pos_eq (RN a)) in R by lra. assert (uu * / 1024 <= uu * RN a * / 8) by nra. lra.
    + rewrite VS, RS. apply round_generic; [apply valid_rnd_round_mode|]. apply generic_format_bpow. unfold SpecFloat.fexp, SpecFloat.emin. lia.
    + lra.
    + apply Rmult_le_reg_r with (RN S); [lra|]. unfold Rdiv. rewrite Rmult_assoc, Rinv_l, Rmult_1_r by lra. apply Rle_trans with (2 := RA).
      apply Rle_trans with (bpow radix2 (-80) * bpow radix2 63); [apply Rmult_le_compat_l; [apply bpow_ge_0|lra]|]. rewrite <- bpow_plus. change 1 with (bpow radix2 0). apply bpow_le. lia.
  - apply length_win; lia.
  - intros v Hv. apply H. eapply win_in_data, Hv.
Qed.

(** ** [fwma]: up to 76 bars the Fibonacci numbers and their sum are exact. *)
Definition holds (x : f64) (z : Z) : Prop := xval x = Fin (IZR z).
Lemma holds_add x y a b : holds x a -> holds y b -> (Z.abs (a + b) <= 2 ^ 53)%Z -> holds (Bplus mode_NE x y) (a + b).
Proof.
  unfold holds. intros Hx Hy H. apply xval_fin_inv in Hx as [Fx Vx]. apply xval_fin_inv in Hy as [Fy Vy].
  rewrite xval_add by easy. rewrite Vx, Vy, <- plus_IZR. now apply fl_Z.
Qed.
Definition fibZ (n : nat) : Z := Z.of_nat (fib n).
Lemma fibZ_SS n : fibZ (S (S n)) = (fibZ (S n) + fibZ n)%Z.
Proof. unfold fibZ. rewrite fib_SS. lia. Qed.
Lemma fibZ_nonneg n : (0 <= fibZ n)%Z. Proof. unfold fibZ. lia. Qed.
Lemma fibZ_mono a b : (a <= b)%nat -> (fibZ a <= fibZ b)%Z.
Proof.
  induction 1 as [|b H IH]; [lia|]. destruct b; [cbn; unfold fibZ in *; cbn in *; lia|]. rewrite fibZ_SS. pose proof (fibZ_nonneg b). lia.
Qed.
Lemma fibZ_iter n : snd (Nat.iter n (fun '(a, b) => (b, a + b)%Z) (0, 1)%Z) = fibZ (S n) /\ fst (Nat.iter n (fun '(a, b) => (b, a + b)%Z) (0, 1)%Z) = fibZ n.
Proof.
  induction n as [|n [IH1 IH2]]; [easy|]. cbn [Nat.iter nat_rect]. destruct (Nat.iter n _ _) as [a b] eqn:E. unfold Nat.iter in *. cbn [fst snd] in *. rewrite E. cbn [fst snd]. rewrite fibZ_SS. lia.
Qed.
Lemma fibZ_78 : (fibZ 78 <= 2 ^ 53)%Z.
Proof. rewrite <- (proj2 (fibZ_iter 78)). now vm_compute. Qed.

Lemma fib_seq_exact m n : (n + 2 <= 78)%nat -> Forall2 holds (@fib_seq f64 (B64 m) n) (map fibZ (seq 1 (n + 2))).
Proof.
  intros Hn. unfold fib_seq. replace (n + 2)%nat with (S (S n)) by lia. cbn [seq map]. change (fibZ 1) with 1%Z. change (fibZ 2) with 1%Z.
  assert (L1 : holds (@flit f64 (B64 m) 1 1) 1) by (apply xval_of_Z; easy).
  constructor; [exact L1|]. constructor; [exact L1|].
  assert (H : forall k q a x y, (k + 2 + q <= 78)%nat -> holds x (fibZ (S k)) -> holds y (fibZ (S (S k))) ->
     Forall2 holds (scan (fun '(a, b) (_ : nat) => ((b, @fadd f64 (B64 m) a b), @fadd f64 (B64 m) a b)) (x, y) (seq a q)) (map fibZ (seq (S (S (S k))) q))).
  { intros k q. revert k. induction q as [|q IH]; intros k a x y Hb Hx Hy; [constructor|]. cbn [seq scan map].
    assert (Z : holds (@fadd f64 (B64 m) x y) (fibZ (S (S (S k))))).
    { rewrite (fibZ_SS (S k)), Z.add_comm. apply holds_add; try easy. rewrite Z.add_comm, <- fibZ_SS. pose proof (fibZ_mono (S (S (S k))) 78 ltac:(lia)). pose proof fibZ_78. pose proof (fibZ_nonneg (S (S (S k)))). lia. }
    constructor; [exact Z|]. apply IH; [lia|easy|exact Z]. }
  apply (H 0%nat n 0%nat); [lia|exact L1|exact L1].
Qed.
Lemma sum_fibZ n : forall k, (fold_left Z.add (map fibZ (seq (S k) n)) (fibZ (S (S k)) - 1) = fibZ (S (S k) + n) - 1)%Z.
Proof.
  induction n as [|n IH]; intros k; cbn [seq map fold_left]; [now rewrite Nat.add_0_r|].
  replace (fibZ (S (S k)) - 1 + fibZ (S k))%Z with (fibZ (S (S (S k))) - 1)%Z by (rewrite (fibZ_SS (S k)); lia). rewrite IH. f_equal. f_equal. lia.
Qed.
Lemma fold_holds m xs zs : Forall2 holds xs zs -> forall x z, holds x z -> (0 <= z)%Z -> Forall (fun y => 0 <= y)%Z zs -> (fold_left Z.add zs z <= 2 ^ 53)%Z ->
  holds (fold_left (fun d y => @fadd f64 (B64 m) d y) xs x) (fold_left Z.add zs z).
Proof.
  induction 1 as [|y q xs zs Hy H IH]; intros x z Hx Hz Hp Hb; [easy|]. cbn [fold_left] in *. apply Forall_cons_iff in Hp as [Hq Hp].
  assert (M : forall l a, Forall (fun y => 0 <= y)%Z l -> (a <= fold_left Z.add l a)%Z).
  { clear. induction l as [|b l IH]; intros a H; cbn [fold_left]; [lia|]. apply Forall_cons_iff in H as [? H]. specialize (IH (a + b)%Z H). lia. }
  pose proof (M zs (z + q)%Z Hp). apply IH; auto; [|lia]. apply holds_add; auto. lia.
Qed.
Theorem fwma_f64_error m (data : list f64) w M : (2 <= w <= 76)%nat -> sized M ->
  (forall x, In x data -> fin x /\ Rabs (B2R x) <= M) ->
  exists o, @fwma f64 (B64 m) data w = Ok o /\
  forall i, (w - 1 <= i < length data)%nat -> exists x, nth_error o i = Some x /\
    near x (wmean (map (fun k => INR (fib k)) (seq 1 w)) (@map f64 R B2R (win w data i))) (8 * INR w * uu * M).
Proof.
  intros Hw HM H. destruct (@fwma_values f64 (B64 m) data w ltac:(lia)) as (o & E & (_ & _ & V)). exists o. split; [exact E|].
  intros i Hi. specialize (V i Hi). cbv beta in V. eexists. split; [exact V|].
  set (rs := map (fun k => INR (fib k)) (seq 1 w)). assert (Lr : length rs = w) by (unfold rs; now rewrite map_length, seq_length).
  assert (PS : 0 < Rsum rs) by (apply Rsum_fib_pos; lia).
  pose proof (fib_seq_exact m (w - 2) ltac:(lia)) as FS. replace (w - 2 + 2)%nat with w in FS by lia.
  set (S := (fibZ (w + 2) - 1)%Z).
  assert (RS : Rsum rs = IZR S).
  { assert (G : forall l a, fold_left Z.add l a = (a + fold_right Z.add 0 l)%Z) by (induction l as [|b l IH]; intros a; cbn; [lia|]; rewrite IH; lia).
    assert (Q : IZR (fold_right Z.add 0%Z (map fibZ (seq 1 w))) = Rsum rs).
    { unfold rs. clear. induction (seq 1 w) as [|k l IH]; [reflexivity|]. cbn [map fold_right]. rewrite Rsum_cons, plus_IZR, IH. unfold fibZ. now rewrite <- INR_IZR_INZ. }
    rewrite <- Q. f_equal. pose proof (sum_fibZ w 0) as SF. rewrite G in SF. change (fibZ 2) with 1%Z in SF. unfold S. replace (w + 2)%nat with (2 + w)%nat by lia. lia. }
  assert (S1 : (S <= 2 ^ 53)%Z) by (unfold S; pose proof (fibZ_mono (w + 2) 78 ltac:(lia)); pose proof fibZ_78; lia).
  assert (D : holds (fold_left (fun d x => @fadd f64 (B64 m) d x) (skipn 2 (@fib_seq f64 (B64 m) (w - 2))) (@flit f64 (B64 m) 2 1)) S).
  { destruct w as [|[|w]]; try lia. cbn [seq map] in FS. inversion FS as [|x1 ? r1 ? H1 FS1]; subst. inversion FS1 as [|x2 ? r2 ? H2 FS2]; subst. cbn [skipn].
    pose proof (sum_fibZ w 2) as SF. change (fibZ 4) with 3%Z in SF. change (3 - 1)%Z with 2%Z in SF.
    replace S with (fold_left Z.add (map fibZ (seq 3 w)) 2)%Z by (rewrite SF; unfold S; f_equal; f_equal; lia).
    apply fold_holds; auto.
    - apply xval_of_Z. easy.
    - lia.
    - apply Forall_forall. intros z Hz. apply in_map_iff in Hz as (k & <- & _). apply fibZ_nonneg.
    - rewrite SF. replace (4 + w)%nat with (Datatypes.S (Datatypes.S w) + 2)%nat by lia. exact S1. }
  unfold fib_weights. cbv zeta. set (den := fold_left _ _ _) in *. apply xval_fin_inv in D as [FD VD].
  pose proof uu_pos as PU. apply wmean_near; auto; try lia.
  - unfold small_window. lia.
  - rewrite RS. unfold rs. rewrite map_map.
    assert (Ub : IZR S <= bpow radix2 53) by (change (bpow radix2 53) with (IZR (2 ^ 53)); now apply IZR_le).
    assert (K : forall k, In k (seq 1 w) -> 1 <= INR (fib k) <= IZR S).
    { intros k Hk. assert (Hk' := Hk). apply in_seq in Hk'. split; [change 1 with (INR 1); apply le_INR; pose proof (fib_pos k); lia|]. rewrite <- RS. unfold rs. clear - Hk.
      induction (seq 1 w) as [|a l IH]; [easy|]. cbn [map]. rewrite Rsum_cons. assert (P : 0 <= Rsum (map (fun k => INR (fib k)) l)) by (clear; induction l as [|b l IH]; cbn [map]; [rewrite Rsum_nil; lra|rewrite Rsum_cons; pose proof (pos_INR (fib b)); lra]).
      destruct Hk as [->|Hk]; [lra|]. specialize (IH Hk). pose proof (pos_INR (fib a)). lra. }
    clear - FS FD VD K Ub PU. revert FS K. generalize (@fib_seq f64 (B64 m) (w - 2)), (seq 1 w). intros l ks. revert l. induction ks as [|k ks IH]; intros l FS K; inversion FS as [|x ? ? ? Hx FS']; subst; cbn [map]; constructor.
    + destruct (K k (or_introl eq_refl)) as [K1 K2]. apply xval_fin_inv in Hx as [Fx Vx]. unfold fibZ in Vx. rewrite <- INR_IZR_INZ in Vx.
      apply quotient_weighs; auto.
      * rewrite Vx. replace (INR (fib k) - INR (fib k)) with 0 by ring. rewrite Rabs_R0. nra.
      * lra.
      * apply Rmult_le_reg_r with (IZR S); [lra|]. unfold Rdiv. rewrite Rmult_assoc, Rinv_l, Rmult_1_r by lra. apply Rle_trans with (2 := K1).
        apply Rle_trans with (bpow radix2 (-80) * bpow radix2 53); [apply Rmult_le_compat_l; [apply bpow_ge_0|lra]|]. rewrite <- bpow_plus. change 1 with (bpow radix2 0). apply bpow_le. lia.
    + apply IH; [easy|]. intros j Hj. apply K. now right.
  - apply length_win; lia.
  - intros v Hv. apply H. eapply win_in_data, Hv.
Qed.

(** ** [sma] and [trima], the mean of means *)
Theorem sma_f64_near m (data : list f64) w M : (0 < w)%nat -> small_window w -> sized M ->
  exists o, @sma f64 (B64 m) data w = Ok o /\ length o = Nat.max (w - 1) (length data) /\
  forall i, (w - 1 <= i < length data)%nat -> (forall x, In x (win w data i) -> fin x /\ Rabs (B2R x) <= M) ->
  exists x, nth_error o i = Some x /\ near x (mean (@map f64 R B2R (win w data i))) (5 * INR w * uu * M).
Proof.
  intros Hw Hs HM. destruct (@sma_values f64 (B64 m) data w Hw) as (o & E & (L & _ & V)). exists o. split; [exact E|]. split; [exact L|].
  intros i Hi Hx. specialize (V i Hi). cbv beta in V. eexists. split; [exact V|].
  assert (Lw : length (win w data i) = w) by (apply length_win; lia). pose proof (mean_near m (win w data i) M) as N. rewrite Lw in N. apply N; auto.
Qed.

Lemma Forall2_by_nth {A B} (P : A -> B -> Prop) l : forall l', length l = length l' -> (forall i a b, nth_error l i = Some a -> nth_error l' i = Some b -> P a b) -> Forall2 P l l'.
Proof.
  induction l as [|a l IH]; intros [|b l'] L H; try easy; constructor; [now apply (H 0%nat)|]. apply IH; [cbn in L; lia|]. intros i. apply (H (S i)).
Qed.
Lemma nth_win {A} w (l : list A) i j : (w - 1 <= i < length l)%nat -> (j < w)%nat -> nth_error (win w l i) j = nth_error l (i + 1 - w + j).
Proof. intros Hi Hj. unfold win. rewrite nth_error_firstn by lia. now rewrite nth_error_skipn. Qed.

Theorem trima_f64_error m (data : list f64) w M : (0 < w)%nat -> small_window w -> sized M -> M <= bpow radix2 890 ->
  (forall x, In x data -> fin x /\ Rabs (B2R x) <= M) ->
  exists o, @trima f64 (B64 m) data w = Ok o /\
  forall i, (w - 1 <= i < length data)%nat -> exists x, nth_error o i = Some x /\
    near x (let w1 := ((w + 1) / 2)%nat in let w2 := (w + 1 - w1)%nat in
            mean (map (fun j => mean (@map f64 R B2R (win w1 data j))) (seq (i + 1 - w2) w2))) (6 * (INR w + 1) * uu * M).
Proof.
  intros Hw Hs HM HM2 H. unfold trima.
  replace (if (w mod 2 =? 0)%nat then (div_ceil2 w + 1)%nat else div_ceil2 w) with (trima_w2 w).
  2:{ unfold trima_w2. rewrite <- Nat.bit0_mod, Nat.bit0_odd, <- Nat.negb_even. now destruct (Nat.even w). }
  fold (trima_w1 w). pose proof (trima_windows w) as T. pose proof (div_ceil2_spec w) as D. fold (trima_w1 w) in D.
  set (w1 := trima_w1 w) in *. set (w2 := trima_w2 w) in *.
  assert (P : (0 < w1 <= w)%nat) by lia. assert (P2 : (0 < w2 <= w)%nat) by (unfold w2, trima_w2 in *; destruct (Nat.even w) eqn:Ev; [|lia]; apply Nat.even_spec in Ev as [q Ev]; lia).
  pose proof uu_pos as PU. pose proof (sized_pos M HM) as PM. pose proof (small_uu w Hs) as U.
  assert (I1 : INR w1 <= INR w) by (apply le_INR; lia). assert (I2 : INR w2 <= INR w) by (apply le_INR; lia).
  assert (I3 : INR w1 + INR w2 = INR w + 1) by (rewrite <- plus_INR, T, plus_INR; reflexivity). pose proof (pos_INR w1) as I4. pose proof (pos_INR w2) as I5.
  set (e := 5 * INR w1 * uu * M).
  assert (E0 : 0 <= e <= / 1024 * M).
  { unfold e. split; [repeat apply Rmult_le_pos; lra|]. apply Rmult_le_compat_r; [lra|]. assert (INR w1 * uu <= INR w * uu) by (apply Rmult_le_compat_r; lra). lra. }
  assert (HM' : sized (M + e)). { apply sized_grow; try easy; [lra|]. eapply Rle_trans; [exact HM2|]. apply bpow_le. lia. }
  destruct (sma_f64_near m data w1 M) as (o1 & E1 & L1 & V1); try easy; [unfold small_window in *; lia|]. rewrite E1. cbn [bind].
  destruct (sma_f64_near m o1 w2 (M + e)) as (o & E & L & V); try easy; [unfold small_window in *; lia|]. exists o. split; [exact E|].
  intros i Hi. change ((w + 1) / 2)%nat with w1. cbv zeta. replace (w + 1 - w1)%nat with w2 by lia.
  assert (N1 : forall j, (w1 - 1 <= j < length data)%nat -> exists x, nth_error o1 j = Some x /\ near x (mean (@map f64 R B2R (win w1 data j))) e).
  { intros j Hj. apply V1; [easy|]. intros x Hx. apply H. eapply win_in_data, Hx. }
  assert (B1 : forall j, (w1 - 1 <= j < length data)%nat -> Rabs (mean (@map f64 R B2R (win w1 data j))) <= M).
  { intros j Hj. apply mean_abs.
    - intros Q. apply (f_equal (@length R)) in Q. rewrite map_length in Q. assert (LW : length (win w1 data j) = w1) by (apply length_win; lia). rewrite LW in Q. change (length (@nil R)) with 0%nat in Q. lia.
    - intros y Hy. apply in_map_iff in Hy as (x & <- & Hx). apply H. eapply win_in_data, Hx. }
  assert (Lo : length o1 = length data) by lia.
  assert (W2 : forall q, (q < w2)%nat -> exists x, nth_error (win w2 o1 i) q = Some x /\ near x (mean (@map f64 R B2R (win w1 data (i + 1 - w2 + q)))) e).
  { intros q Hq. rewrite nth_win by lia. apply N1. lia. }
  assert (Lw : length (win w2 o1 i) = w2) by (apply length_win; lia).
  destruct (V i ltac:(lia)) as (x & Ex & Nx).
  { intros x Hx. apply In_nth_error in Hx as [q Hq]. assert (Hq' : (q < w2)%nat) by (rewrite <- Lw; apply nth_error_Some; congruence).
    destruct (W2 q Hq') as (y & Ey & Ny). rewrite Hq in Ey. injection Ey as <-. split; [apply Ny|]. eapply near_abs; [exact Ny|]. apply B1. lia. }
  exists x. split; [exact Ex|].
  eapply near_weaken; [eapply near_shift; [exact Nx|]|].
  - apply (mean_perturb e); [lra|]. apply Forall2_by_nth; [rewrite !map_length, seq_length; exact Lw|].
    intros q a b Ha Hb. rewrite nth_error_map in Ha, Hb. destruct (nth_error (win w2 o1 i) q) as [x'|] eqn:Eq; [|easy]. injection Ha as <-.
    assert (Hq' : (q < w2)%nat) by (rewrite <- Lw; apply nth_error_Some; congruence).
    rewrite nth_error_seq in Hb by easy. injection Hb as <-. destruct (W2 q Hq') as (y & Ey & Ny). rewrite Eq in Ey. injection Ey as <-. apply Ny.
  - unfold e. assert (uu * e <= uu * (/ 1024 * M)) by (apply Rmult_le_compat_l; lra). unfold e in *.
    assert (0 <= INR w2 * uu * M) by (repeat apply Rmult_le_pos; lra). assert (0 <= INR w1 * uu * M) by (repeat apply Rmult_le_pos; lra).
    replace (5 * INR w2 * uu * (M + 5 * INR w1 * uu * M)) with (5 * (INR w2 * uu * M) + 5 * INR w2 * (uu * (5 * INR w1 * uu * M))) by ring.
    assert (INR w2 * (uu * (5 * INR w1 * uu * M)) <= INR w2 * (uu * (/ 1024 * M))) by (apply Rmult_le_compat_l; lra).
    replace (6 * (INR w + 1) * uu * M) with (6 * (INR w1 * uu * M) + 6 * (INR w2 * uu * M)) by (rewrite <- I3; ring). lra.
Qed.
