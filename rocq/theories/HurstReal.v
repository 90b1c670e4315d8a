(** * HurstReal: the Hurst exponent (trend.rs:1085-1181) in exact arithmetic. *)

From Coq Require Import Reals Lra Lia.
From Flocq Require Import Core.Raux.
From Verif Require Import Spec BaseFacts Tac SmoothShape VolShape TrendShape MomShape XReal RSpec XRFacts SmoothVals SmoothReal SmoothReal2 Convex DistReal Select OrderStat Bars VolumeReal VolatReal Momentum MomReal TrendReal.
Local Unset Implicit Arguments.
Local Open Scope R_scope.

Definition hurst_size (m k : nat) : nat := Z.to_nat (Zfloor (INR m * Rpower 10 (INR k / 4))).
Lemma x_hurst_size m k : (0 < m)%nat -> @ftoN xr XR (fpow (flit 10 1) (Fin (log10 (INR m) + INR k / 4))) = Z.to_N (Z.min (Z.of_N two64 - 1) (Zfloor (INR m * Rpower 10 (INR k / 4)))).
Proof.
  intros Hm. assert (L10 : 0 < ln 10) by (rewrite <- ln_1; apply ln_increasing; lra). assert (0 < INR m) by now apply INR_pos.
  rewrite x_lit. cbn. unfold xpow. rewrite (proj2 (Rltb_true 0 10)) by lra. unfold xtoN. rewrite Ztrunc_floor by (unfold Rpower; left; apply exp_pos).
  rewrite Rpower_plus. replace (Rpower 10 (log10 (INR m))) with (INR m); [easy|]. unfold Rpower, log10. replace (ln (INR m) / ln 10 * ln 10) with (ln (INR m)) by (field; lra). now rewrite exp_ln.
Qed.
Lemma hurst_size_unbounded m w : (0 < m)%nat -> (w <= hurst_size m (4 * w))%nat.
Proof.
  intros Hm. unfold hurst_size. assert (INR w <= INR m * Rpower 10 (INR (4 * w) / 4)).
  { replace (INR (4 * w) / 4) with (INR w) by (rewrite mult_INR; cbn; field). rewrite Rpower_pow by lra. assert (1 <= INR m) by (change 1 with (INR 1); apply le_INR; lia).
    assert (INR w <= 10 ^ w). { clear. induction w; [cbn; lra|]. rewrite S_INR. cbn [pow]. assert (1 <= 10 ^ w) by (apply pow_R1_Rle; lra). lra. } assert (0 <= INR w) by apply pos_INR. nra. }
  assert (Z.of_nat w <= Zfloor (INR m * Rpower 10 (INR (4 * w) / 4)))%Z; [|lia]. apply Zfloor_lub. now rewrite <- INR_IZR_INZ.
Qed.
(** The loop that builds the sizes stops: sizes m 10^(k/4), rounded down, below the window. *)
Theorem hurst_sizes_real m w : (0 < m)%nat -> (Z.of_nat w < Z.of_N two64)%Z ->
  exists K, (K <= 4 * w)%nat /\ (forall k, (k < K)%nat -> (hurst_size m k < w)%nat) /\ (w <= hurst_size m K)%nat /\
    forall fuel, (K < fuel)%nat -> hurst_sizes fuel w (flog10 (fofnat m : xr)) = Some (map (fun k => N.of_nat (hurst_size m k)) (seq 0 K)).
Proof.
  intros Hm Hw. pose proof (hurst_size_unbounded m w Hm) as U. assert (0 < INR m) by now apply INR_pos.
  assert (G : forall j k, (w <= hurst_size m (k + j))%nat -> exists K, (K <= j)%nat /\ (forall i, (i < K)%nat -> (hurst_size m (k + i) < w)%nat) /\ (w <= hurst_size m (k + K))%nat /\
     forall fuel, (K < fuel)%nat -> hurst_sizes fuel w (Fin (log10 (INR m) + INR k / 4)) = Some (map (fun k => N.of_nat (hurst_size m k)) (seq k K))).
  { assert (ST : forall k fuel, hurst_sizes (S fuel) w (Fin (log10 (INR m) + INR k / 4)) = if (w <=? hurst_size m k)%nat then Some [] else match hurst_sizes fuel w (Fin (log10 (INR m) + INR (S k) / 4)) with None => None | Some r => Some (N.of_nat (hurst_size m k) :: r) end).
    { intros k fuel. cbn [hurst_sizes]. cbv zeta. rewrite x_hurst_size by easy. unfold hurst_size. assert (0 <= Zfloor (INR m * Rpower 10 (INR k / 4)))%Z by (apply Zfloor_lub; unfold Rpower; apply Rmult_le_pos; [lra|left; apply exp_pos]).
      set (z := Zfloor (INR m * Rpower 10 (INR k / 4))) in *. clearbody z. rewrite x_frac, x_add. replace (log10 (INR m) + INR k / 4 + 25 / 100) with (log10 (INR m) + INR (S k) / 4) by (rewrite S_INR; field). revert Hw. generalize two64. intros t Hw.
      destruct (N.leb_spec (N.of_nat w) (Z.to_N (Z.min (Z.of_N t - 1) z))), (Nat.leb_spec w (Z.to_nat z)); try lia; [easy|]. destruct (hurst_sizes _ _ _); [|easy]. do 2 f_equal. lia. }
    induction j as [|j IH]; intros k Hk.
    - exists 0%nat. rewrite Nat.add_0_r in *. split; [lia|]. split; [lia|]. split; [easy|]. intros [|fuel] Hf; [lia|]. rewrite ST. now rewrite (proj2 (Nat.leb_le _ _) Hk).
    - destruct (Nat.leb_spec w (hurst_size m k)) as [Z|Z].
      + exists 0%nat. rewrite Nat.add_0_r. split; [lia|]. split; [lia|]. split; [easy|]. intros [|fuel] Hf; [lia|]. rewrite ST. now rewrite (proj2 (Nat.leb_le _ _) Z).
      + destruct (IH (S k)) as (K & K1 & K2 & K3 & K4); [now replace (S k + j)%nat with (k + S j)%nat by lia|]. exists (S K). split; [lia|]. split.
        * intros [|i] Hi; [now rewrite Nat.add_0_r|]. replace (k + S i)%nat with (S k + i)%nat by lia. apply K2. lia.
        * split; [now replace (k + S K)%nat with (S k + K)%nat by lia|]. intros [|fuel] Hf; [lia|]. rewrite ST. rewrite (proj2 (Nat.leb_gt _ _) Z), K4 by lia. reflexivity. }
  destruct (G (4 * w)%nat 0%nat U) as (K & K1 & K2 & K3 & K4). exists K. split; [easy|]. split; [exact K2|]. split; [exact K3|]. intros fuel Hf. rewrite <- (K4 fuel Hf). f_equal. rewrite x_nat. cbn. unfold xlog, xmap. rewrite (proj2 (Rltb_true 0 _)) by easy. f_equal. unfold log10. field. apply Rgt_not_eq. rewrite <- ln_1. apply ln_increasing; lra.
Qed.
Lemma drift_bound c B k : (forall x, In x c -> Rabs x <= B) -> (0 < length c)%nat -> (k <= length c)%nat -> Rabs (drift c k) <= B * (2 * INR (length c)).
Proof.
  intros HB Hc Hk. assert (B0 : 0 <= B). { destruct c as [|a c]; cbn in Hc; [lia|]. specialize (HB a (or_introl eq_refl)). pose proof (Rabs_pos a). lra. }
  assert (MB : - B <= mean c <= B). { apply mean_bounds; [destruct c; cbn in *; [lia|easy]|]. intros x Hx. specialize (HB x Hx). revert HB. unfold Rabs. destruct (Rcase_abs _); lra. }
  assert (G : forall l : list R, (forall x, In x l -> Rabs x <= 2 * B) -> Rabs (Rsum l) <= 2 * B * INR (length l)).
  { clear. induction l as [|a l IH]; intros H; [rewrite Rsum_nil, Rabs_R0; cbn; lra|]. rewrite Rsum_cons. cbn [length]. rewrite S_INR. pose proof (Rabs_triang a (Rsum l)). specialize (IH (fun x Hx => H x (or_intror Hx))). specialize (H a (or_introl eq_refl)). lra. }
  unfold drift. eapply Rle_trans; [apply G|].
  - intros x Hx. apply (In_firstn_le k (length (map (fun x => x - mean c) c))) in Hx; [|rewrite map_length; lia]. rewrite firstn_all in Hx. apply in_map_iff in Hx as (y & <- & Hy). specialize (HB y Hy). revert HB. unfold Rabs. destruct (Rcase_abs y), (Rcase_abs (y - mean c)); lra.
  - rewrite firstn_length, map_length, Nat.min_l by easy. assert (INR k <= INR (length c)) by now apply le_INR. nra.
Qed.
Lemma spread_nonzero c x y : In x c -> In y c -> x <> y -> Rsum (map (fun y => (y - mean c) ^ 2) c) <> 0.
Proof.
  intros Hx Hy N Z. assert (E : forall z, In z c -> z = mean c); [|apply N; rewrite (E x Hx), (E y Hy) at 1; rewrite <- (E y Hy); easy].
  intros z Hz. assert ((z - mean c) ^ 2 = 0); [|nra]. apply (Rsum_zero (map (fun y => (y - mean c) ^ 2) c)); [intros t Ht; apply in_map_iff in Ht as (u & <- & _); apply pow2_ge_0|exact Z|now apply (in_map (fun y => (y - mean c) ^ 2))].
Qed.
Lemma rmap_of_map {A B C} (f : B -> result C) (g : A -> B) l : rmap f (map g l) = rmap (fun x => f (g x)) l.
Proof. induction l as [|a l IH]; cbn; [easy|]. now rewrite IH. Qed.
(** [hurst]: the slope, over the sub-window sizes, of the logarithm of the mean
    rescaled range against the logarithm of the size.  The hypotheses: no
    stretch of [m] consecutive prices is constant, and prices are far from the
    limits of the format (the code starts its extremes at f64::MIN and f64::MAX). *)
Definition hurst_sub (m w K : nat) : list nat := map (hurst_size m) (seq 0 K) ++ [w].
Lemma hurst_size_mono m j k : (j <= k)%nat -> (hurst_size m j <= hurst_size m k)%nat.
Proof.
  intros H. unfold hurst_size. assert (Zfloor (INR m * Rpower 10 (INR j / 4)) <= Zfloor (INR m * Rpower 10 (INR k / 4)))%Z; [|lia]. apply Zfloor_le. apply Rmult_le_compat_l; [apply pos_INR|]. apply Rle_Rpower; [lra|]. assert (INR j <= INR k) by now apply le_INR. lra.
Qed.
Lemma hurst_size_0 m : hurst_size m 0 = m.
Proof. unfold hurst_size. replace (INR 0 / 4) with 0 by (cbn; lra). rewrite Rpower_O, Rmult_1_r, INR_IZR_INZ by lra. rewrite Zfloor_IZR. lia. Qed.
Theorem hurst_real (d : nat -> R) n w mw : let m := unwrap_or mw 4%nat in (2 <= m < w)%nat -> (Z.of_nat w < Z.of_N two64)%Z ->
  (forall k, (k < n)%nat -> Rabs (d k) * (2 * INR w) <= max_f64) ->
  (forall a, (a + m <= n)%nat -> exists j k, (a <= j < a + m)%nat /\ (a <= k < a + m)%nat /\ d j <> d k) ->
  exists K, (0 < K <= 4 * w)%nat /\ (forall k, (k < K)%nat -> (hurst_size m k < w)%nat) /\ (w <= hurst_size m K)%nat /\
  forall fuel, (K < fuel)%nat -> exists o, hurst fuel (xseries d n) w mw = Some (Ok o) /\
    aligned o (Nat.max (w - 1) n) (w - 1) NaN (fun i => Fin (slope (map (fun x => log10 (INR x)) (hurst_sub m w K))
        (map (fun x => log10 (mean (map rescaled (chunks x (last_bars w d i))))) (hurst_sub m w K)))).
Proof.
  intros m Hm Hw HB HV. destruct (hurst_sizes_real m w) as (K & K1 & K2 & K3 & K4); [lia|easy|]. exists K.
  assert (K0 : (0 < K)%nat). { destruct K; [|lia]. rewrite hurst_size_0 in K3. lia. }
  split; [lia|]. split; [exact K2|]. split; [exact K3|]. intros fuel Hf.
  unfold hurst. fold m. rewrite (K4 fuel Hf). unfold usub. rewrite (proj2 (Nat.leb_le 1 w)) by lia. cbn [bind]. unfold xseries, series at 1. rewrite rwindows_bars by lia. cbn [bind]. rewrite map_map.
  rewrite (map_ext (fun x => N.to_nat (N.of_nat (hurst_size m x))) (hurst_size m)) by (intros; apply Nat2N.id). fold (hurst_sub m w K).
  pose (val := fun i => slope (map (fun x => log10 (INR x)) (hurst_sub m w K)) (map (fun x => log10 (mean (map rescaled (chunks x (last_bars w d i))))) (hurst_sub m w K))).
  assert (SZ : forall x, In x (hurst_sub m w K) -> (m <= x <= w)%nat).
  { intros x Hx. unfold hurst_sub in Hx. apply in_app_iff in Hx as [Hx|[<-|[]]]; [|lia]. apply in_map_iff in Hx as (k & <- & Hk). apply in_seq in Hk. pose proof (hurst_size_mono m 0 k ltac:(lia)) as Z. rewrite hurst_size_0 in Z. specialize (K2 k ltac:(lia)). lia. }
  match goal with |- context [rmap ?f ?l] => assert (E : rmap f l = Ok (map (fun i => Fin (val i)) (seq (w - 1) (n + 1 - w)))) end.
  { replace (0 + w - 1)%nat with (w - 1)%nat by lia. rewrite rmap_of_map. apply (@rmap_Ok_map _ _ _ (fun i => Fin (val i))). intros i Hi. apply in_seq in Hi.
    assert (LB : last_bars w (fun k => Fin (d k)) i = map Fin (last_bars w d i)) by (unfold last_bars; now rewrite map_map). rewrite LB.
    assert (LL : length (last_bars w d i) = w) by (unfold last_bars; now rewrite map_length, seq_length).
    apply hurst_win_real.
    - intros x Hx. specialize (SZ x Hx). lia.
    - intros x c Hx Hc. specialize (SZ x Hx). unfold chunks in Hc. rewrite LL in Hc. apply in_map_iff in Hc as (j & <- & Hj). apply in_seq in Hj.
      pose proof (Nat.div_mod w x ltac:(lia)). assert (S j * x <= w)%nat by nia. unfold last_bars. rewrite skipn_bars, firstn_bars. rewrite Nat.min_l by nia.
      set (a := (i + 1 - w + j * x)%nat). assert (a + x <= n)%nat by (unfold a; nia). split.
      + destruct (HV a) as (p & q & Hp & Hq & N); [lia|]. apply (spread_nonzero _ (d p) (d q)); try easy; apply in_map, in_seq; lia.
      + intros k Hk. assert (0 < INR w) by (apply INR_pos; lia). eapply Rle_trans; [apply (drift_bound _ (max_f64 / (2 * INR w)))|].
        * intros y Hy. apply in_map_iff in Hy as (t & <- & Ht). apply in_seq in Ht. specialize (HB t ltac:(lia)). apply (Rmult_le_reg_r (2 * INR w)); [lra|]. unfold Rdiv. rewrite Rmult_assoc, Rinv_l by lra. lra.
        * rewrite map_length, seq_length. lia.
        * rewrite map_length, seq_length. lia.
        * rewrite map_length, seq_length. assert (INR x <= INR w) by (apply le_INR; lia). assert (0 <= max_f64) by (pose proof (HB a ltac:(lia)); pose proof (Rabs_pos (d a)); nra).
          assert (0 <= max_f64 / (2 * INR w)) by (apply Rdiv_nonneg; lra || nra). apply Rle_trans with (max_f64 / (2 * INR w) * (2 * INR w)); [nra|]. right. field. lra.
    - exists m, w. split; [|split; [|lia]].
      + unfold hurst_sub. apply in_app_iff. left. rewrite <- (hurst_size_0 m) at 1. apply in_map, in_seq. lia.
      + unfold hurst_sub. apply in_app_iff. right. now left. }
  rewrite E. cbn [bind]. eexists. split; [reflexivity|]. apply (aligned_bars (NaN) (fun i => Fin (val i)) (w - 1)). lia.
Qed.
