(** * ScaleVals: the unit of the prices and of the volumes does not matter.

    [scaled k l] is the series [l] in another unit: every finite value times
    [k].  Each theorem says what happens to the result when the prices are given
    in another unit (cents instead of euros, [c] times as many) and the volumes
    in yet another ([v] times as many): a price-like result changes its unit
    with the prices, an oscillator does not change at all.

    The theorems are about exact arithmetic ([XR]) and hold for all inputs,
    infinite and NaN values included, for all windows and lengths; a call that
    panics does so in every unit.  [Some]/[None] parameters stay as they are
    unless they are themselves amounts of money (the limit move of [si], the
    tick of [tvi], the tolerance of the entropies). *)

From Coq Require Import Reals Lra Lia.
From Verif Require Import Base BaseFacts Num XReal XRFacts Scale ScaleRel.
From Verif Require Import Distribution Regression Smooth Correlation Volatility Volume Trend Momentum.
From Verif Require Import Spec RSpec Bars VolatReal MomReal TrendReal.
Local Unset Implicit Arguments.
Local Open Scope R_scope.

(** Results with several columns. *)
Definition scaled2 (k : R) (l : list (xr * xr)) := map (fun '(a, b) => (sc k a, sc k b)) l.
Definition scaled3 (k : R) (l : list (xr * xr * xr)) := map (fun '(a, b, d) => (sc k a, sc k b, sc k d)) l.
Definition scaled4 (k : R) (l : list (xr * xr * xr * xr)) := map (fun '(a, b, d, e) => (sc k a, sc k b, sc k d, sc k e)) l.
Definition scaled5 (k : R) (l : list (xr * xr * xr * xr * xr)) :=
  map (fun '(a, b, d, e, f) => (sc k a, sc k b, sc k d, sc k e, sc k f)) l.

Section Back.
  Variables c v : R.
  Hypotheses (Hc : 0 < c) (Hv : 0 < v).
  Local Notation sim := (Scale.sim c v).
  Local Notation ss d := (Forall2 (Scale.sim c v d)).
  Local Notation P2 a b := (prel (sim a) (sim b)).
  Lemma unit_pp : unit c v (2, 0)%Z = c * c.
  Proof. unfold unit. cbn [fst snd]. rewrite powerRZ_O. change (powerRZ c 2) with (c * (c * 1)). ring. Qed.
  Lemma unit_p_v : unit c v (1, -1)%Z = c / v.
  Proof. unfold unit. cbn [fst snd]. rewrite powerRZ_1. change (powerRZ v (-1)) with (/ (v * 1)). field. lra. Qed.
  Lemma unit_ppv : unit c v (2, -1)%Z = c * c / v.
  Proof. unfold unit. cbn [fst snd]. change (powerRZ c 2) with (c * (c * 1)). change (powerRZ v (-1)) with (/ (v * 1)). field. lra. Qed.
  Lemma sim_p a b : sim dp a b -> b = sc c a.
  Proof. unfold Scale.sim. now rewrite unit_p. Qed.
  Lemma sim_0 a b : sim d0 a b -> b = a.
  Proof. apply s_eq. Qed.
  Lemma f2_eq {A} (R : A -> A -> Prop) (f : A -> A) l l' : (forall a a', R a a' -> a' = f a) -> Forall2 R l l' -> l' = map f l.
  Proof. intros E H. induction H; cbn; auto. f_equal; auto. Qed.
  Lemma t_eq {A} (a b : A) : a = b -> a = b. Proof. easy. Qed.
  Lemma t_l1_0 l l' : ss d0 l l' -> l' = l. Proof. apply f2_same0. Qed.
  Lemma t_l1_p l l' : ss dp l l' -> l' = scaled c l. Proof. intros H. apply f2_scaled in H. now rewrite unit_p in H. Qed.
  Lemma t_l1_p_v l l' : ss (1, -1)%Z l l' -> l' = scaled (c / v) l. Proof. intros H. apply f2_scaled in H. now rewrite unit_p_v in H. Qed.
  Lemma t_l1_pp l l' : ss (2, 0)%Z l l' -> l' = scaled (c * c) l. Proof. intros H. apply f2_scaled in H. now rewrite unit_pp in H. Qed.
  Lemma t_l2_p l l' : Forall2 (P2 dp dp) l l' -> l' = scaled2 c l.
  Proof. apply f2_eq. intros [] [] [A B]. cbn [fst snd] in *. apply sim_p in A, B. now subst. Qed.
  Lemma t_r1_0 r r' : rrel (ss d0) r r' -> r' = r. Proof. apply r_same0. Qed.
  Lemma t_r1_p r r' : rrel (ss dp) r r' -> r' = res_map (scaled c) r. Proof. intros H. apply r_scaled in H. now rewrite unit_p in H. Qed.
  Lemma t_r1_v r r' : rrel (ss dv) r r' -> r' = res_map (scaled v) r. Proof. intros H. apply r_scaled in H. now rewrite unit_v in H. Qed.
  Lemma t_r1_pv r r' : rrel (ss dpv) r r' -> r' = res_map (scaled (c * v)) r. Proof. intros H. apply r_scaled in H. now rewrite unit_pv in H. Qed.
  Lemma t_r1_pp r r' : rrel (ss (2, 0)%Z) r r' -> r' = res_map (scaled (c * c)) r. Proof. intros H. apply r_scaled in H. now rewrite unit_pp in H. Qed.
  Lemma t_r1_ppv r r' : rrel (ss (2, -1)%Z) r r' -> r' = res_map (scaled (c * c / v)) r. Proof. intros H. apply r_scaled in H. now rewrite unit_ppv in H. Qed.
  Lemma t_r2_p r r' : rrel (Forall2 (P2 dp dp)) r r' -> r' = res_map (scaled2 c) r.
  Proof. apply r_list. intros [] [] [A B]. cbn [fst snd] in *. apply sim_p in A, B. now subst. Qed.
  Lemma t_r3_p r r' : rrel (Forall2 (prel (P2 dp dp) (sim dp))) r r' -> r' = res_map (scaled3 c) r.
  Proof. apply r_list. intros [[] ?] [[] ?] [[A B] D]. cbn [fst snd] in *. apply sim_p in A, B, D. now subst. Qed.
  Lemma t_r4_p r r' : rrel (Forall2 (prel (prel (P2 dp dp) (sim dp)) (sim dp))) r r' -> r' = res_map (scaled4 c) r.
  Proof. apply r_list. intros [[[] ?] ?] [[[] ?] ?] [[[A B] D] E]. cbn [fst snd] in *. apply sim_p in A, B, D, E. now subst. Qed.
  Lemma t_r5_p r r' : rrel (Forall2 (prel (prel (prel (P2 dp dp) (sim dp)) (sim dp)) (sim dp))) r r' -> r' = res_map (scaled5 c) r.
  Proof. apply r_list. intros [[[[] ?] ?] ?] [[[[] ?] ?] ?] [[[[A B] D] E] F]. cbn [fst snd] in *. apply sim_p in A, B, D, E, F. now subst. Qed.
  Lemma res_id {A} (r : result (list A)) : res_map (map (fun x => x)) r = r.
  Proof. destruct r; cbn; [|easy]. now rewrite map_id. Qed.
  Lemma t_r2_0 r r' : rrel (Forall2 (P2 d0 d0)) r r' -> r' = r.
  Proof. intros H. rewrite <- (res_id r). revert H. apply r_list. intros [] [] [A B]. cbn [fst snd] in *. apply sim_0 in A, B. now subst. Qed.
  Lemma t_r3_0 r r' : rrel (Forall2 (prel (P2 d0 d0) (sim d0))) r r' -> r' = r.
  Proof. intros H. rewrite <- (res_id r). revert H. apply r_list. intros [[] ?] [[] ?] [[A B] D]. cbn [fst snd] in *. apply sim_0 in A, B, D. now subst. Qed.
  Lemma sim_amount a : sim dp a (sc c a).
  Proof. unfold Scale.sim. now rewrite unit_p. Qed.
  Lemma orel_amount o : orel (sim dp) o (option_map (sc c) o).
  Proof. destruct o; [apply sim_amount|exact I]. Qed.
End Back.

Ltac scale L T := apply T; try assumption;
  match goal with Hc : 0 < _, Hv : 0 < _ |- _ => first [eapply L | eapply (L Hc Hv dp) | eapply (L Hc dp) | eapply (L Hv dp) | eapply (L dp)] end; try assumption;
  try apply f2_prices; try apply f2_volumes; try apply sim_amount; try apply orel_amount.

(** *** smooth.rs *)
Theorem ewma_scale c l w : 0 < c -> ewma (scaled c l) w = res_map (scaled c) (ewma l w).
Proof. intros Hc. pose proof Rlt_0_1 as Hv. scale (ewma_rel c 1) (t_r1_p c 1). Qed.
Theorem sma_scale c l w : 0 < c -> sma (scaled c l) w = res_map (scaled c) (sma l w).
Proof. intros Hc. pose proof Rlt_0_1 as Hv. scale (sma_rel c 1) (t_r1_p c 1). Qed.
Theorem wilder_scale c l w : 0 < c -> wilder (scaled c l) w = res_map (scaled c) (wilder l w).
Proof. intros Hc. pose proof Rlt_0_1 as Hv. scale (wilder_rel c 1) (t_r1_p c 1). Qed.
Theorem std_dev_scale c l w : 0 < c -> std_dev (scaled c l) w = res_map (scaled c) (std_dev l w).
Proof. intros Hc. pose proof Rlt_0_1 as Hv. scale (std_dev_rel c 1) (t_r1_p c 1). Qed.
Theorem dema_scale c l w : 0 < c -> dema (scaled c l) w = res_map (scaled c) (dema l w).
Proof. intros Hc. pose proof Rlt_0_1 as Hv. scale (dema_rel c 1) (t_r1_p c 1). Qed.
Theorem tema_scale c l w : 0 < c -> tema (scaled c l) w = res_map (scaled c) (tema l w).
Proof. intros Hc. pose proof Rlt_0_1 as Hv. scale (tema_rel c 1) (t_r1_p c 1). Qed.
Theorem wma_scale c l w : 0 < c -> wma (scaled c l) w = res_map (scaled c) (wma l w).
Proof. intros Hc. pose proof Rlt_0_1 as Hv. scale (wma_rel c 1) (t_r1_p c 1). Qed.
Theorem pwma_scale c l w : 0 < c -> pwma (scaled c l) w = res_map (scaled c) (pwma l w).
Proof. intros Hc. pose proof Rlt_0_1 as Hv. scale (pwma_rel c 1) (t_r1_p c 1). Qed.
Theorem hull_scale c l w : 0 < c -> hull (scaled c l) w = res_map (scaled c) (hull l w).
Proof. intros Hc. pose proof Rlt_0_1 as Hv. scale (hull_rel c 1) (t_r1_p c 1). Qed.
Theorem lrf_scale c l w : 0 < c -> lrf (scaled c l) w = res_map (scaled c) (lrf l w).
Proof. intros Hc. pose proof Rlt_0_1 as Hv. scale (lrf_rel c 1) (t_r1_p c 1). Qed.
Theorem trima_scale c l w : 0 < c -> trima (scaled c l) w = res_map (scaled c) (trima l w).
Proof. intros Hc. pose proof Rlt_0_1 as Hv. scale (trima_rel c 1) (t_r1_p c 1). Qed.
Theorem zlma_scale c l w : 0 < c -> zlma (scaled c l) w = res_map (scaled c) (zlma l w).
Proof. intros Hc. pose proof Rlt_0_1 as Hv. scale (zlma_rel c 1) (t_r1_p c 1). Qed.
Theorem vidya_scale c l w : 0 < c -> vidya (scaled c l) w = res_map (scaled c) (vidya l w).
Proof. intros Hc. pose proof Rlt_0_1 as Hv. scale (vidya_rel c 1) (t_r1_p c 1). Qed.
Theorem vma_scale c l w : 0 < c -> vma (scaled c l) w = res_map (scaled c) (vma l w).
Proof. intros Hc. pose proof Rlt_0_1 as Hv. scale (vma_rel c 1) (t_r1_p c 1). Qed.
Theorem ma_scale c l w m : 0 < c -> ma (scaled c l) w m = res_map (scaled c) (ma l w m).
Proof. intros Hc. pose proof Rlt_0_1 as Hv. scale (ma_rel c 1) (t_r1_p c 1). Qed.
Theorem kernel_scale c l s : 0 < c -> kernel (scaled c l) s = res_map (scaled c) (kernel l s).
Proof. intros Hc. pose proof Rlt_0_1 as Hv. scale (kernel_rel c 1) (t_r1_p c 1). Qed.
Theorem kama_scale c l w sh lo : 0 < c -> kama (scaled c l) w sh lo = res_map (scaled c) (kama l w sh lo).
Proof. intros Hc. pose proof Rlt_0_1 as Hv. scale (kama_rel c 1) (t_r1_p c 1). Qed.
Theorem alma_scale c l w sg mu : 0 < c -> alma (scaled c l) w sg mu = res_map (scaled c) (alma l w sg mu).
Proof. intros Hc. pose proof Rlt_0_1 as Hv. scale (alma_rel c 1) (t_r1_p c 1). Qed.
Theorem mdma_scale c l w : 0 < c -> mdma (scaled c l) w = res_map (scaled c) (mdma l w).
Proof. intros Hc. pose proof Rlt_0_1 as Hv. scale (mdma_rel c 1) (t_r1_p c 1). Qed.
Theorem hwma_scale c l a b g : 0 < c -> hwma (scaled c l) a b g = res_map (scaled c) (hwma l a b g).
Proof. intros Hc. pose proof Rlt_0_1 as Hv. scale (hwma_rel c 1) (t_r1_p c 1). Qed.
Theorem fwma_scale c l w : 0 < c -> fwma (scaled c l) w = res_map (scaled c) (fwma l w).
Proof. intros Hc. pose proof Rlt_0_1 as Hv. scale (fwma_rel c 1) (t_r1_p c 1). Qed.
Theorem ssf_scale c l w t : 0 < c -> ssf (scaled c l) w t = res_map (scaled c) (ssf l w t).
Proof. intros Hc. pose proof Rlt_0_1 as Hv. scale (ssf_rel c 1) (t_r1_p c 1). Qed.
Theorem t3_scale c l w f : 0 < c -> t3 (scaled c l) w f = res_map (scaled c) (t3 l w f).
Proof. intros Hc. pose proof Rlt_0_1 as Hv. scale (t3_rel c 1) (t_r1_p c 1). Qed.

(** *** distribution.rs *)
Theorem variance_scale c l w : 0 < c -> variance (scaled c l) w = res_map (scaled (c * c)) (variance l w).
Proof. intros Hc. pose proof Rlt_0_1 as Hv. scale (variance_rel c 1) (t_r1_pp c 1). Qed.
Theorem mad_scale c l w : 0 < c -> mad (scaled c l) w = res_map (scaled c) (mad l w).
Proof. intros Hc. pose proof Rlt_0_1 as Hv. scale (mad_rel c 1) (t_r1_p c 1). Qed.
Theorem zscore_scale c l w : 0 < c -> zscore (scaled c l) w = zscore l w.
Proof. intros Hc. pose proof Rlt_0_1 as Hv. scale (zscore_rel c 1) (t_r1_0 c 1). Qed.
Theorem cv_scale c l w : 0 < c -> cv (scaled c l) w = cv l w.
Proof. intros Hc. pose proof Rlt_0_1 as Hv. scale (cv_rel c 1) (t_r1_0 c 1). Qed.
Theorem kurtosis_scale c l w : 0 < c -> kurtosis (scaled c l) w = kurtosis l w.
Proof. intros Hc. pose proof Rlt_0_1 as Hv. scale (kurtosis_rel c 1) (t_r1_0 c 1). Qed.

(** *** volatility.rs *)
Theorem tr_scale c h l cl : 0 < c -> tr (scaled c h) (scaled c l) (scaled c cl) = res_map (scaled c) (tr h l cl).
Proof. intros Hc. pose proof Rlt_0_1 as Hv. scale (tr_rel c 1) (t_r1_p c 1). Qed.
Theorem atr_scale c h l cl w : 0 < c -> atr (scaled c h) (scaled c l) (scaled c cl) w = res_map (scaled c) (atr h l cl w).
Proof. intros Hc. pose proof Rlt_0_1 as Hv. scale (atr_rel c 1) (t_r1_p c 1). Qed.
Theorem mass_scale c h l s w : 0 < c -> mass (scaled c h) (scaled c l) s w = mass h l s w.
Proof. intros Hc. pose proof Rlt_0_1 as Hv. scale (mass_rel c 1) (t_r1_0 c 1). Qed.
Theorem keltner_scale c h l cl w : 0 < c -> keltner (scaled c h) (scaled c l) (scaled c cl) w = res_map (scaled3 c) (keltner h l cl w).
Proof. intros Hc. pose proof Rlt_0_1 as Hv. scale (keltner_rel c 1) (t_r3_p c 1). Qed.
Theorem typical_scale c h l cl w : 0 < c -> typical (scaled c h) (scaled c l) (scaled c cl) w = res_map (scaled c) (typical h l cl w).
Proof. intros Hc. pose proof Rlt_0_1 as Hv. scale (typical_rel c 1) (t_r1_p c 1). Qed.
Theorem vstd_dev_scale c l w s : 0 < c -> vstd_dev (scaled c l) w s = res_map (scaled c) (vstd_dev l w s).
Proof. intros Hc. pose proof Rlt_0_1 as Hv. scale (vstd_dev_rel c 1) (t_r1_p c 1). Qed.
Theorem bbands_scale c l w s m : 0 < c -> bbands (scaled c l) w s m = res_map (scaled3 c) (bbands l w s m).
Proof. intros Hc. pose proof Rlt_0_1 as Hv. scale (bbands_rel c 1) (t_r3_p c 1). Qed.
Theorem donchian_scale c h l w : 0 < c -> donchian (scaled c h) (scaled c l) w = res_map (scaled3 c) (donchian h l w).
Proof. intros Hc. pose proof Rlt_0_1 as Hv. scale (donchian_rel c 1) (t_r3_p c 1). Qed.
Theorem fbands_scale c h l : 0 < c -> fbands (scaled c h) (scaled c l) = scaled2 c (fbands h l).
Proof. intros Hc. pose proof Rlt_0_1 as Hv. scale (fbands_rel c 1) (t_l2_p c 1). Qed.
Theorem hv_scale c l w s : 0 < c -> hv (scaled c l) w s = hv l w s.
Proof. intros Hc. pose proof Rlt_0_1 as Hv. scale (hv_rel c 1) (t_r1_0 c 1). Qed.
Theorem starc_scale c h l cl w mw m : 0 < c -> starc (scaled c h) (scaled c l) (scaled c cl) w mw m = res_map (scaled2 c) (starc h l cl w mw m).
Proof. intros Hc. pose proof Rlt_0_1 as Hv. scale (starc_rel c 1) (t_r2_p c 1). Qed.
Theorem cvi_scale c h l w r : 0 < c -> cvi (scaled c h) (scaled c l) w r = cvi h l w r.
Proof. intros Hc. pose proof Rlt_0_1 as Hv. scale (cvi_rel c 1) (t_r1_0 c 1). Qed.
Theorem relative_vol_scale c l w s : 0 < c -> relative_vol (scaled c l) w s = relative_vol l w s.
Proof. intros Hc. pose proof Rlt_0_1 as Hv. scale (relative_vol_rel c 1) (t_r1_0 c 1). Qed.
Theorem inertia_scale c l w s : 0 < c -> inertia (scaled c l) w s = inertia l w s.
Proof. intros Hc. pose proof Rlt_0_1 as Hv. scale (inertia_rel c 1) (t_r1_0 c 1). Qed.
Theorem chop_scale c h l cl w : 0 < c -> chop (scaled c h) (scaled c l) (scaled c cl) w = chop h l cl w.
Proof. intros Hc. pose proof Rlt_0_1 as Hv. scale (chop_rel c 1) (t_r1_0 c 1). Qed.
Theorem vhf_scale c h l cl w : 0 < c -> vhf (scaled c h) (scaled c l) (scaled c cl) w = vhf h l cl w.
Proof. intros Hc. pose proof Rlt_0_1 as Hv. scale (vhf_rel c 1) (t_r1_0 c 1). Qed.
Theorem heikin_ashi_scale c o h l cl : 0 < c -> heikin_ashi (scaled c o) (scaled c h) (scaled c l) (scaled c cl) = res_map (scaled4 c) (heikin_ashi o h l cl).
Proof. intros Hc. pose proof Rlt_0_1 as Hv. scale (heikin_ashi_rel c 1) (t_r4_p c 1). Qed.
Theorem wcp_scale c h l cl : 0 < c -> wcp (scaled c h) (scaled c l) (scaled c cl) = scaled c (wcp h l cl).
Proof. intros Hc. pose proof Rlt_0_1 as Hv. scale (wcp_rel c 1) (t_l1_p c 1). Qed.
Theorem cc_hv_scale c l w : 0 < c -> cc_hv (scaled c l) w = cc_hv l w.
Proof. intros Hc. pose proof Rlt_0_1 as Hv. scale (cc_hv_rel c 1) (t_r1_0 c 1). Qed.
Theorem gkyz_hv_scale c o h l cl w : 0 < c -> gkyz_hv (scaled c o) (scaled c h) (scaled c l) (scaled c cl) w = gkyz_hv o h l cl w.
Proof. intros Hc. pose proof Rlt_0_1 as Hv. scale (gkyz_hv_rel c 1) (t_r1_0 c 1). Qed.

(** *** volume.rs *)
Theorem kvo_scale c v h l cl vo s w alt : 0 < c -> 0 < v -> kvo (scaled c h) (scaled c l) (scaled c cl) (scaled v vo) s w alt = res_map (scaled v) (kvo h l cl vo s w alt).
Proof. intros Hc Hv. scale (kvo_rel c v) (t_r1_v c v). Qed.
Theorem twiggs_scale c v h l cl vo w : 0 < c -> 0 < v -> twiggs (scaled c h) (scaled c l) (scaled c cl) (scaled v vo) w = twiggs h l cl vo w.
Proof. intros Hc Hv. scale (twiggs_rel c v) (t_r1_0 c v). Qed.
Theorem elder_force_scale c v cl vo w : 0 < c -> 0 < v -> elder_force (scaled c cl) (scaled v vo) w = res_map (scaled (c * v)) (elder_force cl vo w).
Proof. intros Hc Hv. scale (elder_force_rel c v) (t_r1_pv c v). Qed.
Theorem mfi_scale c v h l cl vo w : 0 < c -> 0 < v -> mfi (scaled c h) (scaled c l) (scaled c cl) (scaled v vo) w = mfi h l cl vo w.
Proof. intros Hc Hv. scale (mfi_rel c v) (t_r1_0 c v). Qed.
Theorem cmf_scale c v h l cl vo w : 0 < c -> 0 < v -> cmf (scaled c h) (scaled c l) (scaled c cl) (scaled v vo) w = cmf h l cl vo w.
Proof. intros Hc Hv. scale (cmf_rel c v) (t_r1_0 c v). Qed.
Theorem tvi_scale c v cl vo t : 0 < c -> 0 < v -> tvi (scaled c cl) (scaled v vo) (sc c t) = res_map (scaled v) (tvi cl vo t).
Proof. intros Hc Hv. scale (tvi_rel c v) (t_r1_v c v). Qed.
Theorem ease_scale c v h l vo w : 0 < c -> 0 < v -> ease (scaled c h) (scaled c l) (scaled v vo) w = res_map (scaled (c * c / v)) (ease h l vo w).
Proof. intros Hc Hv. scale (ease_rel c v) (t_r1_ppv c v). Qed.
Theorem obv_scale c v cl vo : 0 < c -> 0 < v -> obv (scaled c cl) (scaled v vo) = res_map (scaled v) (obv cl vo).
Proof. intros Hc Hv. scale (obv_rel c v) (t_r1_v c v). Qed.
Theorem bw_mfi_scale c v h l vo : 0 < c -> 0 < v -> bw_mfi (scaled c h) (scaled c l) (scaled v vo) = scaled (c / v) (bw_mfi h l vo).
Proof. intros Hc Hv. scale (bw_mfi_rel c v) (t_l1_p_v c v). Qed.
Theorem pvi_scale c v l vo : 0 < c -> 0 < v -> pvi (scaled c l) (scaled v vo) = pvi l vo.
Proof. intros Hc Hv. scale (pvi_rel c v) (t_l1_0 c v). Qed.
Theorem nvi_scale c v l vo : 0 < c -> 0 < v -> nvi (scaled c l) (scaled v vo) = nvi l vo.
Proof. intros Hc Hv. scale (nvi_rel c v) (t_l1_0 c v). Qed.
Theorem vwap_scale c v h l cl vo r : 0 < c -> 0 < v -> vwap (scaled c h) (scaled c l) (scaled c cl) (scaled v vo) r = res_map (scaled c) (vwap h l cl vo r).
Proof. intros Hc Hv. scale (vwap_rel c v) (t_r1_p c v). Qed.
Theorem vwma_scale c v l vo w : 0 < c -> 0 < v -> vwma (scaled c l) (scaled v vo) w = res_map (scaled c) (vwma l vo w).
Proof. intros Hc Hv. scale (vwma_rel c v) (t_r1_p c v). Qed.
Theorem vpt_scale c v l vo : 0 < c -> 0 < v -> vpt (scaled c l) (scaled v vo) = res_map (scaled v) (vpt l vo).
Proof. intros Hc Hv. scale (vpt_rel c v) (t_r1_v c v). Qed.

(** *** regression.rs *)
Theorem mse_scale c a b : 0 < c -> mse (scaled c a) (scaled c b) = scaled (c * c) (mse a b).
Proof. intros Hc. pose proof Rlt_0_1 as Hv. scale (mse_rel c 1) (t_l1_pp c 1). Qed.
Theorem rmse_scale c a b : 0 < c -> rmse (scaled c a) (scaled c b) = scaled c (rmse a b).
Proof. intros Hc. pose proof Rlt_0_1 as Hv. scale (rmse_rel c 1) (t_l1_p c 1). Qed.
Theorem mae_scale c a b : 0 < c -> mae (scaled c a) (scaled c b) = scaled c (mae a b).
Proof. intros Hc. pose proof Rlt_0_1 as Hv. scale (mae_rel c 1) (t_l1_p c 1). Qed.
Theorem mape_scale c a b : 0 < c -> mape (scaled c a) (scaled c b) = mape a b.
Proof. intros Hc. pose proof Rlt_0_1 as Hv. scale (mape_rel c 1) (t_l1_0 c 1). Qed.
Theorem smape_scale c a b : 0 < c -> smape (scaled c a) (scaled c b) = smape a b.
Proof. intros Hc. pose proof Rlt_0_1 as Hv. scale (smape_rel c 1) (t_l1_0 c 1). Qed.
Theorem mda_scale c a b : 0 < c -> mda (scaled c a) (scaled c b) = mda a b.
Proof. intros Hc. pose proof Rlt_0_1 as Hv. scale (mda_rel c 1) (t_r1_0 c 1). Qed.
Theorem mase_scale c a b : 0 < c -> mase (scaled c a) (scaled c b) = mase a b.
Proof. intros Hc. pose proof Rlt_0_1 as Hv. scale (mase_rel c 1) (t_r1_0 c 1). Qed.
Theorem emae_scale c a b : 0 < c -> emae (scaled c a) (scaled c b) = emae a b.
Proof. intros Hc. pose proof Rlt_0_1 as Hv. scale (emae_rel c 1) (t_r1_0 c 1). Qed.

(** *** trend.rs *)
Theorem shinohara_scale c h l cl w : 0 < c -> shinohara (scaled c h) (scaled c l) (scaled c cl) w = shinohara h l cl w.
Proof. intros Hc. pose proof Rlt_0_1 as Hv. scale (shinohara_rel c 1) (t_r2_0 c 1). Qed.
Theorem adx_scale c h l cl w s : 0 < c -> adx (scaled c h) (scaled c l) (scaled c cl) w s = adx h l cl w s.
Proof. intros Hc. pose proof Rlt_0_1 as Hv. scale (adx_rel c 1) (t_r3_0 c 1). Qed.
Theorem vortex_scale c h l cl w : 0 < c -> vortex (scaled c h) (scaled c l) (scaled c cl) w = vortex h l cl w.
Proof. intros Hc. pose proof Rlt_0_1 as Hv. scale (vortex_rel c 1) (t_r2_0 c 1). Qed.
Theorem asi_scale c o h l cl t : 0 < c -> asi (scaled c o) (scaled c h) (scaled c l) (scaled c cl) (sc c t) = asi o h l cl t.
Proof. intros Hc. pose proof Rlt_0_1 as Hv. scale (asi_rel c 1) (t_r1_0 c 1). Qed.
Theorem ulcer_scale c l w : 0 < c -> ulcer (scaled c l) w = ulcer l w.
Proof. intros Hc. pose proof Rlt_0_1 as Hv. scale (ulcer_rel c 1) (t_r1_0 c 1). Qed.
Theorem rwi_scale c h l cl w : 0 < c -> rwi (scaled c h) (scaled c l) (scaled c cl) w = rwi h l cl w.
Proof. intros Hc. pose proof Rlt_0_1 as Hv. scale (rwi_rel c 1) (t_r2_0 c 1). Qed.
Theorem psar_scale c h l a m : 0 < c -> psar (scaled c h) (scaled c l) a m = res_map (scaled c) (psar h l a m).
Proof. intros Hc. pose proof Rlt_0_1 as Hv. scale (psar_rel c 1) (t_r1_p c 1). Qed.
Theorem dpo_scale c l w m : 0 < c -> dpo (scaled c l) w m = res_map (scaled c) (dpo l w m).
Proof. intros Hc. pose proof Rlt_0_1 as Hv. scale (dpo_rel c 1) (t_r1_p c 1). Qed.
Theorem aroon_scale c h l w : 0 < c -> aroon (scaled c h) (scaled c l) w = aroon h l w.
Proof. intros Hc. pose proof Rlt_0_1 as Hv. scale (aroon_rel c 1) (t_r2_0 c 1). Qed.
Theorem chandelier_scale c h l cl w m : 0 < c -> chandelier (scaled c h) (scaled c l) (scaled c cl) w m = res_map (scaled2 c) (chandelier h l cl w m).
Proof. intros Hc. pose proof Rlt_0_1 as Hv. scale (chandelier_rel c 1) (t_r2_p c 1). Qed.
Theorem atr_stop_scale c h l cl w m : 0 < c -> atr_stop (scaled c h) (scaled c l) (scaled c cl) w m = res_map (scaled c) (atr_stop h l cl w m).
Proof. intros Hc. pose proof Rlt_0_1 as Hv. scale (atr_stop_rel c 1) (t_r1_p c 1). Qed.
Theorem alligator_scale c l jw jo tw to lw lo : 0 < c -> alligator (scaled c l) jw jo tw to lw lo = res_map (scaled3 c) (alligator l jw jo tw to lw lo).
Proof. intros Hc. pose proof Rlt_0_1 as Hv. scale (alligator_rel c 1) (t_r3_p c 1). Qed.
Theorem ichimoku_scale c h l cl a b e f : 0 < c -> ichimoku (scaled c h) (scaled c l) (scaled c cl) a b e f = res_map (scaled5 c) (ichimoku h l cl a b e f).
Proof. intros Hc. pose proof Rlt_0_1 as Hv. scale (ichimoku_rel c 1) (t_r5_p c 1). Qed.
Theorem supertrend_scale c h l cl w m : 0 < c -> supertrend (scaled c h) (scaled c l) (scaled c cl) w m = res_map (scaled c) (supertrend h l cl w m).
Proof. intros Hc. pose proof Rlt_0_1 as Hv. scale (supertrend_rel c 1) (t_r1_p c 1). Qed.
Theorem zigzag_scale c h l d : 0 < c -> zigzag (scaled c h) (scaled c l) d = res_map (scaled c) (zigzag h l d).
Proof. intros Hc. pose proof Rlt_0_1 as Hv. scale (zigzag_rel c 1) (t_r1_p c 1). Qed.

(** *** momentum.rs *)
Theorem rsi_scale c l w : 0 < c -> rsi (scaled c l) w = rsi l w.
Proof. intros Hc. pose proof Rlt_0_1 as Hv. scale (rsi_rel c 1) (t_r1_0 c 1). Qed.
Theorem crsi_scale c l a b e : 0 < c -> crsi (scaled c l) a b e = crsi l a b e.
Proof. intros Hc. pose proof Rlt_0_1 as Hv. scale (crsi_rel c 1) (t_r1_0 c 1). Qed.
Theorem macd_scale c l a b : 0 < c -> macd (scaled c l) a b = res_map (scaled c) (macd l a b).
Proof. intros Hc. pose proof Rlt_0_1 as Hv. scale (macd_rel c 1) (t_r1_p c 1). Qed.
Theorem apo_scale c l a b : 0 < c -> apo (scaled c l) a b = res_map (scaled c) (apo l a b).
Proof. intros Hc. pose proof Rlt_0_1 as Hv. scale (apo_rel c 1) (t_r1_p c 1). Qed.
Theorem cmo_scale c l a : 0 < c -> cmo (scaled c l) a = cmo l a.
Proof. intros Hc. pose proof Rlt_0_1 as Hv. scale (cmo_rel c 1) (t_r1_0 c 1). Qed.
Theorem cfo_scale c l a : 0 < c -> cfo (scaled c l) a = cfo l a.
Proof. intros Hc. pose proof Rlt_0_1 as Hv. scale (cfo_rel c 1) (t_r1_0 c 1). Qed.
Theorem elder_ray_scale c h l cl w : 0 < c -> elder_ray (scaled c h) (scaled c l) (scaled c cl) w = res_map (scaled2 c) (elder_ray h l cl w).
Proof. intros Hc. pose proof Rlt_0_1 as Hv. scale (elder_ray_rel c 1) (t_r2_p c 1). Qed.
Theorem wpr_scale c h l cl w : 0 < c -> wpr (scaled c h) (scaled c l) (scaled c cl) w = wpr h l cl w.
Proof. intros Hc. pose proof Rlt_0_1 as Hv. scale (wpr_rel c 1) (t_r1_0 c 1). Qed.
Theorem ppo_scale c l a b : 0 < c -> ppo (scaled c l) a b = ppo l a b.
Proof. intros Hc. pose proof Rlt_0_1 as Hv. scale (ppo_rel c 1) (t_r1_0 c 1). Qed.
Theorem pmo_scale c l a b : 0 < c -> pmo (scaled c l) a b = pmo l a b.
Proof. intros Hc. pose proof Rlt_0_1 as Hv. scale (pmo_rel c 1) (t_r1_0 c 1). Qed.
Theorem ultimate_scale c h l cl a b e : 0 < c -> ultimate (scaled c h) (scaled c l) (scaled c cl) a b e = ultimate h l cl a b e.
Proof. intros Hc. pose proof Rlt_0_1 as Hv. scale (ultimate_rel c 1) (t_r1_0 c 1). Qed.
Theorem pgo_scale c h l cl w : 0 < c -> pgo (scaled c h) (scaled c l) (scaled c cl) w = pgo h l cl w.
Proof. intros Hc. pose proof Rlt_0_1 as Hv. scale (pgo_rel c 1) (t_r1_0 c 1). Qed.
Theorem si_scale c o h l cl t : 0 < c -> si (scaled c o) (scaled c h) (scaled c l) (scaled c cl) (sc c t) = si o h l cl t.
Proof. intros Hc. pose proof Rlt_0_1 as Hv. scale (si_rel c 1) (t_r1_0 c 1). Qed.
Theorem trix_scale c l a : 0 < c -> trix (scaled c l) a = trix l a.
Proof. intros Hc. pose proof Rlt_0_1 as Hv. scale (trix_rel c 1) (t_r1_0 c 1). Qed.
Theorem tii_scale c l a : 0 < c -> tii (scaled c l) a = tii l a.
Proof. intros Hc. pose proof Rlt_0_1 as Hv. scale (tii_rel c 1) (t_r1_0 c 1). Qed.
Theorem stochastic_scale c h l cl w : 0 < c -> stochastic (scaled c h) (scaled c l) (scaled c cl) w = stochastic h l cl w.
Proof. intros Hc. pose proof Rlt_0_1 as Hv. scale (stochastic_rel c 1) (t_r2_0 c 1). Qed.
Theorem stc_scale c l a b e : 0 < c -> stc (scaled c l) a b e = stc l a b e.
Proof. intros Hc. pose proof Rlt_0_1 as Hv. scale (stc_rel c 1) (t_r1_0 c 1). Qed.
Theorem relative_vigor_scale c o h l cl w : 0 < c -> relative_vigor (scaled c o) (scaled c h) (scaled c l) (scaled c cl) w = relative_vigor o h l cl w.
Proof. intros Hc. pose proof Rlt_0_1 as Hv. scale (relative_vigor_rel c 1) (t_r1_0 c 1). Qed.
Theorem coppock_scale c l a b e : 0 < c -> coppock (scaled c l) a b e = coppock l a b e.
Proof. intros Hc. pose proof Rlt_0_1 as Hv. scale (coppock_rel c 1) (t_r1_0 c 1). Qed.
Theorem roc_scale c l a : 0 < c -> roc (scaled c l) a = roc l a.
Proof. intros Hc. pose proof Rlt_0_1 as Hv. scale (roc_rel c 1) (t_r1_0 c 1). Qed.
Theorem bal_power_scale c o h l cl w : 0 < c -> bal_power (scaled c o) (scaled c h) (scaled c l) (scaled c cl) w = bal_power o h l cl w.
Proof. intros Hc. pose proof Rlt_0_1 as Hv. scale (bal_power_rel c 1) (t_r1_0 c 1). Qed.
Theorem disparity_scale c l a : 0 < c -> disparity (scaled c l) a = disparity l a.
Proof. intros Hc. pose proof Rlt_0_1 as Hv. scale (disparity_rel c 1) (t_r1_0 c 1). Qed.
Theorem qstick_scale c o cl w : 0 < c -> qstick (scaled c o) (scaled c cl) w = res_map (scaled c) (qstick o cl w).
Proof. intros Hc. pose proof Rlt_0_1 as Hv. scale (qstick_rel c 1) (t_r1_p c 1). Qed.
Theorem cog_scale c l a : 0 < c -> cog (scaled c l) a = cog l a.
Proof. intros Hc. pose proof Rlt_0_1 as Hv. scale (cog_rel c 1) (t_r1_0 c 1). Qed.
Theorem psych_scale c l a : 0 < c -> psych (scaled c l) a = psych l a.
Proof. intros Hc. pose proof Rlt_0_1 as Hv. scale (psych_rel c 1) (t_r1_0 c 1). Qed.
Theorem tsi_scale c l a b : 0 < c -> tsi (scaled c l) a b = tsi l a b.
Proof. intros Hc. pose proof Rlt_0_1 as Hv. scale (tsi_rel c 1) (t_r1_0 c 1). Qed.
Theorem derivative_scale c l a b e : 0 < c -> derivative (scaled c l) a b e = derivative l a b e.
Proof. intros Hc. pose proof Rlt_0_1 as Hv. scale (derivative_rel c 1) (t_r1_0 c 1). Qed.
Theorem cci_scale c h l cl w : 0 < c -> cci (scaled c h) (scaled c l) (scaled c cl) w = cci h l cl w.
Proof. intros Hc. pose proof Rlt_0_1 as Hv. scale (cci_rel c 1) (t_r1_0 c 1). Qed.
Theorem qqe_scale c l a b : 0 < c -> qqe (scaled c l) a b = qqe l a b.
Proof. intros Hc. pose proof Rlt_0_1 as Hv. scale (qqe_rel c 1) (@t_eq). Qed.
Theorem deli_scale c h l w : 0 < c -> deli (scaled c h) (scaled c l) w = res_map (scaled c) (deli h l w).
Proof. intros Hc. pose proof Rlt_0_1 as Hv. scale (deli_rel c 1) (t_r1_p c 1). Qed.
Theorem gator_scale c l jw jo tw to lw lo : 0 < c -> gator (scaled c l) jw jo tw to lw lo = res_map (scaled2 c) (gator l jw jo tw to lw lo).
Proof. intros Hc. pose proof Rlt_0_1 as Hv. scale (gator_rel c 1) (t_r2_p c 1). Qed.
Theorem kdj_scale c h l cl w k kf df : 0 < c -> kdj (scaled c h) (scaled c l) (scaled c cl) w k kf df = kdj h l cl w k kf df.
Proof. intros Hc. pose proof Rlt_0_1 as Hv. scale (kdj_rel c 1) (t_r3_0 c 1). Qed.

(** *** smooth.rs: mama *)
Theorem mama_scale c l a b : 0 < c -> mama (scaled c l) a b = res_map (scaled2 c) (mama l a b).
Proof. intros Hc. pose proof Rlt_0_1 as Hv. scale (mama_rel c 1) (t_r2_p c 1). Qed.

(** *** distribution.rs: quantiles and entropies *)
Theorem quantile_scale c l w q : 0 < c -> quantile (scaled c l) w q = res_map (scaled c) (quantile l w q).
Proof. intros Hc. pose proof Rlt_0_1 as Hv. scale (quantile_rel c 1) (t_r1_p c 1). Qed.
Theorem median_scale c l w : 0 < c -> median (scaled c l) w = res_map (scaled c) (median l w).
Proof. intros Hc. pose proof Rlt_0_1 as Hv. scale (median_rel c 1) (t_r1_p c 1). Qed.
Theorem approx_entropy_scale c l w r t : 0 < c -> approx_entropy (scaled c l) w r (option_map (sc c) t) = approx_entropy l w r t.
Proof. intros Hc. pose proof Rlt_0_1 as Hv. scale (approx_entropy_rel c 1) (t_r1_0 c 1). Qed.
Theorem sample_entropy_scale c l w r t : 0 < c -> sample_entropy (scaled c l) w r (option_map (sc c) t) = sample_entropy l w r t.
Proof. intros Hc. pose proof Rlt_0_1 as Hv. scale (sample_entropy_rel c 1) (t_r1_0 c 1). Qed.
Theorem skew_scale c l w : 0 < c -> skew (scaled c l) w = skew l w.
Proof. intros Hc. pose proof Rlt_0_1 as Hv. scale (skew_rel c 1) (t_r1_0 c 1). Qed.

(** *** correlation.rs *)
Theorem pcc_scale c v l k w : 0 < c -> 0 < v -> pcc (scaled c l) (scaled v k) w = pcc l k w.
Proof. intros Hc Hv. scale (pcc_rel c v) (t_r1_0 c v). Qed.
Theorem rsq_scale c v l k w : 0 < c -> 0 < v -> rsq (scaled c l) (scaled v k) w = rsq l k w.
Proof. intros Hc Hv. scale (rsq_rel c v) (t_r1_0 c v). Qed.
Theorem beta_scale c v l k w : 0 < c -> 0 < v -> beta (scaled c l) (scaled v k) w = beta l k w.
Proof. intros Hc Hv. scale (beta_rel c v) (@t_eq). Qed.
Theorem perf_scale c v l k w : 0 < c -> 0 < v -> perf (scaled c l) (scaled v k) w = perf l k w.
Proof. intros Hc Hv. scale (perf_rel c v) (t_r1_0 c v). Qed.
Theorem rsc_scale c v l k : 0 < c -> 0 < v -> rsc (scaled c l) (scaled v k) = scaled (c / v) (rsc l k).
Proof. intros Hc Hv. scale (rsc_rel c v) (t_l1_p_v c v). Qed.
Theorem krcc_scale c v l k w : 0 < c -> 0 < v -> krcc (scaled c l) (scaled v k) w = krcc l k w.
Proof. intros Hc Hv. scale (krcc_rel c v) (t_r1_0 c v). Qed.
Theorem dcor_scale c v l k w : 0 < c -> 0 < v -> dcor (scaled c l) (scaled v k) w = dcor l k w.
Proof. intros Hc Hv. scale (dcor_rel c v) (t_r1_0 c v). Qed.

(** *** Variants and special cases *)

(** Without [alt] the accumulated volume; with it volume times price change. *)
Theorem ad_scale c v h l cl vo alt : 0 < c -> 0 < v -> alt <> Some true ->
  ad (scaled c h) (scaled c l) (scaled c cl) (scaled v vo) alt = res_map (scaled v) (ad h l cl vo alt).
Proof.
  intros Hc Hv Ha. destruct alt as [[]|]; [easy| |].
  - change (res_map (scaled v) (ad h l cl vo (Some false))) with (res_map (scaled v) (ad h l cl vo None)).
    change (ad (scaled c h) (scaled c l) (scaled c cl) (scaled v vo) (Some false)) with (ad (scaled c h) (scaled c l) (scaled c cl) (scaled v vo) None).
    scale (ad_rel c v) (t_r1_v c v).
  - scale (ad_rel c v) (t_r1_v c v).
Qed.
Theorem ad_alt_scale c v h l cl vo : 0 < c -> 0 < v ->
  ad (scaled c h) (scaled c l) (scaled c cl) (scaled v vo) (Some true) = res_map (scaled (c * v)) (ad h l cl vo (Some true)).
Proof. intros Hc Hv. scale (ad_alt_rel c v) (t_r1_pv c v). Qed.
Theorem special_k_scale c l : 0 < c -> special_k (scaled c l) = special_k l.
Proof. intros Hc. pose proof Rlt_0_1 as Hv. unfold special_k. scale (prings_rel c 1) (@t_eq). Qed.
Theorem kst_scale c l r w : 0 < c -> kst (scaled c l) r w = kst l r w.
Proof.
  intros Hc. pose proof Rlt_0_1 as Hv. unfold kst. destruct (unwrap_or r _) as [[[? ?] ?] ?], (unwrap_or w _) as [[[? ?] ?] ?].
  scale (prings_rel c 1) (@t_eq).
Qed.

(** Ranks: the standard library's sort sees only the outcomes of comparisons, so
    the permutation it chooses does not depend on the unit. *)
Definition unit_blind (srt : sort_oracle xr) : Prop := forall k l, 0 < k -> srt (scaled k l) = srt l.
Lemma unit_blind_sim srt c v : 0 < c -> 0 < v -> unit_blind srt ->
  forall d a a', Forall2 (Scale.sim c v d) a a' -> srt a' = srt a.
Proof. intros Hc Hv U d a a' H. apply f2_scaled in H. subst. apply U. now apply unit_pos. Qed.
Theorem rank_scale c srt l m : 0 < c -> unit_blind srt -> rank srt (scaled c l) m = rank srt l m.
Proof.
  intros Hc U. pose proof Rlt_0_1 as Hv. apply (rank_rel c 1 Hc Hv dp); [apply f2_prices|]. now apply U.
Qed.
Theorem srcc_scale c v srt l k w : 0 < c -> 0 < v -> unit_blind srt -> srcc srt (scaled c l) (scaled v k) w = srcc srt l k w.
Proof. intros Hc Hv U. scale (srcc_rel c v) (t_r1_0 c v). now apply unit_blind_sim. Qed.
Theorem hoeffd_scale c v srt l k w : 0 < c -> 0 < v -> unit_blind srt -> hoeffd srt (scaled c l) (scaled v k) w = hoeffd srt l k w.
Proof. intros Hc Hv U. scale (hoeffd_rel c v) (t_r1_0 c v). now apply unit_blind_sim. Qed.

(** [mic] and [frama] start their extremes from [f64::MAX] and [f64::MIN]: all
    values must lie within that range, in both units. *)
Definition f64_range (x : xr) : Prop := exists r, x = Fin r /\ - IZR (2 ^ 1024 - 2 ^ 971) <= r <= IZR (2 ^ 1024 - 2 ^ 971).
Theorem mic_scale c v ord l k w : 0 < c -> 0 < v -> Forall f64_range l -> Forall f64_range (scaled c l) ->
  Forall f64_range k -> Forall f64_range (scaled v k) -> mic ord (scaled c l) (scaled v k) w = mic ord l k w.
Proof. intros Hc Hv. intros. apply (mic_rel c v); try assumption; [apply f2_prices|apply f2_volumes]. Qed.
Theorem frama_scale c l w : 0 < c -> Forall f64_range l -> Forall f64_range (scaled c l) ->
  frama (scaled c l) w = res_map (option_map (scaled c)) (frama l w).
Proof.
  intros Hc W W'. pose proof Rlt_0_1 as Hv. pose proof (frama_rel c 1 Hc Hv l (scaled c l) w W W' (f2_prices c 1 l)) as H.
  destruct (frama l w) as [[o|]|], (frama (scaled c l) w) as [[o'|]|]; cbn [rrel orel res_map option_map] in *; try easy.
  do 2 f_equal. now apply (t_l1_p c 1).
Qed.

Lemma stable_argsort_blind : unit_blind stable_argsort.
Proof.
  intros k l Hk. unfold stable_argsort, scaled. rewrite map_length.
  assert (E : forall i j, fltb (at_ (map (sc k) l) i) (at_ (map (sc k) l) j) = fltb (at_ l i) (at_ l j)).
  { intros i j. unfold at_. change (@fnan xr XR) with (sc k NaN). rewrite !map_nth. now apply sc_ltb. }
  assert (E2 : forall i q, insert_idx (map (sc k) l) i q = insert_idx l i q).
  { intros i q. induction q as [|j q IH]; [easy|]. cbn [insert_idx]. now rewrite E, IH. }
  generalize (@nil nat). induction (seq 0 (length l)) as [|i q IH]; intros a; cbn [fold_left]; [easy|]. now rewrite E2, IH.
Qed.

(** [cks] starts the minimum of its short stops from [f64::MAX]: the stops must
    stay below it, in both units. *)
Theorem cks_scale c h l cl p q m : 0 < c ->
  (forall o, cks h l cl p q m = Ok o -> Forall (fun x => forall r, snd x = Fin r -> r < max_f64 /\ c * r <= max_f64) o) ->
  cks (scaled c h) (scaled c l) (scaled c cl) p q m = res_map (scaled2 c) (cks h l cl p q m).
Proof. intros Hc B. pose proof Rlt_0_1 as Hv. apply (t_r2_p c 1). apply (cks_rel c 1); try assumption; apply f2_prices. Qed.
(** [hurst] starts its extremes from [f64::MIN] and [f64::MAX], which never show,
    because the deviations from the mean add up to zero. *)
Theorem hurst_scale c fuel l w m : 0 < c -> hurst fuel (scaled c l) w m = hurst fuel l w m.
Proof. intros Hc. apply (hurst_rel c 1); try lra. apply f2_prices. Qed.

(** *** Three functions that do depend on the unit *)

Lemma scaled_xseries c f n : scaled c (xseries f n) = xseries (fun k => c * f k) n.
Proof. unfold scaled, xseries, series. rewrite map_map. now apply map_ext. Qed.
Lemma xseries_at f n i : (i < n)%nat -> nth_error (xseries f n) i = Some (Fin (f i)).
Proof. intros H. unfold xseries, series. rewrite nth_error_map, (nth_error_nth' _ 0%nat) by now rewrite seq_length. now rewrite seq_nth. Qed.
Lemma aligned_at {A} (o : list A) n k na f i : aligned o n k na f -> (k <= i < n)%nat -> nth_error o i = Some (f i).
Proof. intros (L & _ & E) H. now apply E. Qed.

(** [decay] lets its value sink by the absolute amount [1/window] per bar. *)
Theorem decay_scale_refuted : exists c l w, 0 < c /\ decay (scaled c l) w <> res_map (scaled c) (decay l w).
Proof.
  set (f := fun k => match k with O => 1 | _ => 0 end).
  exists 2, (xseries f 2), 2%nat. split; [lra|]. rewrite scaled_xseries.
  destruct (decay_real f 2 2) as (y & E & Y0 & Y); [lia|]. destruct (decay_real (fun k => 2 * f k) 2 2) as (z & E' & Z0 & Z); [lia|].
  rewrite E, E'. cbn [res_map]. rewrite scaled_xseries. intros H. injection H as _ H.
  assert (Y1 : y 1%nat = 1) by (rewrite (Y 0%nat), Y0; cbn [INR f]; rewrite (Rmax_right (_ - _)), Rmax_left; lra).
  assert (Z1 : z 1%nat = 2) by (rewrite (Z 0%nat), Z0; cbn [INR f]; rewrite (Rmax_right (_ - _)), Rmax_left; lra).
  assert (Y2 : y 2%nat = 1 / 2) by (rewrite (Y 1%nat), Y1; cbn [INR f]; rewrite (Rmax_left (_ - _)), Rmax_left; lra).
  assert (Z2 : z 2%nat = 3 / 2) by (rewrite (Z 1%nat), Z1; cbn [INR f]; rewrite (Rmax_left (_ - _)), Rmax_left; lra).
  lra.
Qed.

Lemma max_f64_1 : 1 <= max_f64.
Proof. unfold max_f64. apply IZR_le. now vm_compute. Qed.
(** [fisher] and [rainbow] measure the range of the prices against the absolute
    amount 0.000001. *)
Theorem fisher_scale_refuted : exists c h l w, 0 < c /\ fisher (scaled c h) (scaled c l) w <> fisher h l w.
Proof.
  set (f := fun k => match k with O => 0 | _ => 1 end). assert (F : forall k, 0 <= f k <= 1) by (intros []; cbn; lra).
  pose proof max_f64_1 as M.
  exists (/ 2000000), (xseries f 2), (xseries f 2), 2%nat. split; [lra|]. rewrite scaled_xseries.
  destruct (fisher_real f f 2 2) as (o & t & y & E & A & T0 & Y0 & S); [lia|intros k _; specialize (F k); lra|].
  destruct (fisher_real (fun k => / 2000000 * f k) (fun k => / 2000000 * f k) 2 2) as (o' & t' & y' & E' & A' & T0' & Y0' & S'); [lia|intros k _; specialize (F k); lra|].
  rewrite E, E'. intros H. injection H as ->. assert (Q : y' 2%nat = y 2%nat).
  { pose proof (aligned_at _ _ _ _ _ 1%nat A ltac:(lia)) as P. rewrite (aligned_at _ _ _ _ _ 1%nat A' ltac:(lia)) in P. now injection P. }
  destruct (S 1%nat ltac:(lia)) as [T1 Y1]. destruct (S' 1%nat ltac:(lia)) as [T1' Y1'].
  cbn in T0, Y0, T0', Y0'. rewrite T0 in T1. rewrite T0' in T1'. rewrite Y0 in Y1. rewrite Y0' in Y1'.
  assert (HI : forall a, 0 <= a -> highest 2 (fun k => (a * f k + a * f k) / 2) 1 = a).
  { intros a Ha. unfold highest, last_bars, f. cbn. unfold Rmax. destruct (Rle_dec _ _); lra. }
  assert (LO : forall a, 0 <= a -> lowest 2 (fun k => (a * f k + a * f k) / 2) 1 = 0).
  { intros a Ha. unfold lowest, last_bars, f. cbn. unfold Rmin. destruct (Rle_dec _ _); lra. }
  assert (HI1 : highest 2 (fun k => (f k + f k) / 2) 1 = 1).
  { unfold highest, last_bars, f. cbn. unfold Rmax. destruct (Rle_dec _ _); lra. }
  assert (LO1 : lowest 2 (fun k => (f k + f k) / 2) 1 = 0).
  { unfold lowest, last_bars, f. cbn. unfold Rmin. destruct (Rle_dec _ _); lra. }
  rewrite HI1, LO1 in T1. rewrite HI, LO in T1' by lra. rewrite !(Rmax_right 0), !(Rmax_left (_ - _)) in T1 by lra. rewrite !(Rmax_right 0), !(Rmax_right (_ - _)) in T1' by lra.
  assert (T : t 2%nat = 0.33). { rewrite T1. unfold clamp, f. rewrite Rmin_right, Rmax_right by lra. lra. }
  assert (T' : t' 2%nat = 0). { rewrite T1'. unfold clamp, f. rewrite Rmin_right, Rmax_right by lra. lra. }
  rewrite T in Y1. rewrite T' in Y1'. rewrite Q, Y1 in Y1'. replace ((1 + 0) / (1 - 0)) with 1 in Y1' by lra. rewrite ln_1 in Y1'.
  assert (ln 1 < ln ((1 + 0.33) / (1 - 0.33))) by (apply ln_increasing; lra). rewrite ln_1 in H. lra.
Qed.

Lemma smoothed_step f a : f 10%nat = a -> (forall k, (k < 10)%nat -> f k = 0) ->
  forall j, smoothed 2 f j 10 = a / 2 ^ j /\ forall k, (k < 10)%nat -> smoothed 2 f j k = 0.
Proof.
  intros Ha H0. induction j as [|j [IH IH0]]; [split; [cbn; lra|exact H0]|].
  assert (M : forall i, smoothed 2 f (S j) (S i) = (smoothed 2 f j i + smoothed 2 f j (S i)) / 2).
  { intros i. cbn [smoothed]. unfold last_bars, mean. rewrite map_length, seq_length. replace (S i + 1 - 2)%nat with i by lia. cbn. lra. }
  split.
  - rewrite M, IH, (IH0 9%nat) by lia. cbn [pow]. field. apply pow_nonzero. lra.
  - intros [|k] Hk; [|rewrite M, !IH0 by lia; lra]. cbn [smoothed]. unfold last_bars, mean. cbn -[smoothed]. rewrite !IH0 by lia. lra.
Qed.
Theorem rainbow_scale_refuted : exists c l w k, 0 < c /\ rainbow (scaled c l) w k <> rainbow l w k.
Proof.
  set (f := fun k => if (k <? 10)%nat then 0 else 1). assert (F : forall k, 0 <= f k <= 1) by (intros k; unfold f; destruct (k <? 10)%nat; lra).
  pose proof max_f64_1 as M.
  exists (/ 2000000), (xseries f 11), 2%nat, 2%nat. split; [lra|]. rewrite scaled_xseries.
  destruct (rainbow_real f 11 2 2) as (o & E & A); [lia..|intros k _; specialize (F k); rewrite Rabs_pos_eq; lra|].
  destruct (rainbow_real (fun k => / 2000000 * f k) 11 2 2) as (o' & E' & A'); [lia..|intros k _; specialize (F k); rewrite Rabs_pos_eq; lra|].
  rewrite E, E'. intros H. injection H as ->.
  pose proof (aligned_at _ _ _ _ _ 10%nat A ltac:(lia)) as P. rewrite (aligned_at _ _ _ _ _ 10%nat A' ltac:(lia)) in P. apply (f_equal (fun q => match q with Some (Fin a, _) => a | _ => 0 end)) in P. cbv beta iota zeta in P.
  assert (S1 : forall j, smoothed 2 f j 10 = 1 / 2 ^ j).
  { intros j. apply (smoothed_step f 1); [easy|]. intros k Hk. unfold f. now rewrite (proj2 (Nat.ltb_lt _ _) Hk). }
  assert (S2 : forall j, smoothed 2 (fun k => / 2000000 * f k) j 10 = / 2000000 / 2 ^ j).
  { intros j. apply (smoothed_step (fun k => / 2000000 * f k)); [unfold f; cbn; lra|]. intros k Hk. unfold f. rewrite (proj2 (Nat.ltb_lt _ _) Hk). lra. }
  rewrite (map_ext _ _ S1), (map_ext _ _ S2) in P. revert P. change (f 10%nat) with 1.
  assert (HI : forall a, 0 <= a -> highest 2 (fun k => a * f k) 10 = a).
  { intros a Ha. unfold highest, last_bars, f. cbn. unfold Rmax. destruct (Rle_dec _ _); lra. }
  assert (LO : forall a, 0 <= a -> lowest 2 (fun k => a * f k) 10 = 0).
  { intros a Ha. unfold lowest, last_bars, f. cbn. unfold Rmin. destruct (Rle_dec _ _); lra. }
  assert (HI1 : highest 2 f 10 = 1). { unfold highest, last_bars, f. cbn. unfold Rmax. destruct (Rle_dec _ _); lra. }
  assert (LO1 : lowest 2 f 10 = 0). { unfold lowest, last_bars, f. cbn. unfold Rmin. destruct (Rle_dec _ _); lra. }
  rewrite HI1, LO1, HI, LO by lra. rewrite (Rmax_left (1 - 0)), Rmax_right by lra. unfold mean. cbn [map seq Rsum fold_right length INR pow]. lra.
Qed.
