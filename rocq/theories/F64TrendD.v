(** * F64TrendD: obv and ulcer in rising markets, in binary64. *)
From Coq Require Import Reals Lra Lia List ZArith.
From Flocq Require Import Core IEEE754.BinarySingleNaN.
From Verif Require Import Spec BaseFacts Tac XReal RSpec XRFacts Bars B64 F64 Smooth Volume VolumeReal Trend TrendReal F64Facts F64Range F64Osc F64Tau Mono F64Trend F64TrendB F64TrendC.
Import ListNotations.
Local Unset Implicit Arguments.
Local Open Scope R_scope.

(** Multiplying by one is exact. *)
Lemma one_times (x : f64) : Bmult mode_NE (b64_of_Z 1) x = x.
Proof.
  pose proof (xval_of_Z 1 ltac:(easy)) as W. apply xval_fin_inv in W as [F1 V1]. destruct x as [s|s| |s p e B]; try (now destruct s || reflexivity). set (x := B754_finite s p e B).
  assert (Fx : fin x) by easy. assert (Nx : B2R x <> 0). { unfold x. cbn -[F2R]. intros Z. apply eq_0_F2R in Z. now destruct s. }
  pose proof (xval_mul (b64_of_Z 1) x F1 Fx) as M. rewrite V1, Rmult_1_l, fl_B2R in M by easy. apply xval_fin_inv in M as [Fm Vm].
  apply B2R_Bsign_inj; [exact Fm|exact Fx|exact Vm|]. rewrite !Bsign_B2R by (easy || now rewrite Vm). now rewrite Vm.
Qed.
(** ** obv: the running total of the volumes, in the arithmetic of the floats *)
Theorem obv_f64_trend m c v n : exists o, @obv f64 (B64 m) (series c n) (series v n) = Ok o /\
  (all_up n c -> aligned o n 1 B754_nan (fun i => fold_left (Bplus mode_NE) (map v (seq 1 i)) (B754_zero false))).
Proof.
  destruct (obv_values (FO := B64 m) c v n) as (o & E & A). exists o. split; [exact E|]. intros H. revert A. apply aligned_ext. intros i Hi.
  assert (G : forall j, (j < n)%nat -> @obv_total f64 (B64 m) c v j = fold_left (Bplus mode_NE) (map v (seq 1 j)) (B754_zero false)).
  { induction j as [|j IH]; intros Hj; [reflexivity|]. cbn [obv_total]. rewrite IH by lia. rewrite seq_S, map_app, fold_left_app. cbn [map fold_left plus fadd B64]. f_equal.
    destruct (gap_sign (c j) (c (S j)) (H j Hj)) as [[G1 G2] _]. unfold fsignum. change (@fisnan f64 (B64 m) (fsub (c (S j)) (c j))) with (is_nan (Bminus mode_NE (c (S j)) (c j))). rewrite G1. change (@fsignbit f64 (B64 m) (fsub (c (S j)) (c j))) with (Bsign (Bminus mode_NE (c (S j)) (c j))). rewrite G2. apply one_times. }
  apply G. lia.
Qed.

(** ** ulcer: zero while the price does not fall *)
Lemma max_le m (b : R) l : forall a, fin a -> B2R a <= b -> (forall x, In x l -> fin x /\ B2R x <= b) -> B2R (fold_left (@fmax f64 (B64 m)) l a) <= b.
Proof.
  induction l as [|c l IH]; intros a Fa Ha H; cbn [fold_left]; [exact Ha|]. destruct (H c (or_introl eq_refl)) as [Fc Hc]. destruct (fmax_fin m a c Fa Fc) as [FM VM].
  apply IH; [exact FM| |intros; apply H; now right]. change (B2R (fmax a c)) with (B2R (@fmax f64 (B64 m) a c)). rewrite VM. now apply Rmax_lub.
Qed.
Lemma max_of_le m (b : R) l : l <> [] -> (forall x, In x l -> fin x /\ B2R x <= b) -> B2R (@max_of f64 (B64 m) l) <= b.
Proof. destruct l as [|a l]; [easy|]. intros _ H. destruct (H a (or_introl eq_refl)) as [H1 H2]. exact (max_le m b l a H1 H2 (fun x Hx => H x (or_intror Hx))). Qed.
Lemma climbing_le n f a b : (forall k, (k < n)%nat -> fin (f k)) -> climbing n f -> (a <= b < n)%nat -> B2R (f a) <= B2R (f b).
Proof.
  intros Fi H [L B]. induction b as [|b IH]; [replace a with 0%nat by lia; lra|]. destruct (Nat.eq_dec a (S b)) as [->|]; [lra|]. apply Rle_trans with (B2R (f b)); [apply IH; lia|].
  pose proof (H b B) as Q. rewrite leb_xval, !xval_fin in Q by (apply Fi; lia). cbn in Q. now apply Rleb_t in Q.
Qed.
Lemma same_sub (x y : f64) : fin x -> fin y -> B2R x = B2R y -> zero_or_nan (Bminus mode_NE x y).
Proof.
  intros Fx Fy E. right. pose proof (xval_sub x y Fx Fy) as V. replace (B2R x - B2R y) with 0 in V by lra. rewrite (fl_Z 0) in V by easy. apply xval_fin_inv in V as [Fd Vd].
  destruct (Bminus mode_NE x y) as [s|s| |s p e B]; try easy; [now exists s|]. exfalso. revert Vd. cbn -[F2R]. intros Z. apply eq_0_F2R in Z. now destruct s.
Qed.
Lemma zn_hundred (x : f64) : zero_or_nan x -> zero_or_nan (Bmult mode_NE (b64_of_Z 100) x).
Proof. intros [-> |[t ->]]; [left; apply nan_mult_r|right; eexists; reflexivity]. Qed.
Theorem ulcer_f64_trend m f n w o : (forall k, (k < n)%nat -> fin (f k)) -> climbing n f -> @ulcer f64 (B64 m) (series f n) w = Ok o -> Forall zero_or_nan o.
Proof.
  intros Fi C E. unfold ulcer in E. destruct w as [|w]; [easy|]. unfold series in E. rewrite rwindows_bars in E by lia. cbn [bind] in E. unfold usub in E. cbn [Nat.leb bind] in E. cbn [plus] in E. rewrite map_map, skipn_bars in E. cbn [plus] in E.
  replace (n + 1 - S w)%nat with (n - (S w - 1))%nat in E by lia. replace (S (w - 0) - 1)%nat with (S w - 1)%nat in E by lia. rewrite combine_bars, Nat.min_id, map_map in E.
  destruct (sma _ _) as [s|] eqn:S; cbn [bind] in E; [|easy]. injection E as <-.
  assert (Z : forall x, In x s -> zero_or_nan x).
  { unfold sma in S. destruct (usub (Datatypes.S w) 1) as [k|]; cbn [bind] in S; [|easy]. destruct (rwindows (Datatypes.S w) _) as [ws|] eqn:W; cbn [bind] in S; [|easy]. injection S as <-. intros x Hx. apply in_app_iff in Hx as [Hx|Hx]; [apply in_pad in Hx; now left|].
    apply in_map_iff in Hx as (v & <- & Hv). apply zn_div, zn_fsum. intros y Hy. unfold rwindows in W. cbn [Nat.eqb] in W. injection W as <-. apply in_map_iff in Hv as (j & <- & _). apply firstn_in, skipn_in, in_map_iff in Hy as (i & <- & Hi). apply in_seq in Hi.
    unfold ulcer_dd, powi2. apply zn_mul, zn_div. apply zn_hundred.
    destruct (max_of_fin m (last_bars (Datatypes.S w) f i)) as [FM UM]; [apply last_bars_ne; lia|intros x Hx; apply in_last_bars in Hx as (k' & -> & Hk); apply Fi; lia|].
    apply same_sub; [apply Fi; lia|exact FM|]. apply Rle_antisym; [apply UM, last_bars_at; lia|].
    apply (max_of_le m (B2R (f i)) (last_bars (Datatypes.S w) f i)); [apply last_bars_ne; lia|]. intros x Hx. apply in_last_bars in Hx as (k' & -> & Hk). split; [apply Fi; lia|apply (climbing_le n); [exact Fi|exact C|lia]]. }
  apply Forall_app. split; [apply Forall_forall; intros x Hx; apply in_pad in Hx; now left|]. apply Forall_forall. intros x Hx. apply in_map_iff in Hx as (y & <- & Hy). destruct (Z y Hy) as [-> |[t ->]]; [now left|right; exists t; reflexivity].
Qed.
