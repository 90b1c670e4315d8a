(** * F64TrendE: the sign of roc in one-way markets, in binary64. *)
From Coq Require Import Reals Lra Lia List ZArith.
From Flocq Require Import Core IEEE754.BinarySingleNaN.
From Verif Require Import Spec BaseFacts Tac XReal RSpec XRFacts Bars B64 F64 Smooth Momentum MomReal F64Facts F64Range F64Osc F64Tau F64Sign Volume VolumeReal Mono F64Trend F64TrendB F64TrendC F64TrendD.
Import ListNotations.
Local Unset Implicit Arguments.
Local Open Scope R_scope.

(** The relative change, as [roc] computes it, has the sign of the change: the
    quotient may overflow or vanish, but it never crosses one. *)
Lemma change_up (c p : f64) : fin c -> fin p -> 0 < B2R p -> B2R p <= B2R c ->
  Bleb (B754_zero false) (Bmult mode_NE (b64_of_Z 100) (Bminus mode_NE (Bdiv mode_NE c p) (b64_of_Z 1))) = true.
Proof.
  intros Fc Fp Pp H. pose proof (xval_of_Z 1 ltac:(easy)) as W. apply xval_fin_inv in W as [F1 V1]. pose proof (xval_of_Z 100 ltac:(easy)) as W. apply xval_fin_inv in W as [Fh Vh].
  pose proof (xval_div c p Fc Fp ltac:(lra)) as D. assert (Q : 1 <= B2R c / B2R p) by (apply Rmult_le_reg_r with (B2R p); [lra|]; unfold Rdiv; rewrite Rmult_assoc, Rinv_l; lra).
  pose proof (fl_le 1 _ Q) as L. rewrite (fl_Z 1), <- D in L by easy. destruct (Bdiv mode_NE c p) as [s|s| |s a e B] eqn:X; try easy.
  - cbn in L. apply Rleb_t in L. lra.
  - destruct s; [easy|]. vm_compute. reflexivity.
  - rewrite <- X in *. assert (Fx : fin (Bdiv mode_NE c p)) by now rewrite X. clear X. set (x := Bdiv mode_NE c p) in *. rewrite xval_fin in L by easy. cbn in L. apply Rleb_t in L.
    pose proof (xval_sub x (b64_of_Z 1) Fx F1) as S. rewrite V1 in S. pose proof (fl_le 0 (B2R x - 1) ltac:(lra)) as LS. rewrite (fl_Z 0), <- S in LS by easy.
    destruct (Bminus mode_NE x (b64_of_Z 1)) as [s'|s'| |s' a' e' B'] eqn:Y; [now destruct s'|destruct s'; [discriminate LS|now vm_compute]|discriminate LS|].
    rewrite <- Y in *. assert (Fy : fin (Bminus mode_NE x (b64_of_Z 1))) by now rewrite Y. clear Y. set (y := Bminus mode_NE x (b64_of_Z 1)) in *. rewrite xval_fin in LS by easy. cbn in LS. apply Rleb_t in LS.
    rewrite leb_xval, (xval_mul _ y Fh Fy), Vh. change (xval (B754_zero false)) with (Fin 0). rewrite <- (fl_Z 0) by easy. apply fl_le. lra.
Qed.
Lemma change_down (c p : f64) : fin c -> fin p -> 0 < B2R p -> 0 <= B2R c <= B2R p ->
  Bleb (Bmult mode_NE (b64_of_Z 100) (Bminus mode_NE (Bdiv mode_NE c p) (b64_of_Z 1))) (B754_zero false) = true.
Proof.
  intros Fc Fp Pp H. pose proof (xval_of_Z 1 ltac:(easy)) as W. apply xval_fin_inv in W as [F1 V1]. pose proof (xval_of_Z 100 ltac:(easy)) as W. apply xval_fin_inv in W as [Fh Vh].
  pose proof (xval_div c p Fc Fp ltac:(lra)) as D. assert (Q : 0 <= B2R c / B2R p <= 1). { split; [apply Rmult_le_pos; [lra|left; now apply Rinv_0_lt_compat]|]. apply Rmult_le_reg_r with (B2R p); [lra|]; unfold Rdiv; rewrite Rmult_assoc, Rinv_l; lra. }
  pose proof (fl_le _ 1 (proj2 Q)) as L. rewrite (fl_Z 1), <- D in L by easy. pose proof (fl_le 0 _ (proj1 Q)) as L0. rewrite (fl_Z 0), <- D in L0 by easy.
  set (x := Bdiv mode_NE c p) in *. assert (Fx : fin x) by (clearbody x; destruct x as [|[]| |]; easy). rewrite xval_fin in L, L0 by easy. cbn in L, L0. apply Rleb_t in L. apply Rleb_t in L0.
  pose proof (xval_sub x (b64_of_Z 1) Fx F1) as S. rewrite V1 in S. pose proof (fl_le (B2R x - 1) 0 ltac:(lra)) as LS. rewrite (fl_Z 0), <- S in LS by easy. pose proof (fl_le (-1) (B2R x - 1) ltac:(lra)) as LT. rewrite (fl_Z (-1)), <- S in LT by easy.
  set (y := Bminus mode_NE x (b64_of_Z 1)) in *. assert (Fy : fin y) by (clearbody y; destruct y as [|[]| |]; easy). rewrite xval_fin in LS, LT by easy. cbn in LS, LT. apply Rleb_t in LS. apply Rleb_t in LT.
  rewrite leb_xval, (xval_mul _ y Fh Fy), Vh. change (xval (B754_zero false)) with (Fin 0). rewrite <- (fl_Z 0) by easy. apply fl_le. lra.
Qed.
Lemma sinking_le n f a b : (forall k, (k < n)%nat -> fin (f k)) -> sinking n f -> (a <= b < n)%nat -> B2R (f b) <= B2R (f a).
Proof.
  intros Fi H [L B]. induction b as [|b IH]; [replace a with 0%nat by lia; lra|]. destruct (Nat.eq_dec a (S b)) as [->|]; [lra|]. apply Rle_trans with (B2R (f b)); [|apply IH; lia].
  pose proof (H b B) as Q. rewrite leb_xval, !xval_fin in Q by (apply Fi; lia). cbn in Q. now apply Rleb_t in Q.
Qed.

(** ** roc: never negative while prices climb, never positive while they sink.
    The prices are positive and finite; every bar after the warm-up prints a
    number or an infinity of that sign. *)
Theorem roc_f64_trend m f n w : (0 < w)%nat -> (forall k, (k < n)%nat -> fin (f k) /\ 0 < B2R (f k)) ->
  exists o, @roc f64 (B64 m) (series f n) w = Ok o /\ length o = Nat.max (w - 1) n /\ forall i, (w - 1 <= i < n)%nat ->
    (climbing n f -> Bleb (B754_zero false) (nth i o B754_nan) = true) /\ (sinking n f -> Bleb (nth i o B754_nan) (B754_zero false) = true).
Proof.
  intros Hw P. destruct (roc_values (FO := B64 m) f n w Hw) as (o & E & L & A). exists o. split; [exact E|]. split; [exact L|]. intros i Hi. destruct A as [_ A].
  rewrite (nth_error_nth o i B754_nan (A i Hi)). destruct (P i ltac:(lia)) as [Fc Pc]. destruct (P (i - (w - 1))%nat ltac:(lia)) as [Fp Pp]. split; intros M.
  - apply change_up; try assumption. apply (climbing_le n); [intros; now apply P|exact M|lia].
  - apply change_down; try assumption. split; [lra|]. apply (sinking_le n); [intros; now apply P|exact M|lia].
Qed.

(** ** elder_force and vpt: while no price is below the one before, neither is
    ever negative, not even as a negative zero; prices and volumes are not
    negative and may be NaN or infinite. *)
Theorem elder_force_f64_trend m c v n w o : (forall k, (k < n)%nat -> unsigned (c k) /\ unsigned (v k)) -> no_dip n c ->
  @elder_force f64 (B64 m) (series c n) (series v n) w = Ok o -> forall x, In x o -> unsigned x.
Proof.
  intros U D E. destruct n as [|n]; [easy|]. unfold elder_force in E. rewrite steps3_series in E by lia. cbn [bind] in E. apply bind_Ok in E as (e & E & H). apply Ok_inj in H as ->.
  intros x [<-|Hx]; [apply unsigned_nan|]. refine (ewma_f64_unsigned m _ w e E _ x Hx). rewrite map_map. intros y Hy. apply in_map_iff in Hy as (k & <- & Hk). apply in_seq in Hk.
  apply un_mul; [|apply U; lia]. apply un_sub; [apply U; lia|]. replace (c k) with (c (S (k - 1))) by (f_equal; lia). apply D. lia.
Qed.
Theorem vpt_f64_trend m c v n o : (forall k, (k < n)%nat -> unsigned (c k) /\ unsigned (v k)) -> no_dip n c ->
  @vpt f64 (B64 m) (series c n) (series v n) = Ok o -> forall i, (i < n)%nat -> unsigned (nth i o B754_nan).
Proof.
  intros U D E i Hi. destruct (vpt_values (FO := B64 m) c v n ltac:(lia)) as (o' & E' & A). rewrite E in E'. injection E' as <-. destruct A as (_ & A1 & A2).
  destruct i as [|i]; [rewrite (nth_error_nth o 0 B754_nan (A1 0%nat ltac:(lia))); apply unsigned_nan|]. rewrite (nth_error_nth o (S i) B754_nan (A2 (S i) ltac:(lia))).
  assert (G : forall j, (j < n)%nat -> unsigned (@total_from f64 (B64 m) 1 (flit 0 1) (fun k => @fdiv f64 (B64 m) (fmul (v k) (fsub (c k) (c (k - 1)%nat))) (c (k - 1)%nat)) j)).
  { induction j as [|j IH]; intros Hj; cbn [total_from]; [now right|]. apply un_add; [apply IH; lia|]. apply un_div; [|apply U; lia]. apply un_mul; [apply U; lia|]. apply un_sub; [apply U; lia|]. replace (1 + j - 1)%nat with j by lia. apply (D j). lia. }
  now apply G.
Qed.
