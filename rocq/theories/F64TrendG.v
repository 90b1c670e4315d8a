(** * F64TrendG: tvi, pvi and nvi in rising markets, in binary64. *)
From Coq Require Import Reals Lra Lia List ZArith.
From Flocq Require Import Core IEEE754.BinarySingleNaN.
From Verif Require Import Spec BaseFacts Tac XReal RSpec XRFacts Bars B64 F64 Smooth Volume VolumeReal F64Facts F64Range F64Osc F64Tau F64Sign Mono F64Trend F64TrendB F64TrendC F64TrendD F64TrendE F64TrendF.
Import ListNotations.
Local Unset Implicit Arguments.
Local Open Scope R_scope.

Lemma above_tick (t d : f64) : unsigned t -> Bltb (B754_zero false) d = false -> Bltb t d = false.
Proof.
  intros U H. destruct (Bltb t d) eqn:E; [|reflexivity]. exfalso. rewrite ltb_xval in E, H. change (xval (B754_zero false)) with (Fin 0) in H.
  destruct t as [s|s| |s p e B].
  - change (xval (B754_zero s)) with (Fin 0) in E. congruence.
  - destruct s; [now destruct U|]. now destruct (xval d) as [|[]|].
  - now destruct (xval d).
  - destruct s; [now destruct U|]. pose proof (F2R_nz false p e B) as Q. cbv zeta iota in Q. rewrite (xval_fin (B754_finite false p e B)) in E by easy. set (r := B2R (B754_finite false p e B)) in *. clearbody r. destruct (xval d) as [a|[]|]; cbn in E, H; try discriminate. apply Rltb_t in E. apply Rltb_f in H. lra.
Qed.
(** ** tvi: as obv, the running total of the volumes *)
Theorem tvi_f64_trend m c v t n : (0 < n)%nat -> unsigned t -> no_dip n c -> exists o, @tvi f64 (B64 m) (series c n) (series v n) t = Ok o /\
  aligned o n 1 B754_nan (fun i => fold_left (Bplus mode_NE) (map v (seq 1 i)) (B754_zero false)).
Proof.
  intros Hn U D. destruct (tvi_values (FO := B64 m) t c v n Hn) as (o & E & A). exists o. split; [exact E|]. revert A. apply aligned_ext. intros i Hi.
  assert (T : forall j, (j < n)%nat -> @tvi_dir f64 (B64 m) t c j = true).
  { induction j as [|j IH]; intros Hj; [reflexivity|]. cbn [tvi_dir]. destruct (fgtb _ _); [reflexivity|].
    change (@fgtb f64 (B64 m) (fsub (c j) (c (S j))) t) with (Bltb t (Bminus mode_NE (c j) (c (S j)))). rewrite above_tick; [apply IH; lia|exact U|]. apply below_zero. now apply D. }
  assert (G : forall j, (j < n)%nat -> @total_from f64 (B64 m) 1 (flit 0 1) (fun k => fmul (if @tvi_dir f64 (B64 m) t c k then flit 1 1 else flit (-1) 1) (v k)) j = fold_left (Bplus mode_NE) (map v (seq 1 j)) (B754_zero false)).
  { induction j as [|j IH]; intros Hj; [reflexivity|]. cbn [total_from]. rewrite IH by lia. rewrite seq_S, map_app, fold_left_app. cbn [map fold_left]. cbn [fadd B64]. f_equal. rewrite T by (cbn; lia). apply one_times. }
  apply G. lia.
Qed.
(** ** pvi and nvi: they start at 100 and never fall *)
Lemma index_up (s r : f64) : xleb (Fin 1) (xval s) = true -> xleb (Fin 1) (xval r) = true -> Bleb s (Bmult mode_NE s r) = true.
Proof.
  intros Hs Hr. rewrite leb_xval. destruct (fcases s) as [Fs|[(x & ->)| ->]]; [|destruct x; [easy|]|easy].
  - destruct (fcases r) as [Fr|[(y & ->)| ->]]; [|destruct y; [easy|]|easy].
    + rewrite xval_fin in Hs, Hr by easy. cbn in Hs, Hr. apply Rleb_t in Hs. apply Rleb_t in Hr. rewrite xval_mul by easy. rewrite xval_fin by easy. rewrite <- fl_B2R by easy. apply fl_le. rewrite <- (Rmult_1_r (B2R s)) at 1. apply Rmult_le_compat_l; lra.
    + rewrite xval_fin in Hs by easy. cbn in Hs. apply Rleb_t in Hs. destruct s as [a|a| |a p e B]; try easy; [cbn in Hs; lra|]. pose proof (F2R_nz a p e B) as Q. cbv zeta in Q. destruct a; [lra|reflexivity].
  - destruct (fcases r) as [Fr|[(y & ->)| ->]]; [|destruct y; [easy|]|easy]; [|reflexivity].
    rewrite xval_fin in Hr by easy. cbn in Hr. apply Rleb_t in Hr. destruct r as [a|a| |a p e B]; try easy; [cbn in Hr; lra|]. pose proof (F2R_nz a p e B) as Q. cbv zeta in Q. destruct a; [lra|reflexivity].
Qed.
Lemma xleb_trans3 a b c : xleb a b = true -> xleb b c = true -> xleb a c = true.
Proof. destruct a as [a|[]|], b as [b|[]|], c as [c|[]|]; cbn; try easy. intros H1 H2. apply Rleb_t in H1. apply Rleb_t in H2. apply Rleb_t. lra. Qed.
Lemma index_rises m up c v n : rising n c -> forall i, (i < n)%nat -> xleb (Fin 100) (xval (@vol_index f64 (B64 m) up c v i)) = true /\ ((S i < n)%nat -> Bleb (@vol_index f64 (B64 m) up c v i) (@vol_index f64 (B64 m) up c v (S i)) = true).
Proof.
  intros R. assert (S1 : forall i, (S i < n)%nat -> xleb (Fin 100) (xval (@vol_index f64 (B64 m) up c v i)) = true -> Bleb (@vol_index f64 (B64 m) up c v i) (@vol_index f64 (B64 m) up c v (S i)) = true).
  { intros i Hi H. cbn [vol_index]. destruct (up _ _).
    - apply index_up; [apply (xleb_trans3 _ (Fin 100)); [cbn; apply Rleb_t; lra|exact H]|]. apply (ratio_up n c (S i) i R). lia.
    - rewrite leb_xval. destruct (xval _) as [a|[]|]; cbn in *; try easy. apply Rleb_t. lra. }
  induction i as [|i IH]; intros Hi.
  - assert (Z : xleb (Fin 100) (xval (@vol_index f64 (B64 m) up c v 0)) = true). { change (@vol_index f64 (B64 m) up c v 0) with (b64_of_Z 100). rewrite (xval_of_Z 100) by easy. cbn [xleb]. apply Rleb_t. lra. } split; [exact Z|]. intros; now apply S1.
  - destruct (IH ltac:(lia)) as [I1 I2]. specialize (I2 Hi). rewrite leb_xval in I2. pose proof (xleb_trans3 _ _ _ I1 I2) as Z. split; [exact Z|]. intros; now apply S1.
Qed.
Lemma index_aligned m up c v n o : rising n c -> aligned o n 1 B754_nan (@vol_index f64 (B64 m) up c v) -> forall i j, (1 <= i)%nat -> (i <= j < n)%nat ->
  Bleb (b64_of_Z 100) (nth i o B754_nan) = true /\ Bleb (nth i o B754_nan) (nth j o B754_nan) = true.
Proof.
  intros R (_ & _ & A) i j Hi Hj. rewrite (nth_error_nth o i B754_nan (A i ltac:(lia))), (nth_error_nth o j B754_nan (A j ltac:(lia))).
  split; [rewrite leb_xval, (xval_of_Z 100) by easy; apply (index_rises m up c v n R i); lia|]. destruct Hj as [Hij Hj]. induction j as [|j IH]; [lia|]. destruct (Nat.eq_dec i (S j)) as [->|N].
  - destruct (index_rises m up c v n R (S j) Hj) as [Z _]. rewrite leb_xval. destruct (xval _) as [a|[]|]; cbn in Z |- *; try easy. apply Rleb_t. lra.
  - specialize (IH ltac:(lia) ltac:(lia)). destruct (index_rises m up c v n R j ltac:(lia)) as [_ Q]. specialize (Q Hj). rewrite leb_xval in *. exact (xleb_trans3 _ _ _ IH Q).
Qed.
Theorem pvi_f64_trend m c v n i j : rising n c -> (1 <= i)%nat -> (i <= j < n)%nat -> let o := @pvi f64 (B64 m) (series c n) (series v n) in
  Bleb (b64_of_Z 100) (nth i o B754_nan) = true /\ Bleb (nth i o B754_nan) (nth j o B754_nan) = true.
Proof. intros R Hi Hj o. exact (index_aligned m _ c v n o R (pvi_values (FO := B64 m) c v n) i j Hi Hj). Qed.
Theorem nvi_f64_trend m c v n i j : rising n c -> (1 <= i)%nat -> (i <= j < n)%nat -> let o := @nvi f64 (B64 m) (series c n) (series v n) in
  Bleb (b64_of_Z 100) (nth i o B754_nan) = true /\ Bleb (nth i o B754_nan) (nth j o B754_nan) = true.
Proof. intros R Hi Hj o. exact (index_aligned m _ c v n o R (nvi_values (FO := B64 m) c v n) i j Hi Hj). Qed.
