(** * F64TrendF: the sign of pmo, coppock, kst and special_k in rising markets, in binary64. *)
From Coq Require Import Reals Lra Lia List ZArith.
From Flocq Require Import Core IEEE754.BinarySingleNaN.
From Verif Require Import Spec BaseFacts Tac XReal RSpec XRFacts Bars B64 F64 Smooth Momentum Prings MomReal F64Facts F64Range F64Osc F64Tau F64Sign Mono F64Trend F64TrendB F64TrendC F64TrendD F64TrendE.
Import ListNotations.
Local Unset Implicit Arguments.
Local Open Scope R_scope.

(** The prices: positive, finite and never below the one before. *)
Definition rising (n : nat) (f : nat -> f64) : Prop := (forall k, (k < n)%nat -> fin (f k) /\ 0 < B2R (f k)) /\ climbing n f.

Lemma un_pos (x : f64) : 0 < B2R x -> unsigned x.
Proof. intros H. right. destruct x as [s|s| |s p e B]; cbn in *; try lra. pose proof (F2R_nz s p e B) as Q. cbv zeta in Q. destruct s; [cbn in Q, H; lra|reflexivity]. Qed.
Lemma ratio_up n f i j : rising n f -> (j <= i < n)%nat -> unsigned (Bdiv mode_NE (f i) (f j)) /\ xleb (Fin 1) (xval (Bdiv mode_NE (f i) (f j))) = true.
Proof.
  intros [P C] H. destruct (P i ltac:(lia)) as [Fc Pc]. destruct (P j ltac:(lia)) as [Fp Pp]. split; [apply un_div; now apply un_pos|].
  rewrite xval_div by (assumption || lra). rewrite <- (fl_Z 1) by easy. apply fl_le. apply Rmult_le_reg_r with (B2R (f j)); [lra|]. unfold Rdiv. rewrite Rmult_assoc, Rinv_l, Rmult_1_l, Rmult_1_r by lra.
  apply (climbing_le n); [intros; now apply P|exact C|lia].
Qed.
Lemma not_below (x y : f64) : xleb (xval y) (xval x) = true -> Bltb x y = false.
Proof. intros H. rewrite ltb_xval. destruct (xval x) as [a|[]|], (xval y) as [b|[]|]; cbn in *; try easy. apply Rleb_t in H. now apply Rltb_f. Qed.
Lemma one_val : xval (b64_of_Z 1) = Fin 1. Proof. now apply xval_of_Z. Qed.
Lemma change_un n f i j z : rising n f -> (j <= i < n)%nat -> (0 <= z)%Z -> unsigned (Bmult mode_NE (b64_of_Z z) (Bminus mode_NE (Bdiv mode_NE (f i) (f j)) (b64_of_Z 1))).
Proof.
  intros R H Z. destruct (ratio_up n f i j R H) as [U L]. apply un_mul; [now apply un_of_Z|]. apply un_sub; [exact U|]. apply not_below. now rewrite one_val.
Qed.
Lemma two_ratios (x y : f64) : unsigned x -> unsigned y -> xleb (Fin 1) (xval x) = true -> xleb (Fin 1) (xval y) = true -> unsigned (Bminus mode_NE (Bplus mode_NE x y) (b64_of_Z 2)).
Proof.
  intros Ux Uy Hx Hy. apply un_sub; [now apply un_add|]. apply not_below. rewrite (xval_of_Z 2) by easy.
  destruct (fcases x) as [Fx|[(s & ->)| ->]]; [|destruct s; [easy|]|easy].
  - destruct (fcases y) as [Fy|[(t & ->)| ->]]; [|destruct t; [easy|]|easy].
    + rewrite xval_fin in Hx, Hy by easy. cbn in Hx, Hy. apply Rleb_t in Hx. apply Rleb_t in Hy. rewrite xval_add by easy. rewrite <- (fl_Z 2) by easy. apply fl_le. lra.
    + now destruct x.
  - destruct (fcases y) as [Fy|[(t & ->)| ->]]; [|destruct t; [easy|]|easy]; [now destruct y|reflexivity].
Qed.

(** In each of these a reading that is a number is not negative; it is not a
    negative zero either. *)
Theorem pmo_f64_trend m f n w1 w2 o : rising n f -> @pmo f64 (B64 m) (series f n) w1 w2 = Ok o -> forall x, In x o -> unsigned x.
Proof.
  intros R E. unfold pmo in E. apply bind_Ok in E as (e1 & E1 & E). apply bind_Ok in E as (k & K & E). apply bind_Ok in E as (t & T & E). apply bind_Ok in E as (e2 & E2 & E). apply Ok_inj in E as ->.
  apply slice_from_Ok in T as [_ ->]. apply un_pad_app. refine (ewma_f64_unsigned m _ w2 e2 E2 _). apply ups_skipn. refine (ewma_f64_unsigned m _ w1 e1 E1 _). apply ups_map. intros [a b] H.
  rewrite pairs_series in H. apply in_map_iff in H as (j & [= <- <-] & Hj). apply in_seq in Hj. apply (change_un n f j (j - 1) 1000 R); [lia|easy].
Qed.
Theorem coppock_f64_trend m f n w s l o : rising n f -> @coppock f64 (B64 m) (series f n) w s l = Ok o -> forall x, In x o -> unsigned x.
Proof.
  intros R E. unfold coppock in E. apply bind_Ok in E as (r & Er & E). apply bind_Ok in E as (v & V & E). apply Ok_inj in E as ->. apply un_pad_app. refine (wma_f64_unsigned m _ w v V _).
  intros x Hx. rewrite length_series in Er. apply In_nth_error in Hx as [i Hi]. assert (Q : exists j, In j (seq l (n - l)) /\ @coppock_at f64 (B64 m) (series f n) s l j = Ok x).
  { clear -Er Hi. revert r i Er Hi. induction (seq l (n - l)) as [|a q IH]; intros r i Er Hi; cbn [rmap] in Er; [injection Er as <-; now destruct i|].
    apply bind_Ok in Er as (b & B & Er). apply bind_Ok in Er as (r' & Er & H). apply Ok_inj in H as ->. destruct i as [|i]; [cbn in Hi; injection Hi as <-; exists a; split; [now left|exact B]|].
    destruct (IH r' i Er Hi) as (j & J1 & J2). exists j. split; [now right|exact J2]. }
  destruct Q as (j & Hj & Q). apply in_seq in Hj. unfold coppock_at in Q. rewrite idx_series in Q by lia. cbn [bind] in Q. apply bind_Ok in Q as (js & J & Q). apply usub_Ok in J as [J1 ->]. rewrite idx_series in Q by lia. cbn [bind] in Q.
  apply bind_Ok in Q as (jl & J & Q). apply usub_Ok in J as [J2 ->]. rewrite idx_series in Q by lia. cbn [bind] in Q. apply Ok_inj in Q as ->.
  destruct (ratio_up n f j (j - s) R ltac:(lia)) as [U1 L1]. destruct (ratio_up n f j (j - l) R ltac:(lia)) as [U2 L2]. apply un_mul; [exact (un_of_Z 100 ltac:(easy))|]. exact (two_ratios _ _ U1 U2 L1 L2).
Qed.
Lemma prings_un m f n ts i : rising n f -> (i < n)%nat -> (forall r p k, In (r, p, k) ts -> unsigned k) -> unsigned (@prings_val f64 (B64 m) (series f n) ts i).
Proof.
  intros R Hi K. unfold prings_val. apply un_fold; [now right|]. intros a [[r p] k] Hx Ha. destruct (Nat.leb_spec (r + Nat.max 1 p) (i + 1)) as [L|L]; [|exact Ha]. apply un_add; [exact Ha|]. apply un_mul; [|exact (K r p k Hx)].
  unfold mean_roc. destruct p as [|p]; [left; destruct m as [? ? ? ? ? ? ? ns]; destruct ns; reflexivity|]. apply un_div; [|apply un_nat]. apply un_sum; [easy|]. apply un_map. intros j Hj. apply in_seq in Hj.
  unfold roc_at. rewrite !at_series by lia. apply (change_un n f j (j - r) 100 R); [lia|easy].
Qed.
Lemma un_aligned o n k (g : nat -> f64) : aligned o n k B754_nan g -> (forall i, (i < n)%nat -> unsigned (g i)) -> forall x, In x o -> unsigned x.
Proof.
  intros (L & A1 & A2) U x Hx. apply In_nth_error in Hx as [i Hi]. assert (B : (i < length o)%nat) by (apply nth_error_Some; congruence). destruct (Nat.lt_ge_cases i k) as [Q|Q].
  - rewrite A1 in Hi by easy. injection Hi as <-. apply unsigned_nan.
  - rewrite A2 in Hi by lia. injection Hi as <-. apply U. lia.
Qed.
Theorem kst_f64_trend m f n rocs wins o : rising n f -> @kst f64 (B64 m) (series f n) rocs wins = Ok o -> forall x, In x o -> unsigned x.
Proof.
  intros R E. destruct (@kst_spec f64 (B64 m) (series f n) rocs wins) as [[_ P]|(_ & o' & E' & A)]; [congruence|]. rewrite E in E'. injection E' as <-. rewrite length_series in A. apply (un_aligned _ _ _ _ A). intros i Hi. apply prings_un; [exact R|exact Hi|].
  intros r p k H. unfold kst_terms in H. destruct (unwrap_or rocs _) as [[[? ?] ?] ?], (unwrap_or wins _) as [[[? ?] ?] ?]. cbn [In] in H. repeat (destruct H as [H|H]; [injection H as <- <- <-; now right|]). easy.
Qed.
Theorem special_k_f64_trend m f n o : rising n f -> @special_k f64 (B64 m) (series f n) = Ok o -> forall x, In x o -> unsigned x.
Proof.
  intros R E. destruct (@special_k_spec f64 (B64 m) (series f n)) as [[_ P]|(_ & o' & E' & A)]; [congruence|]. rewrite E in E'. injection E' as <-. rewrite length_series in A. apply (un_aligned _ _ _ _ A). intros i Hi. apply prings_un; [exact R|exact Hi|].
  intros r p k H. unfold special_k_terms in H. cbn [In] in H. repeat (destruct H as [H|H]; [injection H as <- <- <-; now right|]). easy.
Qed.
