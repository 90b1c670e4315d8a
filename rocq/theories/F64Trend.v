(** * F64Trend: markets that only rise or only fall, in binary64.

    The real-number versions are in [Trending].  Here every operation rounds,
    sums may overflow and prices may be NaN or infinite; the oscillators below
    still sit exactly at their limit, or print NaN when there is nothing to
    divide by. *)
From Coq Require Import Reals Lra Lia List ZArith.
From Flocq Require Import Core IEEE754.BinarySingleNaN.
From Verif Require Import Spec BaseFacts Tac XReal RSpec XRFacts Bars B64 F64 Smooth Momentum MomReal Volume VolumeReal F64Facts F64Range F64Osc F64Tau Mono.
Import ListNotations.
Local Unset Implicit Arguments.
Local Open Scope R_scope.

(** No price is below the one before it; no price is above it ([NaN] is neither). *)
Definition no_dip (n : nat) (f : nat -> f64) : Prop := forall k, (S k < n)%nat -> Bltb (f (S k)) (f k) = false.
Definition no_gain (n : nat) (f : nat -> f64) : Prop := forall k, (S k < n)%nat -> Bltb (f k) (f (S k)) = false.
(** Every price is above the one before it; every price is below it. *)
Definition all_up (n : nat) (f : nat -> f64) : Prop := forall k, (S k < n)%nat -> Bltb (f k) (f (S k)) = true.
Definition all_down (n : nat) (f : nat -> f64) : Prop := forall k, (S k < n)%nat -> Bltb (f (S k)) (f k) = true.
(** The number [z], exactly, or NaN. *)
Definition exact_or_nan (z : Z) (x : f64) : Prop := x = b64_of_Z z \/ x = B754_nan.

Lemma below_zero (x y : f64) : Bltb y x = false -> Bltb (B754_zero false) (Bminus mode_NE x y) = false.
Proof.
  intros H. fsplit x; fsplit y; try (rewrite ?nan_minus_l, ?nan_minus_r; apply ltb_nan_r).
  - apply (ltb_of _ _ _ _ (xval_self (B754_zero false) ltac:(easy)) (xval_sub x y ltac:(easy) ltac:(easy))). rewrite ltb_xval, !xval_fin in H by easy. cbn in H. apply Rltb_f in H. cbn. lra.
  - destruct s; [now destruct x as [| | |[]]|]. now destruct x as [| | |[]].
  - destruct s; [now destruct y as [| | |[]]|]. now destruct y as [| | |[]].
  - now destruct s, s0.
Qed.
Lemma max_below m (x y : f64) : Bltb y x = false -> @fmax f64 (B64 m) (flit 0 1) (fsub x y) = B754_zero false.
Proof.
  intros H. unfold fmax. change (@fisnan f64 (B64 m) (flit 0 1)) with false. cbv iota. destruct (fisnan _); [reflexivity|].
  change (@fltb f64 (B64 m) (flit 0 1) (fsub x y)) with (Bltb (B754_zero false) (Bminus mode_NE x y)). now rewrite below_zero.
Qed.

(** A float over itself. *)
Lemma div_self (x : f64) : exact_or_nan 1 (Bdiv mode_NE x x).
Proof.
  destruct x as [s|s| |s p e H]; try (right; now destruct s || reflexivity). left. set (x := B754_finite s p e H).
  assert (Fx : fin x) by easy. assert (Nx : B2R x <> 0). { unfold x. cbn -[F2R]. intros Z. apply eq_0_F2R in Z. now destruct s. }
  pose proof (xval_div x x Fx Fx Nx) as V. unfold Rdiv in V. rewrite Rinv_r in V by easy. rewrite (fl_Z 1) in V by easy. apply xval_fin_inv in V as [Fd Vd].
  pose proof (xval_of_Z 1 ltac:(easy)) as W. apply xval_fin_inv in W as [F1 V1]. apply B2R_Bsign_inj; [exact Fd|exact F1|lra|].
  rewrite !Bsign_B2R by (easy || lra). now rewrite Vd, V1.
Qed.
Lemma opp_div_self (x : f64) : exact_or_nan (-1) (Bdiv mode_NE (Bopp x) x).
Proof.
  destruct x as [s|s| |s p e H]; try (right; now destruct s || reflexivity). left. set (x := B754_finite s p e H).
  assert (Fx : fin x) by easy. assert (Fo : fin (Bopp x)) by easy. assert (Nx : B2R x <> 0). { unfold x. cbn -[F2R]. intros Z. apply eq_0_F2R in Z. now destruct s. }
  pose proof (xval_div (Bopp x) x Fo Fx Nx) as V. rewrite B2R_Bopp in V. replace (- B2R x / B2R x) with (-1) in V by (field; easy). rewrite (fl_Z (-1)) in V by easy. apply xval_fin_inv in V as [Fd Vd].
  pose proof (xval_of_Z (-1) ltac:(easy)) as W. apply xval_fin_inv in W as [F1 V1]. apply B2R_Bsign_inj; [exact Fd|exact F1|lra|].
  rewrite !Bsign_B2R by (easy || lra). now rewrite Vd, V1.
Qed.

(** ** cmo: exactly 100 (or NaN) when no price is below the one before, exactly -100 when none is above *)
Lemma pair_step {A} (f : nat -> A) n v : In v (windows 2 (series f n)) -> exists k, (S k < n)%nat /\ v = [f k; f (S k)].
Proof.
  rewrite windows2_series. intros H. apply in_map_iff in H as (j & <- & Hj). apply in_seq in Hj. exists (j - 1)%nat. split; [lia|]. now replace (S (j - 1)) with j by lia.
Qed.
Lemma cum_side m f n : let cum := @cmo_cum f64 (B64 m) (series f n) in
  (no_dip n f -> forall p, In p cum -> snd p = B754_zero false) /\ (no_gain n f -> forall p, In p cum -> fst p = B754_zero false).
Proof.
  cbv zeta. unfold cmo_cum. split; intros H p [<- |Hp]; try reflexivity; revert p Hp.
  - apply (in_scan _ (fun s => snd s = (B754_zero false : f64))); [reflexivity|]. intros [g l] a Ha. cbn [snd]. intros ->. apply pair_step in Ha as (k & Hk & ->). cbn [fst snd]. cbn [at_ nth].
    rewrite max_below by now apply H. now split.
  - apply (in_scan _ (fun s => fst s = (B754_zero false : f64))); [reflexivity|]. intros [g l] a Ha. cbn [fst]. intros ->. apply pair_step in Ha as (k & Hk & ->). cbn [fst snd]. cbn [at_ nth].
    rewrite max_below by now apply H. now split.
Qed.
Lemma mul_100 m z (x : f64) : (z = 1 \/ z = -1)%Z -> exact_or_nan z x -> exact_or_nan (z * 100) (@fmul f64 (B64 m) x (flit 100 1)).
Proof.
  intros [-> | ->] [-> | ->]; [left| |left|]; [|right; exact (nan_mult_l _)| |right; exact (nan_mult_l _)].
  - apply B2SF_inj. vm_compute. reflexivity.
  - apply B2SF_inj. vm_compute. reflexivity.
Qed.
Theorem cmo_f64_trend m f n w : exists o, @cmo f64 (B64 m) (series f n) w = Ok o /\
  (no_dip n f -> Forall (exact_or_nan 100) o) /\ (no_gain n f -> Forall (exact_or_nan (-100)) o).
Proof.
  eexists. split; [reflexivity|]. destruct (cum_side m f n) as [D G].
  assert (W : forall v, In v (windows (w + 1) (@cmo_cum f64 (B64 m) (series f n))) -> In (nth (length v - 1) v (fnan, fnan)) (@cmo_cum f64 (B64 m) (series f n)) /\ In (nth 0 v (fnan, fnan)) (@cmo_cum f64 (B64 m) (series f n))).
  { intros v Hv. apply in_map_iff in Hv as (j & <- & Hj). apply in_seq in Hj. set (cum := cmo_cum _) in *. set (v := firstn (w + 1) (skipn j cum)).
    assert (LV : length v = (w + 1)%nat) by (unfold v; rewrite firstn_length, skipn_length; lia). assert (IV : forall p, In p v -> In p cum) by (intros p Hp; now apply firstn_in, skipn_in in Hp).
    split; apply IV, nth_In; lia. }
  split; intros H; apply Forall_app; (split; [apply Forall_forall; intros x Hx; apply in_pad in Hx; now right|]); apply Forall_forall; intros x Hx; apply in_map_iff in Hx as (y & <- & Hy).
  - apply (mul_100 m 1); [now left|]. apply in_map_iff in Hy as (v & <- & Hv). destruct (W v Hv) as [W1 W2]. unfold cmo_win. rewrite (D H _ W1), (D H _ W2). set (g := fsub (fst _) (fst _)). clearbody g.
    change (fsub (B754_zero false) (B754_zero false)) with (B754_zero false : f64). cbn [fsub fadd fdiv B64].
    destruct g as [s|s| |s p e B]; try (right; now destruct s || reflexivity). exact (div_self (B754_finite s p e B)).
  - apply (mul_100 m (-1)); [now right|]. apply in_map_iff in Hy as (v & <- & Hv). destruct (W v Hv) as [W1 W2]. unfold cmo_win. rewrite (G H _ W1), (G H _ W2). set (g := fsub (snd _) (snd _)). clearbody g.
    change (fsub (B754_zero false) (B754_zero false)) with (B754_zero false : f64). cbn [fsub fadd fdiv B64].
    destruct g as [s|s| |s p e B]; try (right; now destruct s || reflexivity). exact (opp_div_self (B754_finite s p e B)).
Qed.

(** ** Sums of zeros and of ones *)
Lemma zeros_sum m (l : list f64) : l <> [] -> (forall x, In x l -> x = B754_zero false) -> @fsum f64 (B64 m) l = B754_zero false.
Proof.
  intros N H. unfold fsum. destruct l as [|a l]; [easy|]. cbn [fold_left]. rewrite (H a (or_introl eq_refl)).
  replace (@fadd f64 (B64 m) fsum0 (B754_zero false)) with (B754_zero false : f64) by (cbn [fadd fsum0 B64]; now destruct (lm_negsum0 m)).
  assert (H' : forall x, In x l -> x = B754_zero false) by (intros; apply H; now right). clear H N. induction l as [|b l IH]; [reflexivity|]. cbn [fold_left]. rewrite (H' b (or_introl eq_refl)). apply IH. intros; apply H'; now right.
Qed.
Lemma ones_sum m (l : list f64) : (Z.of_nat (length l) <= 2 ^ 53)%Z -> (forall x, In x l -> x = b64_of_Z 1) -> is_int (Z.of_nat (length l)) (@fsum f64 (B64 m) l).
Proof.
  intros L H. unfold fsum. assert (Z0 : is_int 0 (@fsum0 f64 (B64 m))) by reflexivity. set (s := @fsum0 f64 (B64 m)) in *. clearbody s.
  assert (G : forall a s, is_int (Z.of_nat a) s -> (Z.of_nat (a + length l) <= 2 ^ 53)%Z -> is_int (Z.of_nat (a + length l)) (fold_left (@fadd f64 (B64 m)) l s)).
  { clear L Z0 s. induction l as [|b l IH]; intros a s A B; cbn [fold_left length] in *; [now rewrite Nat.add_0_r|].
    rewrite (H b (or_introl eq_refl)). replace (a + S (length l))%nat with (S a + length l)%nat by lia. apply IH; [intros; apply H; now right| |lia].
    replace (Z.of_nat (S a)) with (Z.of_nat a + 1)%Z by lia. apply int_add; [exact A|now apply xval_of_Z|lia]. }
  exact (G 0%nat s Z0 L).
Qed.
Lemma int_is z (x : f64) : (z <> 0)%Z -> (Z.abs z <= 2 ^ 53)%Z -> is_int z x -> x = b64_of_Z z.
Proof.
  intros N B H. apply xval_fin_inv in H as [Fx Vx]. pose proof (xval_of_Z z B) as W. apply xval_fin_inv in W as [F1 V1].
  assert (IZR z <> 0) by now apply not_0_IZR. apply B2R_Bsign_inj; [exact Fx|exact F1|lra|]. rewrite !Bsign_B2R by (easy || lra). now rewrite Vx, V1.
Qed.

(** ** psych: exactly 100 while every price is above the one before, exactly 0 while every price is below *)
Lemma gap_sign (x y : f64) : Bltb x y = true -> (is_nan (Bminus mode_NE y x) = false /\ Bsign (Bminus mode_NE y x) = false) /\ is_nan (Bminus mode_NE x y) = false /\ Bsign (Bminus mode_NE x y) = true.
Proof.
  intros H. fsplit x; fsplit y; try (now rewrite ?ltb_nan_l, ?ltb_nan_r in H).
  - rewrite ltb_xval, !xval_fin in H by easy. cbn in H. apply Rltb_t in H. rewrite !sub_signbit, !sub_nnan by (easy || lra). repeat split; [apply Rltb_f; lra|apply Rltb_t; lra].
  - rewrite ltb_xval, (xval_fin x) in H by easy. destruct s; [easy|]. now destruct x.
  - rewrite ltb_xval, (xval_fin y) in H by easy. destruct s; [|easy]. now destruct y.
  - now destruct s, s0.
Qed.
Theorem psych_f64_trend m f n w : (0 < w)%nat -> (100 * Z.of_nat w <= 2 ^ 53)%Z -> exists o, @psych f64 (B64 m) (series f n) w = Ok o /\
  (all_up n f -> aligned o n w B754_nan (fun _ => b64_of_Z 100)) /\ (all_down n f -> aligned o n w B754_nan (fun _ => B754_zero false)).
Proof.
  intros Hw Hb. destruct (psych_values (FO := B64 m) f n w Hw) as (o & E & A). exists o. split; [exact E|].
  assert (WN : is_int (Z.of_nat w) (@fofnat f64 (B64 m) w)) by (unfold is_int; rewrite (xval_nat m) by lia; now rewrite INR_IZR_INZ).
  split; intros H; revert A; apply aligned_ext; intros i Hi.
  - assert (L : forall x, In x (last_bars w (fun k => @fmax f64 (B64 m) (@fsignum f64 (B64 m) (@fsub f64 (B64 m) (f k) (f (k - 1)%nat))) (flit 0 1)) i) -> x = b64_of_Z 1).
    { intros x Hx. apply in_last_bars in Hx as (k & -> & K1 & K2). destruct (gap_sign (f (k - 1)%nat) (f k)) as [[G1 G2] _].
      { replace (f k) with (f (S (k - 1))) by (f_equal; lia). apply H. lia. }
      unfold fsignum. change (@fisnan f64 (B64 m) (fsub (f k) (f (k - 1)%nat))) with (is_nan (Bminus mode_NE (f k) (f (k - 1)%nat))). rewrite G1. change (@fsignbit f64 (B64 m) (fsub (f k) (f (k - 1)%nat))) with (Bsign (Bminus mode_NE (f k) (f (k - 1)%nat))). rewrite G2. reflexivity. }
    pose proof (fun B => ones_sum m _ B L) as S. set (bars := last_bars w _ i) in *. assert (LB : length bars = w) by (unfold bars, last_bars; now rewrite map_length, seq_length). rewrite LB in S. specialize (S ltac:(lia)). set (s := fsum _) in *. clearbody s.
    apply int_is; [easy|easy|]. pose proof (int_mul _ 100 s (flit 100 1) S (xval_of_Z 100 ltac:(easy)) ltac:(lia)) as P. cbn [fmul fdiv B64]. set (p := Bmult _ _ _) in *. clearbody p.
    apply xval_fin_inv in P as [Fp Vp]. apply xval_fin_inv in WN as [Fw Vw]. assert (Nw : IZR (Z.of_nat w) <> 0) by (apply not_0_IZR; lia).
    unfold is_int. rewrite xval_div by (easy || now rewrite Vw). rewrite Vp, Vw, mult_IZR. replace (IZR (Z.of_nat w) * 100 / IZR (Z.of_nat w)) with 100 by (field; easy). now apply (fl_Z 100).
  - rewrite zeros_sum; [|now apply last_bars_ne|].
    + change (@fmul f64 (B64 m) (B754_zero false) (flit 100 1)) with (B754_zero false : f64). cbn [fdiv B64]. apply xval_fin_inv in WN as [Fw Vw]. assert (0 < IZR (Z.of_nat w)) by (apply (IZR_lt 0); lia).
      destruct (pos_sign (fofnat w) Fw) as [[s Z]|(p & e & B & Z)]; [apply nn_fin; [easy|lra]|rewrite Z in Vw; cbn in Vw; lra|]. rewrite Z. reflexivity.
    + intros x Hx. apply in_last_bars in Hx as (k & -> & K1 & K2). destruct (gap_sign (f k) (f (k - 1)%nat)) as [_ [G1 G2]].
      { replace (f k) with (f (S (k - 1))) by (f_equal; lia). apply H. lia. }
      unfold fsignum. change (@fisnan f64 (B64 m) (fsub (f k) (f (k - 1)%nat))) with (is_nan (Bminus mode_NE (f k) (f (k - 1)%nat))). rewrite G1. change (@fsignbit f64 (B64 m) (fsub (f k) (f (k - 1)%nat))) with (Bsign (Bminus mode_NE (f k) (f (k - 1)%nat))). rewrite G2. reflexivity.
Qed.

(** ** mfi: exactly 100 (or NaN) while no high, low or close is below the one before, exactly 0 while none is above *)
Lemma typ_no_dip m (h l c : nat -> f64) i j : Bltb (h j) (h i) = false -> Bltb (l j) (l i) = false -> Bltb (c j) (c i) = false ->
  Bltb (@typ f64 (B64 m) h l c j) (@typ f64 (B64 m) h l c i) = false.
Proof. intros H L C. unfold typ. apply le_div; [|reflexivity]. apply le_add; [|exact C]. now apply le_add. Qed.
Lemma over_zero m (P : f64) : exact_or_nan 100 (@fsub f64 (B64 m) (flit 100 1) (@fdiv f64 (B64 m) (flit 100 1) (@fadd f64 (B64 m) (flit 1 1) (@fdiv f64 (B64 m) P (B754_zero false))))).
Proof. cbn [fsub fadd fdiv B64]. destruct P as [s|[]| |[] p e B]; first [right; reflexivity|left; apply B2SF_inj; reflexivity]. Qed.
Lemma under_zero m (N : f64) : exact_or_nan 0 (@fsub f64 (B64 m) (flit 100 1) (@fdiv f64 (B64 m) (flit 100 1) (@fadd f64 (B64 m) (flit 1 1) (@fdiv f64 (B64 m) (B754_zero false) N)))).
Proof. cbn [fsub fadd fdiv B64]. destruct N as [s|[]| |[] p e B]; [right; reflexivity|left; apply B2SF_inj; vm_compute; reflexivity|left; apply B2SF_inj; vm_compute; reflexivity|right; reflexivity| |];
  change (Bdiv mode_NE (B754_zero false) (B754_finite ?s p e B)) with (B754_zero s : f64); left; apply B2SF_inj; vm_compute; reflexivity. Qed.
Theorem mfi_f64_trend m h l c v n w : (0 < w)%nat -> (0 < n)%nat -> exists o, @mfi f64 (B64 m) (series h n) (series l n) (series c n) (series v n) w = Ok o /\
  (no_dip n h -> no_dip n l -> no_dip n c -> Forall (exact_or_nan 100) o) /\ (no_gain n h -> no_gain n l -> no_gain n c -> Forall (exact_or_nan 0) o).
Proof.
  intros Hw Hn. destruct (mfi_values (FO := B64 m) h l c v n w Hw Hn) as (o & E & A). exists o. split; [exact E|]. cbv zeta in A.
  split; intros Hh Hl Hc; apply Forall_forall; intros x Hx; apply (aligned_in _ _ _ _ _ _ A) in Hx as [-> |(i & Hi & ->)]; try (now right).
  - rewrite (zeros_sum m (last_bars w (fun k => if fltb _ _ then _ else _) i)); [apply over_zero|now apply last_bars_ne|].
    intros x Hx. apply in_last_bars in Hx as (k & -> & K1 & K2). destruct k as [|k]; [lia|]. replace (S k - 1)%nat with k by lia.
    change (@fltb f64 (B64 m)) with (@Bltb 53 1024). rewrite typ_no_dip; [reflexivity|apply Hh; lia|apply Hl; lia|apply Hc; lia].
  - rewrite (zeros_sum m (last_bars w (fun k => if fgtb _ _ then _ else _) i)); [apply under_zero|now apply last_bars_ne|].
    intros x Hx. apply in_last_bars in Hx as (k & -> & K1 & K2). destruct k as [|k]; [lia|]. replace (S k - 1)%nat with k by lia. unfold fgtb.
    change (@fltb f64 (B64 m)) with (@Bltb 53 1024). rewrite typ_no_dip; [reflexivity|apply Hh; lia|apply Hl; lia|apply Hc; lia].
Qed.
