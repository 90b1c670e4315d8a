(** * MamaF64: the assertion of [clamp] in binary64: the literal bounds are in order,
    and when mama, whose bounds are computed, panics. *)

From Coq Require Import Reals Lra Lia ZArith List.
From Flocq Require Import Core IEEE754.BinarySingleNaN.
From Verif Require Import Spec BaseFacts Tac SmoothShape XReal RSpec XRFacts Bars B64 F64 F64Facts F64Range MomShape Momentum Smooth NaN Poison.
Import ListNotations.
Local Unset Implicit Arguments.
Local Open Scope R_scope.

(** ** Values below a power of two, and values that are not finite *)
Definition bp (e : Z) (x : f64) : Prop := fin x /\ Rabs (B2R x) <= bpow radix2 e.
Definition nf (x : f64) : Prop := is_finite x = false.

Lemma rep_S z e r : r = IZR z * bpow radix2 e -> (Z.abs z <= 16)%Z -> (-1074 <= e <= 1019)%Z -> rep r.
Proof.
  intros -> Hz He. split; [apply (F2R_rep z e); lia|]. rewrite Rabs_mult, (Rabs_pos_eq (bpow _ _)) by apply bpow_ge_0. apply Rle_lt_trans with (bpow radix2 4 * bpow radix2 e).
  - apply Rmult_le_compat_r; [apply bpow_ge_0|]. rewrite <- abs_IZR. change (bpow radix2 4) with (IZR 16). now apply IZR_le.
  - rewrite <- bpow_plus. apply bpow_lt. lia.
Qed.
Lemma rep_pow e : (-1074 <= e <= 1020)%Z -> rep (bpow radix2 e).
Proof. intros H. destruct (Z.eq_dec e 1020) as [->|]; [apply (rep_S 2 1019); [simpl (IZR 2); change 1020%Z with (1 + 1019)%Z; rewrite bpow_plus; simpl (bpow radix2 1); lra|lia|lia]|]. apply (rep_S 1 e); [lra|lia|lia]. Qed.
Lemma rep_opp r : rep r -> rep (- r).
Proof. intros [A B]. split; [now rewrite rnd_opp, A|now rewrite Rabs_Ropp]. Qed.
Lemma bd_of b x r : xval x = fl r -> rep b -> Rabs r <= b -> fin x /\ Rabs (B2R x) <= b.
Proof.
  intros E Rb H. apply Rabs_le_inv in H. pose proof (inr_of (- b) b x r E (rep_opp _ Rb) Rb H) as I.
  apply inr_cases in I as [-> |[A B]]; [|split; [exact A|apply Rabs_le, B]]. symmetry in E. now apply fl_not_nan in E.
Qed.
Lemma bp_of e x r : xval x = fl r -> (-1074 <= e <= 1020)%Z -> Rabs r <= bpow radix2 e -> bp e x.
Proof. intros E He H. apply (bd_of _ x r E); [now apply rep_pow|exact H]. Qed.
Lemma bp_weaken e e' x : bp e x -> (e <= e')%Z -> bp e' x.
Proof. intros [A B] H. split; [easy|]. apply Rle_trans with (1 := B). now apply bpow_le. Qed.
Lemma pow_double e : bpow radix2 (e + 1) = bpow radix2 e + bpow radix2 e.
Proof. rewrite bpow_plus. change (bpow radix2 1) with 2. lra. Qed.
Lemma bp_add e x y : bp e x -> bp e y -> (-1074 <= e < 1020)%Z -> bp (e + 1) (Bplus mode_NE x y).
Proof.
  intros [A A'] [B B'] H. apply (bp_of _ _ _ (xval_add x y A B)); [lia|]. rewrite pow_double. apply Rle_trans with (1 := Rabs_triang _ _). lra.
Qed.
Lemma bp_sub e x y : bp e x -> bp e y -> (-1074 <= e < 1020)%Z -> bp (e + 1) (Bminus mode_NE x y).
Proof.
  intros [A A'] [B B'] H. apply (bp_of _ _ _ (xval_sub x y A B)); [lia|]. rewrite pow_double. unfold Rminus. apply Rle_trans with (1 := Rabs_triang _ _). rewrite Rabs_Ropp. lra.
Qed.
Lemma bp_mul a b x y : bp a x -> bp b y -> (-1074 <= a + b <= 1020)%Z -> bp (a + b) (Bmult mode_NE x y).
Proof.
  intros [A A'] [B B'] H. apply (bp_of _ _ _ (xval_mul x y A B)); [lia|]. rewrite Rabs_mult, bpow_plus. apply Rmult_le_compat; auto using Rabs_pos.
Qed.
Lemma bp_quot e x y k : bp e x -> xval y = Fin k -> 1 <= k -> (-1074 <= e <= 1020)%Z -> bp e (Bdiv mode_NE x y).
Proof.
  intros [A A'] Y K H. apply xval_fin_inv in Y as [B B']. apply (bp_of _ _ _ (xval_div x y A B ltac:(lra))); [lia|]. rewrite B'. unfold Rdiv.
  rewrite Rabs_mult, (Rabs_pos_eq (/ k)) by (left; apply Rinv_0_lt_compat; lra).
  apply Rle_trans with (Rabs (B2R x) * 1); [|lra]. apply Rmult_le_compat_l; [apply Rabs_pos|]. rewrite <- Rinv_1. apply Rinv_le_contravar; lra.
Qed.
Lemma lit_bound (x y : f64) r : Bleb (Babs x) y = true -> xval y = Fin r -> fin x /\ Rabs (B2R x) <= r.
Proof.
  rewrite leb_xval, xval_abs. intros H E. rewrite E in H. destruct (fcases x) as [F|[[s ->]| ->]]; [|now destruct s|easy].
  split; [easy|]. rewrite (xval_fin x F) in H. cbn in H. now apply Rleb_t in H.
Qed.

Lemma nf_add_l x y : nf x -> nf (Bplus mode_NE x y). Proof. unfold nf. destruct x as [[]|[]| |[]], y as [[]|[]| |[]]; easy. Qed.
Lemma nf_add_r x y : nf y -> nf (Bplus mode_NE x y). Proof. unfold nf. destruct x as [[]|[]| |[]], y as [[]|[]| |[]]; easy. Qed.
Lemma nf_sub_l x y : nf x -> nf (Bminus mode_NE x y). Proof. unfold nf. destruct x as [[]|[]| |[]], y as [[]|[]| |[]]; easy. Qed.
Lemma nf_sub_r x y : nf y -> nf (Bminus mode_NE x y). Proof. unfold nf. destruct x as [[]|[]| |[]], y as [[]|[]| |[]]; easy. Qed.
Lemma nf_mul_l x y : nf x -> nf (Bmult mode_NE x y). Proof. unfold nf. destruct x as [[]|[]| |[]], y as [[]|[]| |[]]; easy. Qed.
Lemma nf_mul_r x y : nf y -> nf (Bmult mode_NE x y). Proof. unfold nf. destruct x as [[]|[]| |[]], y as [[]|[]| |[]]; easy. Qed.
Lemma nf_div_l x y : nf x -> fin y -> nf (Bdiv mode_NE x y). Proof. unfold nf. destruct x as [[]|[]| |[]], y as [[]|[]| |[]]; easy. Qed.
Lemma nf_nf x y : nf x -> nf y -> Bdiv mode_NE x y = B754_nan. Proof. unfold nf. destruct x as [[]|[]| |[]], y as [[]|[]| |[]]; easy. Qed.
Lemma nf_ne m x : nf x -> @fneb f64 (B64 m) x (flit 0 1) = true.
Proof. unfold nf. destruct x as [[]|[]| |[]]; try easy; intros _; reflexivity. Qed.
Lemma nf_or_fin x : fin x \/ nf x.
Proof. unfold nf. destruct x; auto. Qed.

Lemma bp_add' a b e x y : bp a x -> bp b y -> (a < e)%Z -> (b < e)%Z -> (-1000 <= e <= 1020)%Z -> bp e (Bplus mode_NE x y).
Proof.
  intros A B H1 H2 He. replace e with (e - 1 + 1)%Z by lia. apply bp_add; [apply (bp_weaken a); [easy|lia]|apply (bp_weaken b); [easy|lia]|lia].
Qed.
Lemma bp_sub' a b e x y : bp a x -> bp b y -> (a < e)%Z -> (b < e)%Z -> (-1000 <= e <= 1020)%Z -> bp e (Bminus mode_NE x y).
Proof.
  intros A B H1 H2 He. replace e with (e - 1 + 1)%Z by lia. apply bp_sub; [apply (bp_weaken a); [easy|lia]|apply (bp_weaken b); [easy|lia]|lia].
Qed.
Lemma bp_mul' a b e x y : bp a x -> bp b y -> (a + b <= e)%Z -> (-1000 <= a + b)%Z -> (e <= 1020)%Z -> bp e (Bmult mode_NE x y).
Proof. intros A B H1 H2 He. apply (bp_weaken (a + b)); [|lia]. apply bp_mul; [easy|easy|lia]. Qed.
Lemma lit_bp (n : Z) (d : positive) e : Bleb (Babs (b64_lit n d)) (b64_of_Z (2 ^ e)) = true -> (0 <= e <= 50)%Z -> bp e (b64_lit n d).
Proof.
  intros H He. assert (P : (0 < 2 ^ e <= 2 ^ 50)%Z) by (split; [apply Z.pow_pos_nonneg; lia|apply Z.pow_le_mono_r; lia]).
  destruct (lit_bound _ _ _ H (xval_of_Z (2 ^ e) ltac:(lia))) as [A B]. split; [exact A|].
  replace (bpow radix2 e) with (IZR (2 ^ e)) by (apply (IZR_Zpower radix2); lia). exact B.
Qed.
(** 0.2 * x + 0.8 * y stays below the bound of y when x is below half of it. *)
Lemma fifth : fin (b64_lit 2 10) /\ Rabs (B2R (b64_lit 2 10)) <= / 4.
Proof.
  apply (lit_bound _ (b64_lit 1 4)); [vm_compute; reflexivity|]. unfold b64_lit.
  destruct (xval_fin_inv _ _ (xval_of_Z 1 ltac:(lia))) as [A A'], (xval_fin_inv _ _ (xval_of_Z 4 ltac:(lia))) as [B B'].
  rewrite xval_div by (try easy; rewrite B'; lra). rewrite A', B'. assert (P : rep (1 / 4)) by (apply (rep_F 1 (-2)); [cbn; lra|lia|lia]).
  unfold fl. rewrite (proj1 P), (proj2 (Rltb_t _ _) (proj2 P)). f_equal. lra.
Qed.
Lemma four_fifths : fin (b64_lit 8 10) /\ Rabs (B2R (b64_lit 8 10)) <= 13 / 16.
Proof.
  apply (lit_bound _ (b64_lit 13 16)); [vm_compute; reflexivity|]. unfold b64_lit.
  destruct (xval_fin_inv _ _ (xval_of_Z 13 ltac:(lia))) as [A A'], (xval_fin_inv _ _ (xval_of_Z 16 ltac:(lia))) as [B B'].
  rewrite xval_div by (try easy; rewrite B'; lra). rewrite A', B'. assert (P : rep (13 / 16)) by (apply (rep_F 13 (-4)); [cbn; lra|lia|lia]).
  unfold fl. rewrite (proj1 P), (proj2 (Rltb_t _ _) (proj2 P)). f_equal.
Qed.
Lemma bp_mix e x y : bp (e - 1) x -> bp e y -> (-900 <= e <= 1018)%Z ->
  bp e (Bplus mode_NE (Bmult mode_NE (b64_lit 2 10) x) (Bmult mode_NE (b64_lit 8 10) y)).
Proof.
  intros [A A'] [B B'] He. destruct fifth as [C C'], four_fifths as [D D'].
  assert (E1 : bpow radix2 (e - 1) = 8 * bpow radix2 (e - 4)) by (replace (e - 1)%Z with (3 + (e - 4))%Z by lia; rewrite bpow_plus; cbn; lra).
  assert (E2 : bpow radix2 e = 16 * bpow radix2 (e - 4)) by (replace e with (4 + (e - 4))%Z at 1 by lia; rewrite bpow_plus; cbn; lra).
  set (u := bpow radix2 (e - 4)) in *. assert (0 < u) by apply bpow_gt_0.
  destruct (bd_of (2 * u) _ _ (xval_mul _ x C A)) as [P P'].
  { apply (rep_S 2 (e - 4)); [reflexivity|lia|lia]. }
  { rewrite Rabs_mult. pose proof (Rabs_pos (B2R x)). pose proof (Rabs_pos (B2R (b64_lit 2 10))). nra. }
  destruct (bd_of (13 * u) _ _ (xval_mul _ y D B)) as [Q Q'].
  { apply (rep_S 13 (e - 4)); [reflexivity|lia|lia]. }
  { rewrite Rabs_mult. pose proof (Rabs_pos (B2R y)). pose proof (Rabs_pos (B2R (b64_lit 8 10))). nra. }
  apply (bp_of _ _ _ (xval_add _ _ P Q)); [lia|]. apply Rle_trans with (1 := Rabs_triang _ _). lra.
Qed.

Section Mama.
  Context (m : libm).
  Let FO : FOps f64 := B64 m.
  Existing Instance FO.

  Ltac lit := apply lit_bp; [vm_compute; reflexivity|lia].
  Lemma smooth_bp a b c d : bp 480 a -> bp 480 b -> bp 480 c -> bp 480 d -> bp 485 (@mama_smooth f64 (B64 m) [a; b; c; d]).
  Proof.
    intros A B C D. unfold mama_smooth, at_. cbn [nth]. eapply (bp_quot _ _ _ 10); [|apply (xval_of_Z 10); lia|lra|lia].
    refine (bp_add' 484 480 485 _ _ _ A _ _ _); try lia. refine (bp_add' 483 482 484 _ _ _ _ _ _ _); try lia.
    - refine (bp_add' 482 482 483 _ _ _ _ _ _ _); try lia; [refine (bp_mul' 2 480 _ _ _ _ D _ _ _)|refine (bp_mul' 2 480 _ _ _ _ C _ _ _)]; try lia; lit.
    - refine (bp_mul' 2 480 _ _ _ _ B _ _ _); try lia; lit.
  Qed.
  Lemma hilbert_bp e a b c d t : (0 <= e <= 800)%Z -> bp e a -> bp e b -> bp e c -> bp e d -> bp 4 t -> bp (e + 7) (@hilbert f64 (B64 m) a b c d t).
  Proof.
    intros He A B C D T. unfold hilbert. refine (bp_mul' (e + 3) 4 _ _ _ _ T _ _ _); try lia.
    assert (L1 : bp 0 (b64_lit 962 10000)) by lit. assert (L2 : bp 0 (b64_lit 5769 10000)) by lit.
    refine (bp_sub' (e + 2) e _ _ _ _ _ _ _ _); try lia; [refine (bp_sub' (e + 1) e _ _ _ _ _ _ _ _); try lia; [refine (bp_add' e e _ _ _ _ _ _ _ _); try lia|]|].
    - refine (bp_mul' 0 e _ _ _ L1 A _ _ _); lia.
    - refine (bp_mul' 0 e _ _ _ L2 B _ _ _); lia.
    - refine (bp_mul' 0 e _ _ _ L2 C _ _ _); lia.
    - refine (bp_mul' 0 e _ _ _ L1 D _ _ _); lia.
  Qed.
  Lemma hilbert_nf a b c d t : nf a \/ nf b \/ nf c \/ nf d -> nf (@hilbert f64 (B64 m) a b c d t).
  Proof.
    intros H. unfold hilbert. apply nf_mul_l. destruct H as [H|[H|[H|H]]].
    - now apply nf_sub_l, nf_sub_l, nf_add_l, nf_mul_r.
    - now apply nf_sub_l, nf_sub_l, nf_add_r, nf_mul_r.
    - now apply nf_sub_l, nf_sub_r, nf_mul_r.
    - now apply nf_sub_r, nf_mul_r.
  Qed.

  (** ** The step on a price that is not finite *)
  Lemma step_nf fast slow sm data s i : lm_atan m B754_nan = B754_nan ->
    nf (@at_ f64 (B64 m) sm i) \/ nf (@at_ f64 (B64 m) sm (i - 2)) \/ nf (@at_ f64 (B64 m) sm (i - 4)) \/ nf (@at_ f64 (B64 m) sm (i - 6)) ->
    @mama_step f64 (B64 m) fast slow sm data s i = Panic \/
    exists s' out, @mama_step f64 (B64 m) fast slow sm data s i = Ok (s', out) /\ @ms_period f64 s' = B754_nan.
  Proof.
    intros A E. unfold mama_step. cbv zeta. set (tw := (_ * ms_period s + _)%F).
    set (dt := push7 (hilbert _ _ _ _ tw) (ms_dtrend s)). set (q1 := push7 (hilbert (at_ dt 0) _ _ _ tw) (ms_q1q s)).
    set (i1 := push7 (at_ dt 3) (ms_i1q s)).
    assert (D0 : nf (@at_ f64 (B64 m) dt 0)) by (apply (hilbert_nf _ _ _ _ tw E)).
    assert (Q0 : nf (@at_ f64 (B64 m) q1 0)) by (apply hilbert_nf; now left).
    pose proof (hilbert_nf (at_ q1 0) (at_ q1 2) (at_ q1 4) (at_ q1 6) tw (or_introl Q0)) as J.
    set (jq := hilbert (at_ q1 0) _ _ _ _) in *. set (ji := hilbert (at_ i1 0) _ _ _ _).
    set (i2 := (_ * (at_ i1 0 - jq) + _)%F). set (q2 := (_ * (at_ q1 0 + ji) + _)%F).
    assert (I2 : nf i2) by (apply nf_add_l, nf_mul_r, nf_sub_r, J).
    set (re := (_ * (i2 * _ + q2 * _) + _)%F). set (im := (_ * (i2 * _ - q2 * _) + _)%F).
    assert (RE : nf re) by (apply nf_add_l, nf_mul_r, nf_add_l, nf_mul_l, I2).
    assert (IM : nf im) by (apply nf_add_l, nf_mul_r, nf_sub_l, nf_mul_l, I2).
    rewrite (nf_ne m im IM), (nf_ne m re RE). cbn [andb].
    change (@fdiv f64 (B64 m) im re) with (Bdiv mode_NE im re). rewrite (nf_nf im re IM RE). change (@fatan f64 (B64 m) B754_nan) with (lm_atan m B754_nan). rewrite A.
    change (@fdiv f64 (B64 m) (flit 360 1) B754_nan) with (Bdiv mode_NE (b64_of_Z 360) B754_nan). rewrite F64.nan_div_r.
    unfold fclamp. destruct (_ <=? _)%F; [|now left]. right. cbn [bind]. eexists _, _. split; [reflexivity|]. cbn [ms_period].
    rewrite !(@fclamp_val_nan f64 (B64 m) (B64_nan m)). change (Bplus mode_NE (Bmult mode_NE (b64_lit 2 10) B754_nan) (Bmult mode_NE (b64_lit 8 10) (ms_period s)) = B754_nan). rewrite F64.nan_mult_r. apply F64.nan_plus_l.
  Qed.
  Lemma step_after_nan fast slow sm data s i : @ms_period f64 s = B754_nan -> @mama_step f64 (B64 m) fast slow sm data s i = Panic.
  Proof. intros E. now apply (@mama_step_panic f64 (B64 m) (B64_nan m)). Qed.

  (** ** The step on prices that are finite and not huge *)
  Record calm (s : @mama_state f64) : Prop := {
    calm_period : fin (ms_period s) /\ 0 <= B2R (ms_period s) <= 128;
    calm_i2 : bp 508 (ms_i2 s); calm_q2 : bp 508 (ms_q2 s); calm_re : bp 1018 (ms_re s); calm_im : bp 1018 (ms_im s);
    calm_dt : length (ms_dtrend s) = 7%nat /\ Forall (bp 492) (ms_dtrend s);
    calm_i1 : length (ms_i1q s) = 7%nat /\ Forall (bp 492) (ms_i1q s);
    calm_q1 : length (ms_q1q s) = 7%nat /\ Forall (bp 499) (ms_q1q s) }.
  Lemma bp_zero e : bp e (b64_lit 0 1).
  Proof.
    destruct (xval_fin_inv _ _ (xval_of_Z 0 ltac:(lia))) as [A B]. split; [exact A|]. unfold b64_lit. rewrite B, Rabs_R0. apply bpow_ge_0.
  Qed.
  Lemma calm_init : calm (@mama_init f64 (B64 m)).
  Proof.
    assert (R : forall e, length (repeat (b64_lit 0 1) 7) = 7%nat /\ Forall (bp e) (repeat (b64_lit 0 1) 7)) by (intros e; split; [easy|]; apply Forall_forall; intros x Hx; apply repeat_spec in Hx as ->; apply bp_zero).
    split; try apply bp_zero; try apply R. destruct (xval_fin_inv _ _ (xval_of_Z 0 ltac:(lia))) as [A B]. cbn [ms_period mama_init]. split; [exact A|].
    change (@flit f64 (B64 m) 0 1) with (b64_of_Z 0). rewrite B. lra.
  Qed.
  Lemma push7_calm e x l : length l = 7%nat -> Forall (bp e) l -> bp e x -> length (push7 x l) = 7%nat /\ Forall (bp e) (push7 x l).
  Proof.
    intros L H X. destruct l as [|a [|b [|c [|d [|g [|h [|k [|]]]]]]]]; try easy. split; [easy|]. unfold push7. cbn [firstn].
    repeat match goal with H : Forall _ (_ :: _) |- _ => inversion_clear H end. repeat (apply Forall_cons; [assumption|]). apply Forall_nil.
  Qed.
  Lemma at7 e l k : length l = 7%nat -> Forall (bp e) l -> (k < 7)%nat -> bp e (@at_ f64 (B64 m) l k).
  Proof. intros L H Hk. rewrite Forall_forall in H. apply H. apply nth_In. lia. Qed.
  Lemma clamp_fin (x lo hi : f64) a b : is_nan x = false -> xval lo = Fin a -> xval hi = Fin b -> a <= b ->
    fin (@fclamp_val f64 (B64 m) x lo hi) /\ a <= B2R (@fclamp_val f64 (B64 m) x lo hi) <= b.
  Proof.
    intros Hx A B Hab. unfold fclamp_val. change (@fltb f64 (B64 m)) with (@Bltb 53 1024). cbv zeta.
    apply xval_fin_inv in A as A'. apply xval_fin_inv in B as B'. destruct A' as [A1 A2], B' as [B1 B2].
    destruct (Bltb x lo) eqn:E.
    - rewrite ltb_xval, A, B. cbn [xltb]. rewrite (proj2 (Rltb_f b a) Hab). split; [easy|lra].
    - rewrite ltb_xval, A in E. destruct (Bltb hi x) eqn:G; rewrite ltb_xval, B in G.
      + split; [easy|lra].
      + destruct (fcases x) as [Fx|[[s ->]| ->]]; [|now destruct s|easy]. rewrite (xval_fin x Fx) in E, G. cbn in E, G. apply Rltb_f in E, G. split; [easy|lra].
  Qed.
  Lemma clamp_not_nan (x lo hi : f64) : is_nan x = false -> is_nan lo = false -> is_nan hi = false -> is_nan (@fclamp_val f64 (B64 m) x lo hi) = false.
  Proof. intros A B C. unfold fclamp_val. destruct (x <? lo)%F, (_ <? _)%F; easy. Qed.
  Lemma bp_not_nan e x : bp e x -> is_nan x = false.
  Proof. intros [A _]. now destruct x. Qed.
  Lemma div_not_nan (x y : f64) : fin x -> fin y -> B2R y <> 0 -> is_nan (Bdiv mode_NE x y) = false.
  Proof. intros A B H. rewrite isnan_xval, (xval_div x y A B H). unfold fl. now destruct (Rltb _ _). Qed.
  Lemma ne0 (x : f64) : fin x -> @fneb f64 (B64 m) x (flit 0 1) = true -> B2R x <> 0.
  Proof.
    intros A H E. unfold fneb in H. change (@feqb f64 (B64 m) x (flit 0 1)) with (Beqb x (b64_of_Z 0)) in H.
    rewrite eqb_xval, (xval_fin x A), (xval_of_Z 0) in H by lia. cbn in H. rewrite E in H. now rewrite (proj2 (Req_true 0 0) eq_refl) in H.
  Qed.
  Lemma quot_360 (x : f64) : is_nan x = false -> is_nan (Bdiv mode_NE (b64_of_Z 360) x) = false.
  Proof.
    intros H. destruct (xval_fin_inv _ _ (xval_of_Z 360 ltac:(lia))) as [A A']. generalize dependent (b64_of_Z 360). intros z A A'.
    destruct (fcases x) as [Fx|[[s ->]| ->]]; [| |easy].
    - destruct (Req_dec (B2R x) 0) as [Z|Z]; [|now apply div_not_nan]. destruct x as [s|s| |s e t ?]; try easy.
      + destruct z as [s'|s'| |s' e' t' ?]; try easy. cbn [B2R] in A'. lra.
      + exfalso. cbn in Z. apply eq_0_F2R in Z. now destruct s.
    - destruct z as [s'|s'| |s' e' t' ?]; easy.
  Qed.

  Lemma bounds_ordered p : fin p -> 0 <= B2R p -> Bleb (Bmult mode_NE (b64_lit 67 100) p) (Bmult mode_NE (b64_lit 15 10) p) = true.
  Proof.
    intros PF PV. assert (M1 : bp 7 (b64_lit 67 100)) by lit. assert (M2 : bp 7 (b64_lit 15 10)) by lit.
    rewrite leb_xval, (xval_mul _ _ (proj1 M1) PF), (xval_mul _ _ (proj1 M2) PF). apply fl_le.
    assert (W : Bleb (b64_lit 67 100) (b64_lit 15 10) = true) by (vm_compute; reflexivity).
    rewrite leb_xval, (xval_fin _ (proj1 M1)), (xval_fin _ (proj1 M2)) in W. cbn [xleb] in W. apply Rleb_t in W. apply Rmult_le_compat_r; lra.
  Qed.
  Lemma step_ok fast slow sm data s i : calm s -> exists s' out, @mama_step f64 (B64 m) fast slow sm data s i = Ok (s', out).
  Proof.
    intros [[PF PV] _ _ _ _ _ _ _]. unfold mama_step. cbv zeta. unfold fclamp.
    match goal with |- context [if ?c then _ else Panic] => replace c with true by (symmetry; apply (bounds_ordered _ PF (proj1 PV))) end.
    cbn [bind]. eexists _, _. reflexivity.
  Qed.

  Lemma step_calm fast slow sm data s i : (forall x, is_nan x = false -> is_nan (lm_atan m x) = false) ->
    bp 485 (@at_ f64 (B64 m) sm i) -> bp 485 (@at_ f64 (B64 m) sm (i - 2)) -> bp 485 (@at_ f64 (B64 m) sm (i - 4)) -> bp 485 (@at_ f64 (B64 m) sm (i - 6)) -> calm s ->
    exists s' out, @mama_step f64 (B64 m) fast slow sm data s i = Ok (s', out) /\ calm s'.
  Proof.
    intros AT S0 S2 S4 S6 [[PF PV] I2 Q2 RE IM [LD DT] [LI I1] [LQ Q1]]. unfold mama_step. cbv zeta.
    assert (PB : bp 7 (ms_period s)) by (split; [exact PF|]; rewrite Rabs_pos_eq by lra; change (bpow radix2 7) with 128; lra).
    set (tw := (_ * ms_period s + _)%F).
    assert (TW : bp 4 tw).
    { destruct (lit_bound (b64_lit 75 1000) (b64_lit 5 64)) with (r := 5 / 64) as [A B].
      { vm_compute; reflexivity. }
      { unfold b64_lit. destruct (xval_fin_inv _ _ (xval_of_Z 5 ltac:(lia))) as [A A'], (xval_fin_inv _ _ (xval_of_Z 64 ltac:(lia))) as [B B'].
        rewrite xval_div by (try easy; rewrite B'; lra). rewrite A', B'. assert (P : rep (5 / 64)) by (apply (rep_F 5 (-6)); [cbn; lra|lia|lia]).
        unfold fl. now rewrite (proj1 P), (proj2 (Rltb_t _ _) (proj2 P)). }
      destruct (bd_of 10 _ _ (xval_mul _ (ms_period s) A PF)) as [P P'].
      { apply (rep_F 10 0); [cbn; lra|lia|lia]. }
      { rewrite Rabs_mult. destruct PB as [_ PB]. change (bpow radix2 7) with 128 in PB. pose proof (Rabs_pos (B2R (ms_period s))). pose proof (Rabs_pos (B2R (b64_lit 75 1000))). nra. }
      assert (L : bp 0 (b64_lit 54 100)) by lit. destruct L as [L L']. change (bpow radix2 0) with 1 in L'.
      apply (bp_of _ _ _ (xval_add _ _ P L)); [lia|]. apply Rle_trans with (1 := Rabs_triang _ _). change (bpow radix2 4) with 16. lra. }
    clearbody tw.
    set (dt := push7 (hilbert _ _ _ _ tw) (ms_dtrend s)).
    destruct (push7_calm 492 (@hilbert f64 (B64 m) (at_ sm i) (at_ sm (i - 2)) (at_ sm (i - 4)) (at_ sm (i - 6)) tw) _ LD DT (hilbert_bp 485 _ _ _ _ _ ltac:(lia) S0 S2 S4 S6 TW)) as [LD' DT'].
    change (push7 _ (ms_dtrend s)) with dt in LD', DT'. clearbody dt.
    pose proof (fun k Hk => at7 492 dt k LD' DT' Hk) as AD.
    set (q1 := push7 (hilbert (at_ dt 0) _ _ _ tw) (ms_q1q s)).
    destruct (push7_calm 499 (@hilbert f64 (B64 m) (at_ dt 0) (at_ dt 2) (at_ dt 4) (at_ dt 6) tw) _ LQ Q1 (hilbert_bp 492 _ _ _ _ _ ltac:(lia) (AD 0 ltac:(lia)) (AD 2 ltac:(lia)) (AD 4 ltac:(lia)) (AD 6 ltac:(lia)) TW)%nat) as [LQ' Q1'].
    change (push7 _ (ms_q1q s)) with q1 in LQ', Q1'. clearbody q1.
    set (i1 := push7 (at_ dt 3) (ms_i1q s)).
    destruct (push7_calm 492 (@at_ f64 (B64 m) dt 3) _ LI I1 (AD 3 ltac:(lia))%nat) as [LI' I1'].
    change (push7 _ (ms_i1q s)) with i1 in LI', I1'. clearbody i1.
    pose proof (fun k Hk => at7 499 q1 k LQ' Q1' Hk) as AQ. pose proof (fun k Hk => at7 492 i1 k LI' I1' Hk) as AI.
    set (ji := hilbert (at_ i1 0) _ _ _ _). assert (JI : bp 499 ji) by (apply (hilbert_bp 492); try apply AI; try lia; exact TW).
    set (jq := hilbert (at_ q1 0) _ _ _ _). assert (JQ : bp 506 jq) by (apply (hilbert_bp 499); try apply AQ; try lia; exact TW).
    set (i2 := (_ * (at_ i1 0 - jq) + _)%F).
    assert (B2 : bp 508 i2) by (apply bp_mix; [|exact I2|lia]; refine (bp_sub' 492 506 _ _ _ (AI 0%nat _) JQ _ _ _); lia).
    set (q2 := (_ * (at_ q1 0 + ji) + _)%F).
    assert (C2 : bp 508 q2) by (apply bp_mix; [|exact Q2|lia]; refine (bp_add' 499 499 _ _ _ (AQ 0%nat _) JI _ _ _); lia).
    clearbody i2 q2.
    set (re := (_ * (i2 * _ + q2 * _) + _)%F). set (im := (_ * (i2 * _ - q2 * _) + _)%F).
    assert (RE' : bp 1018 re).
    { apply bp_mix; [|exact RE|lia]. refine (bp_add' 1016 1016 _ _ _ _ _ _ _ _); try lia; [refine (bp_mul' 508 508 _ _ _ B2 I2 _ _ _)|refine (bp_mul' 508 508 _ _ _ C2 Q2 _ _ _)]; lia. }
    assert (IM' : bp 1018 im).
    { apply bp_mix; [|exact IM|lia]. refine (bp_sub' 1016 1016 _ _ _ _ _ _ _ _); try lia; [refine (bp_mul' 508 508 _ _ _ B2 Q2 _ _ _)|refine (bp_mul' 508 508 _ _ _ C2 I2 _ _ _)]; lia. }
    clearbody re im.
    set (pd0 := if (fneb im (flit 0 1) && fneb re (flit 0 1))%bool then _ else _).
    assert (N0 : is_nan pd0 = false).
    { unfold pd0. destruct (fneb im _) eqn:E1; [|reflexivity]. destruct (fneb re _) eqn:E2; [|reflexivity]. cbn [andb].
      apply quot_360, AT. apply div_not_nan; [apply IM'|apply RE'|]. apply ne0; [apply RE'|exact E2]. }
    clearbody pd0.
    assert (M1 : bp 7 (b64_lit 67 100)) by lit. assert (M2 : bp 7 (b64_lit 15 10)) by lit.
    pose proof (bp_mul' 7 7 14 _ _ M1 PB ltac:(lia) ltac:(lia) ltac:(lia)) as LO. pose proof (bp_mul' 7 7 14 _ _ M2 PB ltac:(lia) ltac:(lia) ltac:(lia)) as HI.
    unfold fclamp.
    pose proof (bounds_ordered _ PF (proj1 PV)) as LE.
    match goal with |- context [if ?c then _ else _] => replace c with true by (symmetry; exact LE) end. cbn [bind].
    assert (N1 : is_nan (@fclamp_val f64 (B64 m) pd0 (Bmult mode_NE (b64_lit 67 100) (ms_period s)) (Bmult mode_NE (b64_lit 15 10) (ms_period s))) = false).
    { apply clamp_not_nan; [exact N0|apply (bp_not_nan 14), LO|apply (bp_not_nan 14), HI]. }
    change (@fclamp_val f64 (B64 m) pd0 (@fmul f64 (B64 m) (flit 67 100) (ms_period s)) (@fmul f64 (B64 m) (flit 15 10) (ms_period s))) with (@fclamp_val f64 (B64 m) pd0 (Bmult mode_NE (b64_lit 67 100) (ms_period s)) (Bmult mode_NE (b64_lit 15 10) (ms_period s))).
    set (pd1 := fclamp_val pd0 _ _) in *. clearbody pd1.
    destruct (clamp_fin pd1 (b64_of_Z 6) (b64_of_Z 50) 6 50 N1 (xval_of_Z 6 ltac:(lia)) (xval_of_Z 50 ltac:(lia)) ltac:(lra)) as [P2 V2].
    eexists _, _. split; [reflexivity|]. split; cbn [ms_period ms_i2 ms_q2 ms_re ms_im ms_dtrend ms_i1q ms_q1q]; auto.
    set (pd2 := fclamp_val pd1 _ _) in *. change (fclamp_val pd1 _ _) with pd2 in P2, V2. clearbody pd2.
    assert (MX : bp 7 (Bplus mode_NE (Bmult mode_NE (b64_lit 2 10) pd2) (Bmult mode_NE (b64_lit 8 10) (ms_period s)))).
    { apply bp_mix; [|exact PB|lia]. split; [exact P2|]. rewrite Rabs_pos_eq by lra. change (bpow radix2 (7 - 1)) with 64. lra. }
    assert (NN : nn (Bplus mode_NE (Bmult mode_NE (b64_lit 2 10) pd2) (Bmult mode_NE (b64_lit 8 10) (ms_period s)))).
    { apply nn_add; (apply nn_mul; [vm_compute; reflexivity|]); apply nn_fin; [exact P2|lra|exact PF|lra]. }
    destruct MX as [MF MB]. split; [exact MF|]. apply (nn_fin _ MF) in NN. change (bpow radix2 7) with 128 in MB. apply Rabs_le_inv in MB.
    change (@fadd f64 (B64 m)) with (@Bplus 53 1024 _ _ mode_NE). change (@fmul f64 (B64 m)) with (@Bmult 53 1024 _ _ mode_NE). change (@flit f64 (B64 m)) with b64_lit. split; [exact NN|apply MB].
  Qed.

  (** ** Panic domain *)
  (** The bar whose step first reads the price of bar k. *)
  Definition first_read (k : nat) : nat := if Nat.eqb k 0 then 7 else Nat.max 6 k.

  Lemma sm_at (f : nat -> f64) n i : (3 <= i < n)%nat ->
    @at_ f64 (B64 m) (pad 3 (flit 0 1) ++ map mama_smooth (windows 4 (series f n))) i = @mama_smooth f64 (B64 m) [f (i - 3)%nat; f (i - 2)%nat; f (i - 1)%nat; f i].
  Proof.
    intros Hi. unfold at_, series. rewrite windows_bars, map_map by lia. rewrite app_nth2 by (unfold pad; rewrite repeat_length; lia).
    unfold pad. rewrite repeat_length. replace (0 + 4 - 1)%nat with 3%nat by lia.
    rewrite (nth_indep _ _ (@mama_smooth f64 (B64 m) (last_bars 4 f 0))) by (rewrite map_length, seq_length; lia).
    rewrite (map_nth (fun i => @mama_smooth f64 (B64 m) (last_bars 4 f i)) _ 0%nat).
    rewrite seq_nth by lia. replace (3 + (i - 3))%nat with i by lia. f_equal.
    unfold last_bars. replace (i + 1 - 4)%nat with (i - 3)%nat by lia. cbn [seq map].
    replace (S (i - 3)) with (i - 2)%nat by lia. replace (S (i - 2)) with (i - 1)%nat by lia. now replace (S (i - 1)) with i by lia.
  Qed.
  Lemma sm_start (f : nat -> f64) n i : (i < 3)%nat -> @at_ f64 (B64 m) (pad 3 (flit 0 1) ++ map mama_smooth (windows 4 (series f n))) i = b64_lit 0 1.
  Proof. intros Hi. do 3 (destruct i as [|i]; [reflexivity|]). lia. Qed.
  Lemma smooth_nf a b c d : nf a \/ nf b \/ nf c \/ nf d -> nf (@mama_smooth f64 (B64 m) [a; b; c; d]).
  Proof.
    intros H. unfold mama_smooth, at_. cbn [nth]. apply nf_div_l; [|apply (xval_fin_inv _ _ (xval_of_Z 10 ltac:(lia)))]. destruct H as [H|[H|[H|H]]].
    - now apply nf_add_r.
    - now apply nf_add_l, nf_add_r, nf_mul_r.
    - now apply nf_add_l, nf_add_l, nf_add_r, nf_mul_r.
    - now apply nf_add_l, nf_add_l, nf_add_l, nf_mul_r.
  Qed.

  Lemma run_calm fast slow sm data : (forall x, is_nan x = false -> is_nan (lm_atan m x) = false) -> forall k a s,
    (forall i, (a <= i)%nat -> (i + 1 < a + k)%nat -> bp 485 (@at_ f64 (B64 m) sm i) /\ bp 485 (@at_ f64 (B64 m) sm (i - 2)) /\ bp 485 (@at_ f64 (B64 m) sm (i - 4)) /\ bp 485 (@at_ f64 (B64 m) sm (i - 6))) -> calm s ->
    exists o, rscan (@mama_step f64 (B64 m) fast slow sm data) s (seq a k) = Ok o /\ length o = k.
  Proof.
    intros AT. induction k as [|[|k] IH]; intros a s H C; [exists []; easy| |]; cbn [seq rscan].
    - destruct (step_ok fast slow sm data s a C) as (s' & out & ->). cbn [bind]. eexists. split; [reflexivity|easy].
    - destruct (H a ltac:(lia) ltac:(lia)) as (A & B & D & E). destruct (step_calm fast slow sm data s a AT A B D E C) as (s' & out & -> & C').
      cbn [bind]. destruct (IH (S a) s' ltac:(intros i H1 H2; apply H; lia) C') as (o & Eo & L). cbn [seq rscan] in Eo. rewrite Eo. cbn [bind].
      eexists. split; [reflexivity|]. cbn. now rewrite L.
  Qed.
  Lemma run_nf fast slow sm data q : lm_atan m B754_nan = B754_nan ->
    nf (@at_ f64 (B64 m) sm q) \/ nf (@at_ f64 (B64 m) sm (q - 2)) \/ nf (@at_ f64 (B64 m) sm (q - 4)) \/ nf (@at_ f64 (B64 m) sm (q - 6)) ->
    forall k a s, (a <= q)%nat -> (q + 1 < a + k)%nat -> rscan (@mama_step f64 (B64 m) fast slow sm data) s (seq a k) = Panic.
  Proof.
    intros AT Hq. induction k as [|k IH]; intros a s H1 H2; [lia|]. cbn [seq rscan]. destruct (Nat.eq_dec a q) as [->|D].
    - destruct (step_nf fast slow sm data s q AT Hq) as [-> |(s' & out & -> & P)]; [easy|]. cbn [bind].
      destruct k as [|k]; [lia|]. cbn [seq rscan]. now rewrite step_after_nan.
    - destruct (@mama_step f64 (B64 m) fast slow sm data s a) as [[s' out]|]; [|easy]. cbn [bind]. now rewrite IH by lia.
  Qed.

  (** mama returns on finite prices, and panics on a series with an infinite or NaN
      price as soon as one bar follows the one whose step first reads it: bar 6, bar 7
      for the first price, its own bar later on. Prices above 2^480: [MamaExact]. *)
  Theorem mama_f64_outcome_small (f : nat -> f64) n fast slow :
    (forall x, is_nan x = false -> is_nan (lm_atan m x) = false) -> lm_atan m B754_nan = B754_nan ->
    (forall k, (k < n)%nat -> is_finite (f k) = true -> Rabs (B2R (f k)) <= bpow radix2 480) ->
    outcome (@mama f64 (B64 m) (series f n) fast slow) (exists k, (k < n)%nat /\ is_finite (f k) = false /\ (first_read k + 1 < n)%nat) (Nat.max 6 n).
  Proof.
    intros AT AN HB. unfold mama. rewrite length_series. set (fa := unwrap_or fast _). set (sl := unwrap_or slow _). clearbody fa sl.
    set (sm := pad 3 _ ++ _).
    destruct (existsb (fun k => negb (is_finite (f k)) && Nat.ltb (first_read k + 1) n)%bool (seq 0 n)) eqn:EX.
    - left. apply existsb_exists in EX as (k & Hk & E). apply in_seq in Hk. apply andb_prop in E as [E1 E2]. apply negb_true_iff in E1. apply Nat.ltb_lt in E2.
      split; [exists k; repeat split; [lia|easy|easy]|].
      rewrite (run_nf fa sl sm (series f n) (first_read k) AN); [easy| |unfold first_read; destruct (Nat.eqb k 0); lia|lia].
      unfold first_read in *. destruct (Nat.eqb_spec k 0) as [->|K].
      + right. right. left. unfold sm. rewrite sm_at by lia. apply smooth_nf. left. exact E1.
      + destruct (Nat.le_gt_cases 6 k) as [K6|K6].
        * left. rewrite Nat.max_r by lia. unfold sm. rewrite sm_at by lia. apply smooth_nf. right. right. now right.
        * rewrite Nat.max_l in * by lia. destruct (Nat.eq_dec k 5) as [->|].
          -- left. unfold sm. rewrite sm_at by lia. apply smooth_nf. right. right. now left.
          -- right. left. unfold sm. rewrite sm_at by lia. apply smooth_nf. cbn [Nat.sub]. assert (C : (k = 1 \/ k = 2 \/ k = 3 \/ k = 4)%nat) by lia.
             destruct C as [->|[->|[->| ->]]]; auto.
    - right. assert (G : forall k, (k < n)%nat -> (first_read k + 1 < n)%nat -> bp 480 (f k)).
      { intros k H1 H2. destruct (is_finite (f k)) eqn:E; [split; [exact E|now apply HB]|]. exfalso. rewrite <- not_true_iff_false in EX. apply EX, existsb_exists.
        exists k. split; [apply in_seq; lia|]. rewrite E. now apply Nat.ltb_lt. }
      split. { intros (k & H1 & H2 & H3). destruct (G k H1 H3) as [C _]. congruence. }
      assert (S : forall q j, (6 <= q)%nat -> (q + 1 < n)%nat -> (j = q \/ j = q - 2 \/ j = q - 4 \/ j = q - 6)%nat -> bp 485 (@at_ f64 (B64 m) sm j)).
      { intros q j Hq Hn Hj. destruct (Nat.lt_ge_cases j 3) as [L|L]; [unfold sm; rewrite sm_start by lia; apply bp_zero|].
        unfold sm. rewrite sm_at by lia. apply smooth_bp; apply G; try lia; unfold first_read; destruct (Nat.eqb_spec (j - 3) 0), (Nat.eqb_spec (j - 2) 0), (Nat.eqb_spec (j - 1) 0), (Nat.eqb_spec j 0); lia. }
      destruct (run_calm fa sl sm (series f n) AT (n - 6) 6 (@mama_init f64 (B64 m))) as (o & E & L).
      { intros i H1 H2. repeat split; eapply (S i); try lia; auto. }
      { apply calm_init. }
      rewrite E. cbn [bind]. eexists. split; [reflexivity|]. unfold pad. rewrite app_length, repeat_length, L. lia.
  Qed.

  (** Above 2^480 finite prices may make it panic: one of 2^1022 does. *)
  Lemma times_4_nf x : fin x -> bpow radix2 1022 <= Rabs (B2R x) -> nf (Bmult mode_NE (b64_lit 4 1) x).
  Proof.
    intros F H. destruct (xval_fin_inv _ _ (xval_of_Z 4 ltac:(lia))) as [A B]. change (b64_of_Z 4) with (b64_lit 4 1) in A, B.
    pose proof (xval_mul _ x A F) as V. rewrite B in V. destruct (nf_or_fin (Bmult mode_NE (b64_lit 4 1) x)) as [C|C]; [exfalso|exact C].
    rewrite (xval_fin _ C) in V. unfold fl in V. destruct (Rltb (Rabs (rnd (4 * B2R x))) lim) eqn:L; [|easy]. apply Rltb_t in L.
    assert (G : lim <= Rabs (rnd (4 * B2R x))); [|lra].
    assert (E : lim = 4 * bpow radix2 1022) by (unfold lim; change 1024%Z with (2 + 1022)%Z; rewrite bpow_plus; simpl (bpow radix2 2); lra).
    unfold rnd. apply abs_round_ge_generic; [apply FLT_exp_valid; easy|apply valid_rnd_N| |].
    - unfold lim. apply generic_format_bpow. unfold SpecFloat.fexp, SpecFloat.emin. lia.
    - rewrite E, Rabs_mult, (Rabs_pos_eq 4) by lra. lra.
  Qed.
  Theorem mama_f64_huge_panics (f : nat -> f64) n fast slow k : lm_atan m B754_nan = B754_nan ->
    (6 <= k)%nat -> (k + 1 < n)%nat -> is_finite (f k) = true -> bpow radix2 1022 <= Rabs (B2R (f k)) ->
    @mama f64 (B64 m) (series f n) fast slow = Panic.
  Proof.
    intros AN H6 Hn F B. unfold mama. rewrite length_series. set (fa := unwrap_or fast _). set (sl := unwrap_or slow _). clearbody fa sl.
    rewrite (run_nf fa sl _ (series f n) k AN); [easy| |lia|lia]. left. rewrite sm_at by lia.
    unfold mama_smooth, at_. cbn [nth]. apply nf_div_l; [|apply (xval_fin_inv _ _ (xval_of_Z 10 ltac:(lia)))].
    apply nf_add_l, nf_add_l, nf_add_l. now apply times_4_nf.
  Qed.
End Mama.

(** ** Literal bounds *)

(** The model writes [fclamp_val], without the assertion, where the bounds are literals
    in order: hwma and t3 (0, 1), mama (6, 50), frama (0.01, 1), quantile (0, 100). *)
Theorem clamp_f64_ok (m : libm) (x : f64) lo hi :
  In (lo, hi) [(b64_lit 0 1, b64_lit 1 1); (b64_lit 6 1, b64_lit 50 1); (b64_lit 1 100, b64_lit 1 1); (b64_lit 0 1, b64_lit 100 1)] ->
  @fclamp f64 (B64 m) x lo hi = Ok (@fclamp_val f64 (B64 m) x lo hi).
Proof.
  intros H. unfold fclamp. assert (E : Bleb lo hi = true); [|change (@fleb f64 (B64 m) lo hi) with (Bleb lo hi); now rewrite E].
  cbn [In] in H. destruct H as [[= <- <-]|[[= <- <-]|[[= <- <-]|[[= <- <-]|[]]]]]; vm_compute; reflexivity.
Qed.
Theorem fisher_f64_outcome (m : libm) (high low : list f64) w : outcome (@fisher f64 (B64 m) high low w) (w = 0)%nat (Nat.max (w - 1) (bars2 high low)).
Proof. apply fisher_outcome. unfold fisher_bounds_ok. change (Bleb (b64_lit (-999999) 1000000) (b64_lit 999999 1000000) = true). vm_compute. reflexivity. Qed.
