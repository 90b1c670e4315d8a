(** * F64OscB: which of the remaining bounded indicators keep their bounds in binary64. *)

From Coq Require Import Reals Lra Lia ZArith.
From Flocq Require Import Core Mult_error IEEE754.BinarySingleNaN.
From Verif Require Import Spec BaseFacts Tac SmoothShape VolShape DistShape TrendShape MomShape XReal Select Bars VolumeReal VolatReal B64 F64 Smooth Distribution Momentum Trend Volume Volatility Regression F64Facts MomReal TrendReal F64Range F64Osc Mirror.
Local Unset Implicit Arguments.
Local Open Scope R_scope.

(** ** tii and relative_vol: a part of a sum *)
Lemma max0_nn_r m d : nn (@fmax f64 (B64 m) d (flit 0 1)).
Proof. unfold fmax. change (flit 0 1) with (B754_zero false : f64). destruct (fisnan d); [easy|]. change (fisnan (B754_zero false)) with false. cbv iota. change (fltb d (B754_zero false)) with (Bltb d (B754_zero false)). destruct (Bltb d (B754_zero false)) eqn:E; [easy|exact E]. Qed.
Lemma nn_pair_fold m (l : list (f64 * f64)) : (forall x, In x l -> nn (fst x) /\ nn (snd x)) -> forall a b, nn a -> nn b ->
  nn (fst (fold_left (fun '(a, b) '(x, y) => (@fadd f64 (B64 m) a x, @fadd f64 (B64 m) b y)) l (a, b))) /\ nn (snd (fold_left (fun '(a, b) '(x, y) => (@fadd f64 (B64 m) a x, @fadd f64 (B64 m) b y)) l (a, b))).
Proof. induction l as [|[x y] l IH]; intros H a b Ha Hb; cbn [fold_left]; [easy|]. destruct (H (x, y) (or_introl eq_refl)) as [Hx Hy]. cbn [fst snd] in *. apply IH; [intros; apply H; now right|apply nn_add; easy|apply nn_add; easy]. Qed.
(** Every printed value is NaN, in [0, 100 + 2^-46], or infinite -- the last only when a
    hundred times a sum of deviations is beyond the largest float. *)
Theorem tii_f64_range m data w o : @tii f64 (B64 m) data w = Ok o -> forall x, In x o -> inr 0 U100 x \/ x = B754_infinity false.
Proof.
  unfold tii. intros E x Hx. destruct (usub _ 1) as [k|]; cbn [bind] in E; [|easy]. destruct (sma data w) as [s|]; cbn [bind] in E; [|easy]. destruct (rwindows _ _) as [ws|] eqn:W; cbn [bind] in E; [|easy]. injection E as <-.
  apply in_app_iff in Hx as [Hx|Hx]; [apply in_pad in Hx; subst; left; exact I|]. apply in_map_iff in Hx as (win & <- & Hw). unfold tii_win.
  assert (N : forall x, In x win -> nn (fst x) /\ nn (snd x)).
  { intros y Hy. unfold rwindows in W. destruct (_ =? 0)%nat; [easy|]. injection W as <-. apply in_map_iff in Hw as (j & <- & _). apply firstn_in, skipn_in in Hy. apply in_map_iff in Hy as ((u & v) & <- & _). cbn [fst snd]. split; [apply max0_nn_r|apply nn_abs]. }
  destruct (nn_pair_fold m win N (flit 0 1) (flit 0 1) (nn_lit1 m 0 ltac:(lia)) (nn_lit1 m 0 ltac:(lia))) as [P Q]. destruct (fold_left _ win _) as [p q]. cbn [fst snd] in *.
  destruct (percent_of p (Bplus mode_NE p q)) as [R|[_ R]]; [now apply lee_part_sum|now left|now right].
Qed.
Lemma signum_up_nn m d : nn (@fmax f64 (B64 m) (flit 0 1) d).
Proof. apply (fmax0_nn m d). Qed.
Lemma std_dev_raw_nn m data w o : @std_dev_raw f64 (B64 m) data w = Ok o -> forall x, In x o -> nn x.
Proof. unfold std_dev_raw. intros E x Hx. destruct (rwindows _ _) as [ws|]; cbn [bind] in E; [|easy]. injection E as <-. apply in_map_iff in Hx as (v & <- & _). apply nn_sqrt. Qed.
Theorem relative_vol_f64_range m close w s o : @relative_vol f64 (B64 m) close w s = Ok o -> forall x, In x o -> inr 0 U100 x \/ x = B754_infinity false.
Proof.
  unfold relative_vol. intros E x Hx. destruct (rel_vol_pairs close w) as [ps|] eqn:P; cbn [bind] in E; [|easy]. destruct (wilder (map fst ps) s) as [g|] eqn:G; cbn [bind] in E; [|easy]. destruct (wilder (map snd ps) s) as [l|] eqn:L; cbn [bind] in E; [|easy]. destruct (usub w 1) as [k|]; cbn [bind] in E; [|easy]. injection E as <-.
  apply in_app_iff in Hx as [Hx|Hx]; [apply in_pad in Hx; subst; left; exact I|]. apply in_map_iff in Hx as ((a & b) & <- & Hi).
  assert (N : forall x, In x ps -> nn (fst x) /\ nn (snd x)).
  { unfold rel_vol_pairs in P. destruct (std_dev_raw close w) as [sd|] eqn:S; cbn [bind] in P; [|easy]. repeat (match type of P with bind ?e _ = _ => destruct e; cbn [bind] in P; [|easy] end). injection P as <-.
    intros y Hy. apply in_map_iff in Hy as (((u & v) & t) & <- & Hz). unfold zip3 in Hz. apply in_combine_l in Hz. apply in_combine_l in Hz. pose proof (std_dev_raw_nn m close w sd S u Hz) as U. cbn [fst snd]. split; (apply nn_mul; [apply signum_up_nn|exact U]). }
  assert (Ga : nn a). { apply (wilder_f64_nonneg m _ s g G); [|eapply in_combine_l, Hi]. intros x Hx. apply in_map_iff in Hx as (p & <- & Hp). now apply N. }
  assert (Gb : nn b). { apply (wilder_f64_nonneg m _ s l L); [|eapply in_combine_r, Hi]. intros x Hx. apply in_map_iff in Hx as (p & <- & Hp). now apply N. }
  destruct (percent_of a (Bplus mode_NE a b)) as [R|[_ R]]; [now apply lee_part_sum|now left|now right].
Qed.

(** ** mfi: between 0 and 100 whenever no price and no volume is negative *)
Lemma mfi_ratio m P N : nn P -> nn N -> inr 0 100 (@fsub f64 (B64 m) (flit 100 1) (@fdiv f64 (B64 m) (flit 100 1) (@fadd f64 (B64 m) (flit 1 1) (@fdiv f64 (B64 m) P N)))).
Proof.
  intros HP HN. cbn [fsub fdiv fadd B64]. change (flit 100 1) with (b64_of_Z 100). change (flit 1 1) with (b64_of_Z 1).
  assert (X1 : xval (b64_of_Z 1) = Fin 1) by now apply xval_of_Z. apply xval_fin_inv in X1 as [F1 V1]. destruct lit100 as [F100 V100].
  assert (D : inr 0 100 (Bdiv mode_NE (b64_of_Z 100) (Bplus mode_NE (b64_of_Z 1) (Bdiv mode_NE P N)))).
  { assert (C : nn (Bdiv mode_NE P N) \/ Bdiv mode_NE P N = B754_infinity true).
    { destruct (Bltb (B754_zero false) N) eqn:EN; [left; now apply nn_div|]. fsplit N; [|destruct s; easy|left; rewrite nan_div_r; exact nn_nan]. assert (Z : B2R N = 0). { apply nn_fin in HN; [|easy]. rewrite ltb_xval, (xval_fin N) in EN by easy. cbn in EN. apply Rltb_f in EN. lra. }
      destruct N as [t|t| |t v e B]; try easy; [|exfalso; revert Z; cbn -[F2R]; intros Z; apply eq_0_F2R in Z; now destruct t]. destruct P as [a|a| |a v e B]; try (left; exact nn_nan); try (destruct a; [try easy|]; destruct t; [now right|now left]). }
    destruct C as [C| ->]; [|unfold inr; cbn; lra]. set (q := Bdiv mode_NE P N) in *. clearbody q. clear P N HP HN. fsplit q; [|destruct s; [easy|]|exact I].
    2:{ unfold inr; cbn; lra. }
    apply nn_fin in C; [|easy]. pose proof (xval_add (b64_of_Z 1) q F1 ltac:(easy)) as A. rewrite V1 in A. set (r := Bplus mode_NE (b64_of_Z 1) q) in *. clearbody r.
    assert (GE : 1 <= rnd (1 + B2R q)) by (rewrite <- (rnd_Z 1) at 1 by easy; apply rnd_le; lra).
    unfold fl in A. destruct (Rltb _ _).
    - apply xval_fin_inv in A as [FR VR]. rewrite <- VR in GE. apply (inr_of _ _ _ _ (xval_div (b64_of_Z 100) r F100 FR ltac:(lra))); [now apply (rep_Z 0)|now apply (rep_Z 100)|]. rewrite V100. split; [apply Rmult_le_pos; [lra|left; apply Rinv_0_lt_compat; lra]|]. apply (Rmult_le_reg_r (B2R r)); [lra|]. unfold Rdiv. rewrite Rmult_assoc, Rinv_l by lra. lra.
    - replace r with (B754_infinity false : f64). { unfold inr; cbn; lra. } destruct r as [t|t| |t v e B]; try easy. destruct t; [|easy]. cbn in A. injection A as A. symmetry in A. apply Rltb_t in A. lra. }
  apply (inr_weaken (100 - 100) (100 - 0)); [|lra|lra]. apply inr_sub; [|exact D| |].
  - apply inr_fin; [easy|]. rewrite V100. lra.
  - replace (100 - 100) with 0 by ring. now apply (rep_Z 0).
  - replace (100 - 0) with 100 by ring. now apply (rep_Z 100).
Qed.
Lemma typ_nn m (h l c : f64) : nn h -> nn l -> nn c -> nn (@fdiv f64 (B64 m) (fadd (fadd h l) c) (flit 3 1)).
Proof. intros. apply nn_div; [|now apply (of_Z_pos 3)]. apply nn_add; [now apply nn_add|easy]. Qed.
Theorem mfi_f64_range m high low close volume w o : @mfi f64 (B64 m) high low close volume w = Ok o ->
  (forall x, In x high \/ In x low \/ In x close \/ In x volume -> nn x) -> forall x, In x o -> inr 0 100 x.
Proof.
  unfold mfi. intros E H x Hx. destruct (tail4 high low close volume) as [bars|] eqn:TB; cbn [bind] in E; [|easy]. destruct (idx high 0) as [h0|]; cbn [bind] in E; [|easy]. destruct (idx low 0) as [l0|]; cbn [bind] in E; [|easy]. destruct (idx close 0) as [c0|]; cbn [bind] in E; [|easy]. destruct (rwindows w (map fst _)) as [wp|] eqn:WP; cbn [bind] in E; [|easy]. destruct (rwindows w (map snd _)) as [wn|] eqn:WN; cbn [bind] in E; [|easy]. injection E as <-.
  apply in_app_iff in Hx as [Hx|Hx]; [apply in_pad in Hx; subst; exact I|]. apply in_map_iff in Hx as ((a & b) & <- & Hi). unfold mfi_win. cbn [fst snd].
  assert (BN : forall h l c v, In (h, l, c, v) bars -> nn h /\ nn l /\ nn c /\ nn v).
  { intros h l c v Hb. unfold tail4 in TB. repeat (match type of TB with bind ?e _ = _ => let Q := fresh "Q" in destruct e eqn:Q; cbn [bind] in TB; [|easy] end). injection TB as <-. unfold zip4, zip3 in Hb.
    assert (SL : forall (l l' : list f64) k y, slice_from l k = Ok l' -> In y l' -> In y l) by (intros l1 l' k y; unfold slice_from; destruct (_ <=? _)%nat; [|easy]; intros [= <-]; apply skipn_in).
    pose proof (in_combine_l _ _ _ _ Hb) as I1. pose proof (in_combine_r _ _ _ _ Hb) as I2. pose proof (in_combine_l _ _ _ _ I1) as I3. pose proof (in_combine_r _ _ _ _ I1) as I4. pose proof (in_combine_l _ _ _ _ I3) as I5. pose proof (in_combine_r _ _ _ _ I3) as I6.
    eapply SL in I2, I4, I5, I6; try eassumption. repeat split; apply H; tauto. }
  assert (FN : forall x, In x (scan (@mfi_step f64 (B64 m)) (fdiv (fadd (fadd h0 l0) c0) (flit 3 1)) bars) -> nn (fst x) /\ nn (snd x)).
  { apply (in_scan _ (fun _ => True)); [easy|]. intros s (((h & l) & c) & v) Hb _. split; [easy|]. destruct (BN h l c v Hb) as (Nh & Nl & Nc & Nv). cbn [mfi_step fst snd]. split; (match goal with |- nn (if ?b then _ else _) => destruct b end; [apply nn_mul; [now apply typ_nn|easy]|easy]). }
  apply mfi_ratio; apply nn_fsum; intros y Hy.
  - unfold rwindows in WP. destruct (_ =? 0)%nat; [easy|]. injection WP as <-. apply in_combine_l in Hi. apply in_map_iff in Hi as (j & <- & _). apply firstn_in, skipn_in in Hy. apply in_map_iff in Hy as (p & <- & Hp). now apply FN.
  - unfold rwindows in WN. destruct (_ =? 0)%nat; [easy|]. injection WN as <-. apply in_combine_r in Hi. apply in_map_iff in Hi as (j & <- & _). apply firstn_in, skipn_in in Hy. apply in_map_iff in Hy as (p & <- & Hp). now apply FN.
Qed.

(** ** tsi: the same average of moves and of their sizes *)
Definition dom (x y : f64) : Prop := lee (Babs x) y.
Lemma lee_xval x x' y y' : xval x = xval x' -> xval y = xval y' -> lee x y -> lee x' y'.
Proof. unfold lee, nn. rewrite !ltb_xval. now intros -> ->. Qed.
Lemma dom_add x y x' y' : dom x y -> dom x' y' -> dom (Bplus mode_NE x x') (Bplus mode_NE y y').
Proof.
  intros H H'. pose proof (lee_add _ _ _ _ H H') as (A & B & C). split; [apply nn_abs|]. split; [exact B|]. revert C. generalize (Bplus mode_NE y y'). intros z C. fsplit x.
  2:{ destruct s, x' as [t|[]| |t v e Bd]; first [exact C|apply ltb_nan_r]. }
  2:{ rewrite nan_plus_l. cbn. apply ltb_nan_r. }
  fsplit x'.
  2:{ destruct s, x as [t|t| |t v e Bd]; try easy; exact C. }
  2:{ rewrite nan_plus_r. cbn. apply ltb_nan_r. }
  assert (FA : forall u : f64, fin u -> fin (Babs u) /\ B2R (Babs u) = Rabs (B2R u)) by (intros u Fu; split; [now rewrite is_finite_Babs|apply B2R_Babs]).
  destruct (FA x ltac:(easy)) as [F1 V1]. destruct (FA x' ltac:(easy)) as [F2 V2]. rewrite ltb_xval in C |- *. rewrite xval_abs, xval_add, xabs_fl by easy. rewrite xval_add, V1, V2 in C by easy.
  assert (L : xleb (fl (Rabs (B2R x + B2R x'))) (fl (Rabs (B2R x) + Rabs (B2R x'))) = true) by (apply fl_le, Rabs_triang). pose proof (fl_not_nan (Rabs (B2R x + B2R x'))). pose proof (fl_not_nan (Rabs (B2R x) + Rabs (B2R x'))).
  destruct (xval z) as [v|[]|], (fl (Rabs (B2R x + B2R x'))) as [p|[]|], (fl (Rabs (B2R x) + Rabs (B2R x'))) as [q|[]|]; cbn in *; try easy. apply Rltb_f in C. apply Rltb_f. apply Rleb_t in L. lra.
Qed.

Lemma dom_mul x y k r : dom x y -> xval k = Fin r -> 0 < r -> dom (Bmult mode_NE x k) (Bmult mode_NE y k).
Proof.
  intros H K P. pose proof (lee_mul _ _ _ _ H K P) as L. assert (K' := K). apply xval_fin_inv in K' as [Fk Vk]. revert L. apply lee_xval; [|easy]. rewrite xval_abs. fsplit x.
  - rewrite !xval_mul by (try easy; now rewrite is_finite_Babs). rewrite xabs_fl, B2R_Babs, Rabs_mult, (Rabs_pos_eq (B2R k)) by lra. reflexivity.
  - destruct k as [t|t| |t v e Bd]; try easy. destruct t; [exfalso; assert (B2R (B754_finite true v e Bd) < 0) by (now apply F2R_lt_0); lra|]. now destruct s.
  - now rewrite !nan_mult_l.
Qed.
Lemma dom_div x y k r : dom x y -> xval k = Fin r -> 0 < r -> dom (Bdiv mode_NE x k) (Bdiv mode_NE y k).
Proof.
  intros H K P. pose proof (lee_div _ _ _ _ H K P) as L. assert (K' := K). apply xval_fin_inv in K' as [Fk Vk]. revert L. apply lee_xval; [|easy]. rewrite xval_abs. fsplit x.
  - rewrite !xval_div by (try easy; try lra; now rewrite is_finite_Babs). rewrite xabs_fl, B2R_Babs. unfold Rdiv. rewrite Rabs_mult, (Rabs_pos_eq (/ B2R k)) by (left; apply Rinv_0_lt_compat; lra). reflexivity.
  - destruct k as [t|t| |t v e Bd]; try easy; [exfalso; cbn in Vk; lra|]. destruct t; [exfalso; assert (B2R (B754_finite true v e Bd) < 0) by (now apply F2R_lt_0); lra|]. now destruct s.
  - now rewrite !nan_div_l.
Qed.
Lemma dom_mul0 x y k : dom x y -> xval k = Fin 0 -> dom (Bmult mode_NE x k) (Bmult mode_NE y k).
Proof.
  intros (_ & _ & H) K. apply xval_fin_inv in K as [Fk Vk]. destruct k as [t|t| |t v e Bd]; try easy; [|exfalso; revert Vk; cbn -[F2R]; intros Z; apply eq_0_F2R in Z; now destruct t].
  destruct x as [a|a| |a v e Bd], y as [b|b| |b v' e' Bd']; try (destruct a); try (destruct b); destruct t; easy.
Qed.
Lemma dom_fold m {A} (f g : A -> f64) l : (forall k, In k l -> dom (f k) (g k)) -> forall a b, dom a b -> dom (fold_left (@fadd f64 (B64 m)) (map f l) a) (fold_left (@fadd f64 (B64 m)) (map g l) b).
Proof. induction l as [|k l IH]; intros H a b Hab; cbn [map fold_left]; [easy|]. apply IH; [intros; apply H; now right|]. apply dom_add; [easy|]. apply H. now left. Qed.
Lemma dom_nan : dom B754_nan B754_nan. Proof. easy. Qed.
(** Exponential averages: if every item is at most the other series' item in size, so is the average. *)
Theorem ewma_f64_dominated m {A} (f g : A -> f64) l w p q : (Z.of_nat w < 2 ^ 53)%Z -> @ewma f64 (B64 m) (map f l) w = Ok p -> @ewma f64 (B64 m) (map g l) w = Ok q -> (forall a, In a l -> dom (f a) (g a)) ->
  forall x, In x (combine p q) -> dom (fst x) (snd x).
Proof.
  intros Hw EP EQ H x Hx. unfold ewma, slice_to, slice_from, usub in EP, EQ. rewrite map_length in *. destruct (Nat.leb_spec w (length l)); cbn [bind] in *; [|easy]. destruct (Nat.leb_spec 1 w); cbn [bind] in *; [|easy]. injection EP as <-. injection EQ as <-.
  rewrite combine_app2 in Hx by easy. apply in_app_iff in Hx as [Hx|Hx]; [destruct x as [u v]; pose proof (in_combine_l _ _ _ _ Hx) as X1; pose proof (in_combine_r _ _ _ _ Hx) as X2; apply in_pad in X1, X2; subst; apply dom_nan|].
  assert (KW : forall k, (0 < k <= w + 1)%nat -> xval (@fofnat f64 (B64 m) k) = Fin (INR k) /\ 0 < INR k) by (intros k Hk; split; [apply (xval_nat m); lia|apply lt_0_INR; lia]).
  assert (I0 : dom (fdiv (@fsum f64 (B64 m) (firstn w (map f l))) (@fofnat f64 (B64 m) w)) (fdiv (@fsum f64 (B64 m) (firstn w (map g l))) (@fofnat f64 (B64 m) w))).
  { destruct (KW w ltac:(lia)) as [K1 K2]. cbn [fdiv B64]. apply (dom_div _ _ _ _) with (2 := K1) (3 := K2). unfold fsum. rewrite !firstn_map. apply (dom_fold m); [|cbn; destruct (lm_negsum0 m); easy]. intros a Ha. apply H. eapply firstn_in, Ha. }
  match type of Hx with context [ewma_step ?e] => set (al := e) in * end.
  assert (KA : exists r, xval al = Fin r /\ 0 < r <= 1).
  { destruct (KW (w + 1)%nat ltac:(lia)) as [XW _]. assert (X2 : xval (b64_of_Z 2) = Fin 2) by now apply xval_of_Z. apply xval_fin_inv in X2 as [X2 V2]. apply xval_fin_inv in XW as [XW VW]. assert (W2 : 2 <= INR (w + 1)) by (change 2 with (INR 2); apply le_INR; lia).
    assert (WU : INR (w + 1) <= bpow radix2 53) by (rewrite INR_IZR_INZ; change (bpow radix2 53) with (IZR (2 ^ 53)); apply IZR_le; lia).
    assert (X : xval al = fl (2 / INR (w + 1))). { change al with (Bdiv mode_NE (b64_of_Z 2) (@fofnat f64 (B64 m) (w + 1))). rewrite xval_div by (try easy; rewrite VW; lra). now rewrite V2, VW. }
    assert (LO : bpow radix2 (-52) <= 2 / INR (w + 1)). { apply (Rmult_le_reg_r (INR (w + 1))); [lra|]. unfold Rdiv. rewrite Rmult_assoc, Rinv_l, Rmult_1_r by lra. apply Rle_trans with (bpow radix2 (-52) * bpow radix2 53); [apply Rmult_le_compat_l; [apply bpow_ge_0|easy]|]. rewrite <- bpow_plus. cbn. lra. }
    assert (HI : 2 / INR (w + 1) <= 1). { apply (Rmult_le_reg_r (INR (w + 1))); [lra|]. unfold Rdiv. rewrite Rmult_assoc, Rinv_l by lra. lra. }
    apply rnd_le in LO, HI. rewrite (rnd_Z 1) in HI by easy. destruct (rep_F 1 (-52) (bpow radix2 (-52)) ltac:(ring) ltac:(easy) ltac:(lia)) as [R52 _]. rewrite R52 in LO. pose proof (bpow_gt_0 radix2 (-52)). exists (rnd (2 / INR (w + 1))). split; [|lra]. rewrite X. apply fl_fin. rewrite Rabs_pos_eq by lra. apply Rle_lt_trans with (1 := HI). rewrite <- (Rabs_pos_eq 1) by lra. now apply (IZR_lt_lim 1). }
  destruct KA as (r & XA & RA). assert (XA' := XA). apply xval_fin_inv in XA' as [FA VA]. assert (X1 : xval (b64_of_Z 1) = Fin 1) by now apply xval_of_Z. apply xval_fin_inv in X1 as [F1 V1].
  pose proof (xval_sub (b64_of_Z 1) al F1 FA) as XB. rewrite V1, VA in XB. assert (RB : 0 <= rnd (1 - r) <= 1). { split; [rewrite <- rnd_0; apply rnd_le; lra|]. apply Rle_trans with (rnd 1); [apply rnd_le; lra|rewrite (rnd_Z 1) by easy; lra]. }
  rewrite fl_fin in XB by (apply Rle_lt_trans with (IZR 2); [rewrite Rabs_pos_eq; lra|]; rewrite <- (Rabs_pos_eq 2) by lra; now apply (IZR_lt_lim 2)).
  rewrite !skipn_map, !scan_map in Hx. destruct Hx as [<- |Hx]; [exact I0|]. revert x Hx. apply (in_combine_scan _ _ dom dom); [exact I0|].
  intros s t a Ha L. cbn [ewma_step fst snd]. match goal with |- dom ?u ?v /\ _ => assert (dom u v); [|easy] end. cbn [fadd fmul fsub B64]. change (flit 1 1) with (b64_of_Z 1).
  apply dom_add; [apply (dom_mul _ _ _ _) with (2 := XA); [apply H; eapply skipn_in, Ha|lra]|].
  destruct (Req_dec (rnd (1 - r)) 0) as [Z|Z]; [rewrite Z in XB; now apply dom_mul0|apply (dom_mul _ _ _ _ L XB); lra].
Qed.

Lemma percent_signed x y : dom x y -> inr (- U100) U100 (Bdiv mode_NE (Bmult mode_NE (b64_of_Z 100) x) y) \/
  exists s, Bdiv mode_NE (Bmult mode_NE (b64_of_Z 100) x) y = B754_infinity s.
Proof.
  intros H. pose proof (percent_of _ _ H) as P. assert (UP : 0 <= U100) by (unfold U100; pose proof (bpow_gt_0 radix2 (-46)); lra).
  assert (O : forall z : f64, Babs z = z \/ Babs z = Bopp z) by (intros [[]|[]| |[]]; cbn; tauto).
  destruct (O x) as [E|E]; rewrite E in P.
  { destruct P as [P|[_ P]]; [left; apply (inr_weaken 0 U100); [easy|lra|lra]|right; now exists false]. }
  rewrite b_mul_comm, b_neg_mul, b_neg_div in P. rewrite (b_mul_comm (b64_of_Z 100)). set (q := Bdiv mode_NE (Bmult mode_NE x _) y) in *. clearbody q.
  destruct P as [P|[_ P]]; [|right; exists true; now destruct q as [t|t| |t ? ? ?]; try destruct t].
  left. unfold inr in *. rewrite xval_neg in P. destruct (xval q); cbn in *; try easy. lra.
Qed.
(** Every printed value is NaN, in [-100 - 2^-46, 100 + 2^-46], or infinite -- the last only when a
    hundred times an average move is beyond the largest float. *)
Theorem tsi_f64_range m data short long o : (Z.of_nat short < 2 ^ 53)%Z -> (Z.of_nat long < 2 ^ 53)%Z -> @tsi f64 (B64 m) data short long = Ok o ->
  forall x, In x o -> inr (- U100) U100 x \/ exists s, x = B754_infinity s.
Proof.
  intros Hs Hl E x Hx. unfold tsi in E. set (diffs := map _ (pairs data)) in *. destruct (ewma diffs long) as [ld|] eqn:E1; cbn [bind] in E; [|easy]. destruct (usub long 1) as [k|]; cbn [bind] in E; [|easy]. destruct (ewma (skipn k ld) short) as [p|] eqn:E2; cbn [bind] in E; [|easy]. destruct (ewma (map fabs diffs) long) as [ald|] eqn:E3; cbn [bind] in E; [|easy]. destruct (ewma (skipn k ald) short) as [a|] eqn:E4; cbn [bind] in E; [|easy]. injection E as <-.
  apply in_app_iff in Hx as [Hx|Hx]; [apply in_pad in Hx; subst; left; exact I|]. apply in_map_iff in Hx as ((u & v) & <- & Hi). cbn [fdiv fmul B64]. change (flit 100 1) with (b64_of_Z 100). apply percent_signed.
  assert (LN : length ald = length ld).
  { unfold ewma, slice_to, slice_from, usub in E1, E3. rewrite map_length in E3. destruct (_ <=? _)%nat; cbn [bind] in *; [|easy]. destruct (_ <=? _)%nat; cbn [bind] in *; [|easy]. injection E1 as <-. injection E3 as <-. rewrite !app_length. cbn [length]. now rewrite skipn_map, scan_map, !length_scan. }
  assert (D1 : forall x, In x (combine ld ald) -> dom (fst x) (snd x)).
  { apply (ewma_f64_dominated m (fun z => z) (@fabs f64 (B64 m)) diffs long); [easy|now rewrite map_id|easy|]. intros z _. split; [apply nn_abs|]. split; [apply nn_abs|]. apply ltb_irrefl. }
  set (cs := skipn k (combine ld ald)) in *.
  assert (CF : map fst cs = skipn k ld /\ map snd cs = skipn k ald).
  { unfold cs. rewrite <- !skipn_map. clear - LN. assert (G : map fst (combine ld ald) = ld /\ map snd (combine ld ald) = ald); [|now destruct G as [-> ->]]. revert ald LN. induction ld as [|z ld IH]; intros [|t ald] L; try easy. cbn. destruct (IH ald ltac:(now injection L)) as [-> ->]. easy. }
  destruct CF as [C1 C2]. rewrite <- C1 in E2. rewrite <- C2 in E4.
  apply (ewma_f64_dominated m fst snd cs short p a Hs E2 E4 ltac:(intros z Hz; apply D1; eapply skipn_in, Hz) (u, v) Hi).
Qed.

(** ** mda: between 0 and 1;  smape: between 0 and 200 unless the inputs are below the normal range *)
Lemma in_counted {A B S T} (P : nat -> S -> Prop) (Q : T -> Prop) (f : S -> nat * A * B -> S * T) : forall d e a s, P a s ->
  (forall k s o t, (a <= k < a + length d)%nat -> In (o, t) (combine d e) -> P k s -> P (k + 1)%nat (fst (f s (k, o, t))) /\ Q (snd (f s (k, o, t)))) ->
  forall x, In x (scan f s (combine (combine (seq a (length d)) d) e)) -> Q x.
Proof.
  induction d as [|o d IH]; intros [|t e] a s Ps H x Hx; cbn [combine seq length scan] in Hx; try easy.
  destruct (H a s o t ltac:(cbn; lia) ltac:(now left) Ps) as [H1 H2]. destruct (f s (a, o, t)) as [s' b]. cbn [fst snd] in *. destruct Hx as [<- |Hx]; [easy|].
  replace (a + 1)%nat with (Datatypes.S a) in H1 by lia. apply (IH e (Datatypes.S a) s' H1) with (2 := Hx). intros k s0 o0 t0 Hk Hi. apply H; [cbn; lia|now right].
Qed.
Lemma inr_step z k x y : inr 0 (IZR z * INR k) x -> inr 0 (IZR z) y -> (0 <= z)%Z -> (z * (Z.of_nat k + 1) <= 2 ^ 53)%Z -> inr 0 (IZR z * INR (k + 1)) (Bplus mode_NE x y).
Proof.
  intros Hx Hy Hz Hk. rewrite plus_INR, Rmult_plus_distr_l. change (INR 1) with 1. rewrite Rmult_1_r. replace 0 with (0 + 0) by ring. apply inr_add; try easy.
  - rewrite Rplus_0_l. now apply (rep_Z 0).
  - rewrite INR_IZR_INZ, <- mult_IZR, <- plus_IZR. apply rep_Z. nia.
Qed.
Lemma inr_share m z k x : inr 0 (IZR z * INR (k + 1)) x -> (0 <= z <= 2 ^ 53)%Z -> (Z.of_nat (k + 1) <= 2 ^ 53)%Z -> inr 0 (IZR z) (Bdiv mode_NE x (@fofnat f64 (B64 m) (k + 1))).
Proof.
  intros Hx Hz Hk. assert (P : 0 < INR (k + 1)) by (apply lt_0_INR; lia). apply (inr_weaken (0 / INR (k + 1)) (IZR z * INR (k + 1) / INR (k + 1))).
  - apply inr_quot; [easy|now apply xval_nat|easy| |]; [unfold Rdiv; rewrite Rmult_0_l; now apply (rep_Z 0)|]. replace (IZR z * INR (k + 1) / INR (k + 1)) with (IZR z) by (field; lra). apply rep_Z. lia.
  - unfold Rdiv. lra.
  - right. field. lra.
Qed.
Lemma bool_unit m b : inr 0 (IZR 1) (@fbool f64 (B64 m) b).
Proof. destruct b; unfold fbool; [|unfold inr; cbn; lra]. assert (X1 : xval (b64_of_Z 1) = Fin 1) by now apply xval_of_Z. unfold inr. change (flit 1 1) with (b64_of_Z 1). rewrite X1. lra. Qed.
Theorem mda_f64_range m data estimate o : (Z.of_nat (length data) <= 2 ^ 53)%Z -> @mda f64 (B64 m) data estimate = Ok o -> forall x, In x o -> inr 0 1 x.
Proof.
  intros Hn E x Hx. unfold mda in E. destruct (slice_from data 1) as [d|] eqn:SD; cbn [bind] in E; [|easy]. destruct (slice_from estimate 1) as [e|]; cbn [bind] in E; [|easy]. destruct (idx data 0) as [d0|]; cbn [bind] in E; [|easy]. injection E as <-.
  destruct Hx as [<- |Hx]; [exact I|]. assert (LD : (length d <= length data)%nat). { unfold slice_from in SD. destruct (_ <=? _)%nat; [|easy]. injection SD as <-. destruct data; cbn; lia. }
  revert x Hx. unfold obs_est, enumerate. apply (in_counted (fun k s => inr 0 (IZR 1 * INR k) (fst s))).
  - unfold inr. cbn. lra.
  - intros k [h p] a t Hk _ H. cbn [fst snd] in *. cbn [fadd fdiv B64]. assert (G := inr_step 1 k _ _ H (bool_unit m (fsignum (a - p)%F =? fsignum (t - p)%F)%F) ltac:(lia) ltac:(lia)). split; [exact G|]. apply (inr_share m 1); [exact G|lia|lia].
Qed.

Lemma half_exact (y : f64) : fin y -> bpow radix2 (-1021) <= B2R y -> exists h, Bdiv mode_NE y (b64_of_Z 2) = h /\ fin h /\ B2R h = B2R y / 2.
Proof.
  intros Fy Hy. assert (X2 : xval (b64_of_Z 2) = Fin 2) by now apply xval_of_Z. apply xval_fin_inv in X2 as [F2 V2]. pose proof (xval_div y (b64_of_Z 2) Fy F2 ltac:(lra)) as X. rewrite V2 in X.
  pose proof (bpow_gt_0 radix2 (-1021)). assert (R : rnd (B2R y / 2) = B2R y / 2).
  { apply round_generic; [typeclasses eauto|]. replace (B2R y / 2) with (B2R y * bpow radix2 (-1)) by (cbn; lra). apply (mult_bpow_exact_FLT radix2 (-1074) 53); [apply (generic_format_B2R 53 1024 y)|].
    assert (-1020 <= mag radix2 (B2R y))%Z by (apply mag_ge_bpow; rewrite Rabs_pos_eq by lra; exact Hy). lia. }
  rewrite fl_fin in X by (rewrite R, Rabs_pos_eq by lra; apply Rle_lt_trans with (B2R y); [lra|]; apply Rle_lt_trans with (1 := Rle_abs _); apply abs_B2R_lt_emax). rewrite R in X. apply xval_fin_inv in X as [FX VX]. now exists (Bdiv mode_NE y (b64_of_Z 2)).
Qed.
Lemma inr_max0 m b x : 0 <= b -> inr 0 b x -> inr 0 b (@fmax f64 (B64 m) x (flit 0 1)).
Proof. intros Hb H. assert (Z : inr 0 b (B754_zero false)) by (unfold inr; cbn; lra). unfold fmax. change (flit 0 1) with (B754_zero false : f64). destruct (fisnan x); [easy|]. change (fisnan (B754_zero false)) with false. cbv iota. now destruct (fltb _ _). Qed.
(** The pair is zero, or not both numbers are far below the smallest normal float. *)
Definition tiny_free (p : f64 * f64) : Prop := fin (fst p) -> fin (snd p) -> (B2R (fst p) = 0 /\ B2R (snd p) = 0) \/ bpow radix2 (-1021) <= Rabs (B2R (fst p)) + Rabs (B2R (snd p)).
Lemma sym_term (o e : f64) : tiny_free (o, e) -> inr 0 (IZR 2) (Bdiv mode_NE (Babs (Bminus mode_NE o e)) (Bdiv mode_NE (Bplus mode_NE (Babs o) (Babs e)) (b64_of_Z 2))).
Proof.
  intros T. unfold tiny_free in T. cbn [fst snd] in T. fsplit o.
  2:{ destruct s, e as [t|[]| |t v ex Bd]; exact I. }
  2:{ rewrite nan_minus_l. exact I. }
  fsplit e.
  2:{ destruct s, o as [t|[]| |t v ex Bd]; exact I. }
  2:{ rewrite nan_minus_r. exact I. }
  assert (FA : forall u : f64, fin u -> fin (Babs u) /\ B2R (Babs u) = Rabs (B2R u)) by (intros u Fu; split; [now rewrite is_finite_Babs|apply B2R_Babs]).
  destruct (FA o ltac:(easy)) as [F1 V1]. destruct (FA e ltac:(easy)) as [F2 V2].
  pose proof (xval_abs (Bminus mode_NE o e)) as X. rewrite xval_sub, xabs_fl in X by easy. pose proof (xval_add (Babs o) (Babs e) F1 F2) as Y. rewrite V1, V2 in Y.
  assert (TR : Rabs (B2R o - B2R e) <= Rabs (B2R o) + Rabs (B2R e)). { pose proof (Rabs_triang (B2R o) (- B2R e)) as TT. rewrite Rabs_Ropp in TT. exact TT. }
  destruct (T ltac:(easy) ltac:(easy)) as [[Z1 Z2]|TL].
  { assert (G : forall z : f64, fin z -> B2R z = 0 -> exists s, z = B754_zero s) by (intros [s|s| |s q ex B] FZ VZ; try easy; [now exists s|exfalso; revert VZ; cbn -[F2R]; intros VZ; apply eq_0_F2R in VZ; now destruct s]).
    destruct (G o ltac:(easy) Z1) as [s ->], (G e ltac:(easy) Z2) as [t ->]. destruct s, t; exact I. }
  set (x := Babs (Bminus mode_NE o e)) in *. set (y := Bplus mode_NE (Babs o) (Babs e)) in *. clearbody x y.
  assert (NX : nn x) by (apply (nn_of _ _ X), Rabs_pos). pose proof (ltb_of _ _ _ _ Y X TR) as L.
  apply rnd_le in TL. destruct (rep_F 1 (-1021) (bpow radix2 (-1021)) ltac:(ring) ltac:(easy) ltac:(lia)) as [R21 _]. rewrite R21 in TL. pose proof (bpow_gt_0 radix2 (-1021)) as BP.
  fsplit y.
  - assert (VY : B2R y = rnd (Rabs (B2R o) + Rabs (B2R e))). { unfold fl in Y. rewrite xval_fin in Y by easy. destruct (Rltb _ _); [|easy]. now injection Y. }
    destruct (half_exact y ltac:(easy) ltac:(now rewrite VY)) as (h & -> & Fh & Vh). fsplit x.
    + rewrite ltb_xval, !xval_fin in L by easy. cbn in L. apply Rltb_f in L. apply nn_fin in NX; [|easy]. assert (0 < B2R y) by (rewrite VY; lra). apply (inr_of _ _ _ _ (xval_div x h ltac:(easy) Fh ltac:(lra))); [now apply (rep_Z 0)|now apply (rep_Z 2)|].
      rewrite Vh. split; [apply Rmult_le_pos; [easy|left; apply Rinv_0_lt_compat; lra]|]. apply (Rmult_le_reg_r (B2R y / 2)); [lra|]. unfold Rdiv at 1. rewrite Rmult_assoc, Rinv_l by lra. lra.
    + exfalso. revert L. rewrite ltb_xval, (xval_fin y) by easy. destruct s; [|easy]. now apply nn_not_ninf in NX.
    + now rewrite nan_div_l.
  - destruct s. { exfalso. clear - Y TL BP. cbn in Y. unfold fl in Y. destruct (Rltb _ _); [easy|]. injection Y as Y. symmetry in Y. apply Rltb_t in Y. pose proof (Rabs_pos (B2R o)). pose proof (Rabs_pos (B2R e)). lra. }
    destruct x as [t|t| |t v ex Bd]; unfold inr; cbn; try easy; try lra; destruct t; cbn; lra.
  - unfold fl in Y. cbn in Y. destruct (Rltb _ _); easy.
Qed.
Theorem smape_f64_range m data estimate : (200 * Z.of_nat (length data) <= 2 ^ 53)%Z -> (forall p, In p (combine data estimate) -> tiny_free p) ->
  forall x, In x (@smape f64 (B64 m) data estimate) -> inr 0 200 x.
Proof.
  intros Hn T. unfold smape, obs_est, enumerate. apply (in_counted (fun k s => inr 0 (IZR 2 * INR k) s)).
  - unfold inr. cbn. lra.
  - intros k s o e Hk Hi H. cbn [fst snd]. cbn [fadd fdiv fmul fabs fsub B64]. change (flit 2 1) with (b64_of_Z 2). change (flit 100 1) with (b64_of_Z 100).
    pose proof (inr_max0 m 2 _ ltac:(lra) (sym_term o e (T _ Hi))) as G. pose proof (inr_step 2 k _ _ H G ltac:(lia) ltac:(lia)) as G2. split; [exact G2|].
    apply (inr_share m 200); [|lia|lia]. apply (inr_weaken (100 * 0) (100 * (IZR 2 * INR (k + 1)))); [|lra|lra].
    apply inr_scale_l; [exact G2|now apply (xval_of_Z 100)|lra|rewrite Rmult_0_r; now apply (rep_Z 0)|]. rewrite INR_IZR_INZ, <- !mult_IZR. apply rep_Z. lia.
Qed.

(** ** crsi *)
Lemma rsi_f64_bounded_list m (data : list f64) w o : (Z.of_nat w <= 2 ^ 53)%Z -> (forall x, In x data -> fin x /\ Rabs (B2R x) <= B950) -> @rsi f64 (B64 m) data w = Ok o -> forall x, In x o -> inr 0 U100 x.
Proof.
  intros Hw H E. destruct (@rsi_outcome f64 (B64 m) data w) as [[_ Z]|(Z & _)]; [now rewrite E in Z|].
  destruct data as [|d0 data']; [assert (w = 1)%nat by (cbn in Z; lia); subst w; cbn in E; injection E as <-; intros x [<- |[]]; exact I|]. assert (W : (0 < w <= length (d0 :: data'))%nat) by (clear - Z; split; [destruct w; [exfalso; apply Z; now left|lia]|apply Nat.nlt_ge; intros L; apply Z; right; rewrite Nat.max_r by (cbn; lia); exact L]). set (data := d0 :: data') in *. rewrite (series_complete data d0) in E.
  destruct (rsi_f64_bounded m (fun k => nth k data d0) (length data) w W Hw) as (o' & E' & B).
  - intros k Hk. apply H. now apply nth_In.
  - pose proof (eq_trans (eq_sym E) E') as Q. injection Q as ->. exact B.
Qed.
Lemma signum_unit m (x : f64) : is_nan x = false -> inr (-1) 1 (@fsignum f64 (B64 m) x) /\ fin (@fsignum f64 (B64 m) x).
Proof.
  intros N. assert (X1 : xval (b64_of_Z 1) = Fin 1) by now apply xval_of_Z. apply xval_fin_inv in X1 as [F1 V1]. unfold fsignum. change (@fisnan f64 (B64 m) x) with (is_nan x). rewrite N. change (@flit f64 (B64 m) 1 1) with (b64_of_Z 1). cbn [fneg B64].
  destruct (fsignbit x); split; try easy; apply inr_fin; try easy; rewrite ?B2R_Bopp, V1; lra.
Qed.
Lemma streak_bounded m (data : list f64) : (Z.of_nat (length data) <= 2 ^ 53)%Z -> (forall x, In x data -> fin x) ->
  forall x, In x (map fst (scan (@streak_step f64 (B64 m)) (flit 0 1, flit 0 1) (pairs data))) -> fin x /\ Rabs (B2R x) <= B950.
Proof.
  intros Hn H. assert (HB : forall p, In p (pairs data) -> is_nan (Bminus mode_NE (snd p) (fst p)) = false).
  { intros [a b] Hp. unfold pairs in Hp. cbn [fst snd]. apply sub_nnan; apply H; [eapply skipn_in, in_combine_r, Hp|eapply in_combine_l, Hp]. }
  assert (LP : (length (pairs data) <= length data)%nat) by (unfold pairs; rewrite combine_length; lia).
  assert (G : forall (l : list (f64 * f64)) (s : f64 * f64) k, (forall p, In p l -> is_nan (Bminus mode_NE (snd p) (fst p)) = false) -> (Z.of_nat (k + length l) <= 2 ^ 53)%Z -> fin (fst s) -> Rabs (B2R (fst s)) <= INR k -> forall x, In x (map fst (scan (@streak_step f64 (B64 m)) s l)) -> fin x /\ Rabs (B2R x) <= IZR (2 ^ 53)).
  { induction l as [|[a b] l IH]; intros s k Hl Hk Fs Bs x Hx; [easy|]. cbn [scan streak_step] in Hx. cbn [length] in Hk.
    match type of Hx with context [if ?c then ?u else ?v] => set (st := if c then u else v) in Hx end.
    assert (ST : fin st /\ Rabs (B2R st) <= INR (k + 1)).
    { pose proof (Hl (a, b) (or_introl eq_refl)) as Nn. cbn [fst snd] in Nn. destruct (signum_unit m _ Nn) as [S1 S2]. unfold inr in S1. rewrite xval_fin in S1 by easy. change (Bminus mode_NE b a) with (@fsub f64 (B64 m) b a) in S1, S2. rewrite plus_INR. change (INR 1) with 1. pose proof (pos_INR k). subst st. set (sg := @fsignum f64 (B64 m) (fsub b a)) in *. match goal with |- fin (if ?c then _ else _) /\ _ => destruct c end; [change (flit 0 1) with (B754_zero false : f64); split; [easy|]; change (B2R (B754_zero false : f64)) with 0; rewrite Rabs_R0; lra|]. match goal with |- fin (if ?c then _ else _) /\ _ => destruct c end; [|split; [easy|apply Rabs_le; lra]].
      clearbody sg. cbn [fadd B64]. apply Rabs_le_inv in Bs. assert (I : inr (- INR (k + 1)) (INR (k + 1)) (Bplus mode_NE (fst s) sg)).
      { apply (inr_of _ _ _ _ (xval_add _ _ Fs S2)); [rewrite INR_IZR_INZ, <- opp_IZR; apply rep_Z; lia|apply rep_nat; lia|]. rewrite plus_INR. change (INR 1) with 1. lra. }
      pose proof (xval_add _ _ Fs S2) as XA. apply inr_cases in I as [I|[I1 I2]]; [exfalso; rewrite I in XA; now apply (fl_not_nan _ (eq_sym XA))|]. split; [exact I1|]. rewrite plus_INR in I2. change (INR 1) with 1 in I2. apply Rabs_le. lra. }
    clearbody st. destruct Hx as [<- |Hx].
    - split; [easy|]. apply Rle_trans with (1 := proj2 ST). rewrite INR_IZR_INZ. apply IZR_le. lia.
    - eapply (IH _ (k + 1)%nat) with (5 := Hx); [intros; apply Hl; now right|lia|easy|easy]. }
  intros x Hx. destruct (G (pairs data) (flit 0 1, flit 0 1) 0%nat HB ltac:(lia) ltac:(easy) ltac:(change (B2R (fst (flit 0 1 : f64, flit 0 1 : f64))) with 0; rewrite Rabs_R0; cbn; lra) x Hx) as [F B]. split; [easy|]. apply Rle_trans with (1 := B). unfold B950. change (IZR (2 ^ 53)) with (bpow radix2 53). apply bpow_le. lia.
Qed.
Lemma count_but_one {A} (f : A -> bool) l i x : nth_error l i = Some x -> f x = false -> (length (filter f l) <= length l - 1)%nat.
Proof.
  revert i. induction l as [|a l IH]; intros [|i] E Fx; try easy; cbn [nth_error filter length] in *.
  - injection E as ->. rewrite Fx. assert (L : forall k : list A, (length (filter f k) <= length k)%nat) by (induction k as [|b k K]; cbn; [lia|destruct (f b); cbn; lia]). specialize (L l). lia.
  - assert (length (filter f l) <= length l - 1)%nat by now apply (IH i). assert (length l <> 0)%nat by (destruct l; [now destruct i|easy]). destruct (f a); cbn [length]; lia.
Qed.
Lemma percent_rank_f64 m rw (w : list f64) : (2 <= rw)%nat -> length w = rw -> (Z.of_nat rw <= 2 ^ 53)%Z -> inr 0 100 (@percent_rank f64 (B64 m) rw w).
Proof.
  intros Hr L Hb. unfold percent_rank. set (c := length (filter _ w)). assert (C : (c <= rw - 1)%nat).
  { replace (rw - 1)%nat with (length w - 1)%nat by lia. unfold c. destruct (nth_error w (rw - 1)) as [x|] eqn:E; [|apply nth_error_None in E; lia]. apply (count_but_one _ w (rw - 1) x E). unfold at_. rewrite (nth_error_nth _ _ _ E). apply ltb_irrefl. }
  clearbody c. cbn [fdiv fmul B64]. change (flit 100 1) with (b64_of_Z 100). apply (inr_weaken (0 * 100) (1 * 100)); [|lra|lra]. apply inr_scale; [|now apply (xval_of_Z 100)|lra|rewrite Rmult_0_l; now apply (rep_Z 0)|rewrite Rmult_1_l; now apply (rep_Z 100)].
  pose proof (xval_nat m c ltac:(lia)) as X1. pose proof (xval_nat m (rw - 1) ltac:(lia)) as X2. apply xval_fin_inv in X1 as [F1 V1]. apply xval_fin_inv in X2 as [F2 V2]. assert (P : 0 < INR (rw - 1)) by (apply lt_0_INR; lia). pose proof (pos_INR c). assert (INR c <= INR (rw - 1)) by now apply le_INR.
  apply (inr_of _ _ _ _ (xval_div _ _ F1 F2 ltac:(lra))); [now apply (rep_Z 0)|now apply (rep_Z 1)|]. rewrite V1, V2. split; [apply Rmult_le_pos; [lra|left; now apply Rinv_0_lt_compat]|]. apply (Rmult_le_reg_r (INR (rw - 1))); [lra|]. unfold Rdiv. rewrite Rmult_assoc, Rinv_l by lra. lra.
Qed.
Lemma third_of_sum m x y z : inr 0 U100 x -> inr 0 U100 y -> inr 0 U100 z -> inr 0 U100_2 (@fdiv f64 (B64 m) (fadd (fadd x y) z) (flit 3 1)).
Proof.
  intros Hx Hy Hz. cbn [fdiv fadd B64]. change (flit 3 1) with (b64_of_Z 3). assert (E45 : bpow radix2 (-45) = 2 * bpow radix2 (-46)) by (change (-45)%Z with (1 + -46)%Z; rewrite bpow_plus; reflexivity). assert (E44 : bpow radix2 (-44) = 4 * bpow radix2 (-46)) by (change (-44)%Z with (2 + -46)%Z; rewrite bpow_plus; reflexivity). pose proof (bpow_gt_0 radix2 (-46)).
  assert (R0 : rep 0) by now apply (rep_Z 0). assert (R2 : rep (U100 + U100)) by (unfold U100; replace (100 + bpow radix2 (-46) + (100 + bpow radix2 (-46))) with (200 + bpow radix2 (-45)) by lra; apply (rep_eps 200); [lia|lia|vm_compute; discriminate]).
  pose proof (inr_add _ _ _ _ _ _ Hx Hy ltac:(now rewrite Rplus_0_l) R2) as P2. rewrite !Rplus_0_l in P2. apply inr_cases in P2 as [-> |[F2 P2]]; [rewrite nan_plus_l, nan_div_l; exact I|]. apply inr_cases in Hz as [-> |[F3 P3]]; [rewrite nan_plus_r, nan_div_l; exact I|].
  set (s := Bplus mode_NE x y) in *. clearbody s. assert (P4 : inr 0 (300 + bpow radix2 (-44)) (Bplus mode_NE s z)) by (apply (inr_of _ _ _ _ (xval_add s z F2 F3)); [easy|apply (rep_eps 300); [lia|lia|vm_compute; discriminate]|unfold U100 in *; lra]). apply inr_cases in P4 as [-> |[F4 P4]]; [now rewrite nan_div_l|].
  assert (XT : xval (b64_of_Z 3) = Fin 3) by now apply xval_of_Z. apply xval_fin_inv in XT as [FT VT]. apply (inr_of _ _ _ _ (xval_div _ _ F4 FT ltac:(lra))); [easy|apply (rep_eps 100); [lia|lia|vm_compute; discriminate]|]. rewrite VT. unfold U100_2. lra.
Qed.
Theorem crsi_f64_range m (data : list f64) w sw rw o : (Z.of_nat (length data) <= 2 ^ 53)%Z -> (Z.of_nat w <= 2 ^ 53)%Z -> (Z.of_nat sw <= 2 ^ 53)%Z -> (2 <= rw)%nat -> (Z.of_nat rw <= 2 ^ 53)%Z ->
  (forall x, In x data -> fin x /\ Rabs (B2R x) <= B950) -> @crsi f64 (B64 m) data w sw rw = Ok o -> forall x, In x o -> inr 0 U100_2 x.
Proof.
  intros Hn Hw Hs R2 Hr H E x Hx. unfold crsi in E. destruct (rsi data w) as [r|] eqn:E1; cbn [bind] in E; [|easy]. destruct (rsi (map fst _) sw) as [s|] eqn:E2; cbn [bind] in E; [|easy]. destruct (rwindows rw _) as [ws|] eqn:E3; cbn [bind] in E; [|easy]. injection E as <-.
  apply in_map_iff in Hx as (((a & b) & c) & <- & Hi). unfold zip3 in Hi. pose proof (in_combine_l _ _ _ _ Hi) as I1. pose proof (in_combine_r _ _ _ _ Hi) as I2. pose proof (in_combine_l _ _ _ _ I1) as I3. pose proof (in_combine_r _ _ _ _ I1) as I4.
  apply (third_of_sum m).
  - apply (rsi_f64_bounded_list m data w r Hw H E1 a I3).
  - destruct I4 as [<- |I4]; [exact I|]. apply (rsi_f64_bounded_list m _ sw s Hs) with (2 := E2); [|exact I4]. apply streak_bounded; [easy|]. intros; now apply H.
  - apply in_app_iff in I2 as [I2|I2]; [apply in_pad in I2; subst; exact I|]. apply in_map_iff in I2 as (win & <- & Hv). apply (inr_weaken 0 100); [|lra|unfold U100; pose proof (bpow_gt_0 radix2 (-46)); lra].
    apply percent_rank_f64; try easy. unfold rwindows in E3. destruct (_ =? 0)%nat; [easy|]. injection E3 as <-. apply in_map_iff in Hv as (j & <- & Hj). apply in_seq in Hj. rewrite firstn_length, skipn_length. lia.
Qed.
