(** * F64Osc: the oscillators that divide one running total by another, in binary64. *)

From Coq Require Import Reals Lra Lia ZArith Sorted.
From Flocq Require Import Core IEEE754.BinarySingleNaN.
From Verif Require Import Spec BaseFacts Tac SmoothShape VolShape DistShape TrendShape MomShape XReal Select Bars VolumeReal VolatReal B64 F64 Smooth Momentum Trend Volume Volatility F64Facts MomReal TrendReal F64Range.
Local Unset Implicit Arguments.
Local Open Scope R_scope.

(** ** rsi (C47) *)
Lemma lee_part_sum x y : nn x -> nn y -> lee x (Bplus mode_NE x y).
Proof. intros Hx Hy. split; [easy|]. split; [now apply nn_add|now apply add_not_less]. Qed.
Lemma nn_zero s : nn (B754_zero s). Proof. now destruct s. Qed.
Lemma gain_nn m p : nn (@gain f64 (B64 m) p).
Proof. destruct p as [a b]. unfold gain, fmax. change (flit 0 1) with (B754_zero false : f64). change (fisnan (B754_zero false)) with false. cbv iota. set (d := fsub b a). destruct (fisnan d); [easy|]. change (fltb (B754_zero false) d) with (Bltb (B754_zero false) d). destruct (Bltb (B754_zero false) d) eqn:E; [now apply pos_nn|easy]. Qed.
Lemma loss_nn m p : nn (@loss f64 (B64 m) p).
Proof. destruct p as [a b]. apply nn_abs. Qed.
(** Every printed value is NaN, in [0, 100 + 2^-46], or infinite -- the last
    only when a hundred times the average gain is beyond the largest float. *)
Theorem rsi_f64_range m data w o : @rsi f64 (B64 m) data w = Ok o -> forall x, In x o -> inr 0 U100 x \/ x = B754_infinity false.
Proof.
  unfold rsi. intros E x Hx. destruct (wilder (map gain _) w) as [g|] eqn:G; cbn [bind] in E; [|easy]. destruct (wilder (map loss _) w) as [l|] eqn:L; cbn [bind] in E; [|easy]. injection E as <-.
  destruct Hx as [<- |Hx]; [left; exact I|]. apply in_map_iff in Hx as ((a & b) & <- & Hi). cbn [rsi_ratio].
  assert (Ga : nn a). { apply (wilder_f64_nonneg m _ w g G); [|eapply in_combine_l, Hi]. intros x Hx. apply in_map_iff in Hx as (p & <- & _). apply gain_nn. }
  assert (Gb : nn b). { apply (wilder_f64_nonneg m _ w l L); [|eapply in_combine_r, Hi]. intros x Hx. apply in_map_iff in Hx as (p & <- & _). apply loss_nn. }
  destruct (percent_of a (Bplus mode_NE a b)) as [P|[_ P]]; [now apply lee_part_sum|now left|now right].
Qed.
(** No overflow when the data is below 2^950. *)
Definition B950 : R := bpow radix2 950.
Lemma rep_big k e : (Z.of_nat k <= 2 ^ 53)%Z -> (0 <= e <= 960)%Z -> rep (bpow radix2 e * INR k).
Proof.
  intros Hk He. destruct (Z.eq_dec (Z.of_nat k) (2 ^ 53)) as [E|E].
  - rewrite INR_IZR_INZ, E. change (2 ^ 53)%Z with (radix2 ^ 53)%Z. rewrite IZR_Zpower by easy. rewrite <- bpow_plus. split; [|rewrite Rabs_pos_eq by apply bpow_ge_0; apply bpow_lt; lia].
    apply round_generic; [typeclasses eauto|]. apply generic_format_bpow. unfold SpecFloat.fexp, SpecFloat.emin. lia.
  - apply (rep_F (Z.of_nat k) e); [rewrite INR_IZR_INZ; ring|lia|lia].
Qed.
Lemma inr_move m a b : fin a -> fin b -> Rabs (B2R a) <= B950 -> Rabs (B2R b) <= B950 -> inr (- bpow radix2 951) (bpow radix2 951) (@fsub f64 (B64 m) b a).
Proof.
  intros Fa Fb Ha Hb. apply (inr_of _ _ _ _ (xval_sub b a Fb Fa)).
  - apply (rep_F (-1) 951); [ring|easy|lia].
  - apply (rep_F 1 951); [ring|easy|lia].
  - apply Rabs_le_inv in Ha, Hb. unfold B950 in *. replace (bpow radix2 951) with (2 * bpow radix2 950); [lra|]. change 951%Z with (1 + 950)%Z. rewrite bpow_plus. reflexivity.
Qed.
Lemma mul100_fin a : fin a -> 0 <= B2R a <= bpow radix2 951 -> Bmult mode_NE (b64_of_Z 100) a <> B754_infinity false.
Proof.
  intros Fa Ra P. destruct lit100 as [F1 V1]. pose proof (xval_mul (b64_of_Z 100) a F1 Fa) as M. rewrite P, V1 in M. unfold fl in M. destruct (Rltb (Rabs (rnd (100 * B2R a))) lim) eqn:K; [easy|]. apply Rltb_f in K.
  assert (R8 : 128 * bpow radix2 951 = bpow radix2 958) by (change 958%Z with (7 + 951)%Z; rewrite bpow_plus; reflexivity). assert (0 <= rnd (100 * B2R a) <= bpow radix2 958).
  { split; [rewrite <- rnd_0; apply rnd_le; lra|]. rewrite <- (proj1 (rep_F 1 958 (bpow radix2 958) ltac:(ring) ltac:(easy) ltac:(lia))). apply rnd_le. lra. }
  rewrite Rabs_pos_eq in K by easy. assert (bpow radix2 958 < lim) by now apply bpow_lt. lra.
Qed.
Lemma fold_min_lb m K l : forall a, fin a -> (forall x, In x l -> fin x /\ K <= B2R x) -> K <= B2R a -> K <= B2R (fold_left (@fmin f64 (B64 m)) l a).
Proof.
  induction l as [|b l IH]; intros a Fa H Ha; cbn [fold_left]; [easy|]. destruct (H b ltac:(now left)) as [Fb Hb]. destruct (fmin_fin m a b Fa Fb) as [FM VM]. apply IH; [easy|intros; apply H; now right|]. eapply Rle_trans; [|apply Req_le; symmetry; exact VM]. now apply Rmin_glb.
Qed.
Lemma min_of_lb m K l : l <> [] -> (forall x, In x l -> fin x /\ K <= B2R x) -> K <= B2R (@min_of f64 (B64 m) l).
Proof.
  destruct l as [|a l]; [easy|]. intros _ H. unfold min_of. cbn [fold_left]. change (fmin fnan a) with a. apply fold_min_lb; [apply H; now left|intros; apply H; now right|apply H; now left].
Qed.
Theorem rsi_f64_bounded m (f : nat -> f64) n w : (0 < w <= n)%nat -> (Z.of_nat w <= 2 ^ 53)%Z -> (forall k, (k < n)%nat -> fin (f k) /\ Rabs (B2R (f k)) <= B950) ->
  exists o, @rsi f64 (B64 m) (series f n) w = Ok o /\ forall x, In x o -> inr 0 U100 x.
Proof.
  intros Hw Hb H. destruct (rsi_outcome (series f n) w) as [[Z _]|(_ & o & E & _)]; [exfalso; rewrite length_series in Z; lia|]. exists o. split; [exact E|]. intros x Hx.
  unfold rsi in E. destruct (wilder (map gain _) w) as [g|] eqn:G; cbn [bind] in E; [|easy]. destruct (wilder (map loss _) w) as [l|] eqn:L; cbn [bind] in E; [|easy]. injection E as <-.
  destruct Hx as [<- |Hx]; [exact I|]. apply in_map_iff in Hx as ((a & b) & <- & Hi). cbn [rsi_ratio].
  assert (Ga : nn a). { apply (wilder_f64_nonneg m _ w g G); [|eapply in_combine_l, Hi]. intros x Hx. apply in_map_iff in Hx as (p & <- & _). apply gain_nn. }
  assert (Gb : nn b). { apply (wilder_f64_nonneg m _ w l L); [|eapply in_combine_r, Hi]. intros x Hx. apply in_map_iff in Hx as (p & <- & _). apply loss_nn. }
  destruct (percent_of a (Bplus mode_NE a b)) as [P|[P _]]; [now apply lee_part_sum|exact P|].
  assert (Ra : inr 0 (bpow radix2 951) a).
  { apply (wilder_f64_within m 0 (bpow radix2 951) _ w g G Hb); [|intros x Hx|eapply in_combine_l, Hi].
    - intros k Hk. rewrite Rmult_0_l. split; [now apply (rep_Z 0)|apply rep_big; lia].
    - apply in_map_iff in Hx as ((u & v) & <- & Hp). pose proof (gain_nn m (u, v)) as N. rewrite pairs_series in Hp. apply in_map_iff in Hp as (k & [= <- <-] & Hk). apply in_seq in Hk. pose proof (inr_move m (f (k - 1)%nat) (f k) ltac:(apply H; lia) ltac:(apply H; lia) ltac:(apply H; lia) ltac:(apply H; lia)) as M.
      pose proof (bpow_ge_0 radix2 951). unfold gain, fmax in *. change (flit 0 1) with (B754_zero false : f64) in *. change (fisnan (B754_zero false)) with false in *. cbv iota in *. assert (inr 0 (bpow radix2 951) (B754_zero false)) by (unfold inr; cbn; lra). destruct (fisnan _); [easy|]. destruct (fltb _ _); [|easy]. apply inr_cases in M as [-> |[F M]]; [exact I|]. apply inr_fin; [easy|]. apply nn_fin in N; [|easy]. lra. }
  apply inr_cases in Ra as [-> |[Fa Ra]]; [now rewrite nan_mult_r in P|]. exfalso. now apply (mul100_fin a).
Qed.

(** ** cmo: always between -100 and 100, on any data *)
Lemma signed_part G L : nn G -> nn L -> inr (-1) 1 (Bdiv mode_NE (Bminus mode_NE G L) (Bplus mode_NE G L)).
Proof.
  intros HG HL. fsplit G; fsplit L; try (rewrite ?nan_minus_l, ?nan_minus_r, ?nan_div_l; exact I); repeat match goal with s : bool |- _ => destruct s; [easy|] end.
  2:{ replace (Bplus mode_NE G (B754_infinity false)) with (B754_infinity false : f64) by now destruct G. now replace (Bminus mode_NE G (B754_infinity false)) with (B754_infinity true : f64) by now destruct G. }
  2:{ replace (Bplus mode_NE (B754_infinity false) L) with (B754_infinity false : f64) by now destruct L. now replace (Bminus mode_NE (B754_infinity false) L) with (B754_infinity false : f64) by now destruct L. }
  2:{ exact I. }
  assert (PG := HG). assert (PL := HL). apply nn_fin in PG, PL; try easy. pose proof (xval_sub G L ltac:(easy) ltac:(easy)) as X. pose proof (xval_add G L ltac:(easy) ltac:(easy)) as Y.
  assert (FX : Rabs (rnd (B2R G - B2R L)) < lim).
  { destruct (Rle_lt_dec (B2R L) (B2R G)).
    - apply Rle_lt_trans with (B2R G); [|apply Rle_lt_trans with (1 := Rle_abs _); apply abs_B2R_lt_emax]. rewrite Rabs_pos_eq by (rewrite <- rnd_0; apply rnd_le; lra). rewrite <- (rnd_B2R G). apply rnd_le. rewrite rnd_B2R. lra.
    - replace (B2R G - B2R L) with (- (B2R L - B2R G)) by ring. rewrite rnd_opp, Rabs_Ropp. apply Rle_lt_trans with (B2R L); [|apply Rle_lt_trans with (1 := Rle_abs _); apply abs_B2R_lt_emax]. rewrite Rabs_pos_eq by (rewrite <- rnd_0; apply rnd_le; lra). rewrite <- (rnd_B2R L). apply rnd_le. rewrite rnd_B2R. lra. }
  rewrite fl_fin in X by easy. apply xval_fin_inv in X as [Fp Vp]. set (p := Bminus mode_NE G L) in *. set (q := Bplus mode_NE G L) in *. clearbody p q.
  assert (B1 : rnd (B2R G - B2R L) <= rnd (B2R G + B2R L)) by (apply rnd_le; lra). assert (B2 : - rnd (B2R G + B2R L) <= rnd (B2R G - B2R L)) by (rewrite <- rnd_opp; apply rnd_le; lra).
  fsplit q.
  - unfold fl in Y. rewrite xval_fin in Y by easy. destruct (Rltb _ _); [|easy]. injection Y as Y. rewrite <- Y in *. rewrite <- Vp in *. destruct (Req_dec (B2R q) 0) as [Z|Z].
    + assert (ZP : B2R p = 0) by lra. destruct q as [t|t| |t v e B]; try easy; [|exfalso; revert Z; cbn -[F2R]; intros Z; apply eq_0_F2R in Z; now destruct t]. destruct p as [s|s| |s v e B]; try easy. exfalso; revert ZP; cbn -[F2R]; intros ZP; apply eq_0_F2R in ZP; now destruct s.
    + assert (0 < B2R q) by lra. apply (inr_of _ _ _ _ (xval_div p q Fp ltac:(easy) Z)); [now apply (rep_Z (-1))|now apply (rep_Z 1)|]. split; apply (Rmult_le_reg_r (B2R q)); try easy; unfold Rdiv; rewrite Rmult_assoc, Rinv_l by easy; lra.
  - destruct p; try easy; destruct s; unfold inr; cbn; lra.
  - now rewrite nan_div_r.
Qed.
(** Running totals: not NaN, not negative, never decreasing. *)
Definition up_to (x y : f64) : Prop := xleb (Fin 0) (xval x) = true /\ xleb (xval x) (xval y) = true.
Lemma xleb_trans a b c : xleb a b = true -> xleb b c = true -> xleb a c = true.
Proof. destruct a as [a|[]|], b as [b|[]|], c as [c|[]|]; cbn; try easy. rewrite !Rleb_t. lra. Qed.
Lemma up_to_trans x y z : up_to x y -> up_to y z -> up_to x z.
Proof. intros [A B] [_ C]. split; [easy|]. eapply xleb_trans; eauto. Qed.
Lemma up_to_add x y : xleb (Fin 0) (xval x) = true -> nn y -> is_nan y = false -> up_to x (Bplus mode_NE x y).
Proof.
  intros A N Ny. split; [easy|]. pose proof (add_not_less x y N) as L. rewrite ltb_xval in L.
  assert (xval (Bplus mode_NE x y) <> NaN).
  { fsplit x; [|destruct s; [easy|]|easy]; fsplit y; try easy.
    - rewrite xval_add by easy. apply fl_not_nan.
    - now destruct x.
    - now destruct y.
    - now destruct s. }
  destruct (xval x) as [u|[]|], (xval (Bplus mode_NE x y)) as [v|[]|]; try easy. cbn in *. rewrite Rleb_t. now apply Rltb_f.
Qed.
Lemma up_to_sub x y : up_to x y -> nn (Bminus mode_NE y x).
Proof.
  intros [A B]. apply nn_sub. rewrite ltb_xval. destruct (xval x) as [u|[]|], (xval y) as [v|[]|]; try easy. cbn in *. apply Rltb_f. now apply Rleb_t.
Qed.
Definition cum_le (p q : f64 * f64) : Prop := up_to (fst p) (fst q) /\ up_to (snd p) (snd q).
Lemma fmax0_nn m d : nn (@fmax f64 (B64 m) (flit 0 1) d) /\ is_nan (@fmax f64 (B64 m) (flit 0 1) d) = false.
Proof.
  unfold fmax. change (flit 0 1) with (B754_zero false : f64). change (fisnan (B754_zero false)) with false. cbv iota. change (fisnan d) with (is_nan d). destruct (is_nan d) eqn:N; [easy|]. change (fltb (B754_zero false) d) with (Bltb (B754_zero false) d). destruct (Bltb (B754_zero false) d) eqn:E; [split; [now apply pos_nn|easy]|easy].
Qed.
Lemma scan_sorted {A S} (R : S -> S -> Prop) (f : S -> A -> S * S) l : (forall x y z, R x y -> R y z -> R x z) -> (forall s a, fst (f s a) = snd (f s a)) -> forall s, R s s -> (forall s a, R s s -> R s (snd (f s a)) /\ R (snd (f s a)) (snd (f s a))) -> StronglySorted R (s :: scan f s l).
Proof.
  intros T E s Rs Step. revert s Rs. induction l as [|a l IH]; intros s Rs; cbn [scan]; [repeat constructor|]. pose proof (E s a) as Ea. destruct (Step s a Rs) as [S1 S2]. destruct (f s a) as [s' b]. cbn [fst snd] in *. subst s'. specialize (IH b S2). constructor; [exact IH|]. constructor; [easy|]. apply StronglySorted_inv in IH as [_ IH]. eapply Forall_impl; [|exact IH]. intros y Hy. now apply (T s b y).
Qed.
Lemma sorted_nth {A} (R : A -> A -> Prop) l d : StronglySorted R l -> (forall x, In x l -> R x x) -> forall i j, (i <= j < length l)%nat -> R (nth i l d) (nth j l d).
Proof.
  induction 1 as [|a l S IH F]; intros Rf i j Hij; [cbn in Hij; lia|]. destruct i, j; cbn [nth length] in *; [apply Rf; now left| |lia|apply IH; [intros; apply Rf; now right|lia]]. rewrite Forall_forall in F. apply F, nth_In. lia.
Qed.
Theorem cmo_f64_range m data w : exists o, @cmo f64 (B64 m) data w = Ok o /\ forall x, In x o -> inr (-100) 100 x.
Proof.
  unfold cmo. eexists. split; [reflexivity|]. intros x Hx. apply in_app_iff in Hx as [Hx|Hx]; [apply in_pad in Hx; now subst|]. apply in_map_iff in Hx as (y & <- & Hy).
  apply (inr_weaken (-1 * 100) (1 * 100)); [|lra|lra]. cbn [fmul B64]. change (flit 100 1) with (b64_of_Z 100). apply inr_scale; [|now apply xval_of_Z|lra|replace (-1 * 100) with (-100) by lra; now apply (rep_Z (-100))|replace (1 * 100) with 100 by lra; now apply (rep_Z 100)].
  unfold cmo_raw in Hy. apply in_map_iff in Hy as (v & <- & Hv). apply in_map_iff in Hv as (j & <- & Hj). apply in_seq in Hj. set (cum := cmo_cum data) in *.
  assert (C0 : cum_le (B754_zero false, B754_zero false) (B754_zero false, B754_zero false)) by (unfold cum_le, up_to; cbn; split; split; apply Rleb_t; lra).
  assert (Step : forall (s : f64 * f64) (a : list f64), cum_le s s -> forall g' l', g' = Bplus mode_NE (fst s) (@fmax f64 (B64 m) (flit 0 1) (fsub (at_ a 1) (at_ a 0))) -> l' = Bplus mode_NE (snd s) (@fmax f64 (B64 m) (flit 0 1) (fsub (at_ a 0) (at_ a 1))) -> cum_le s (g', l') /\ cum_le (g', l') (g', l')).
  { intros [g l] a [[A _] [B _]] g' l' -> ->. cbn [fst snd] in *. unfold cum_le. cbn [fst snd].
    destruct (fmax0_nn m (@fsub f64 (B64 m) (at_ a 1) (at_ a 0))) as [N1 Z1]. destruct (fmax0_nn m (@fsub f64 (B64 m) (at_ a 0) (at_ a 1))) as [N2 Z2].
    pose proof (up_to_add g _ A N1 Z1) as P1. pose proof (up_to_add l _ B N2 Z2) as P2. set (u := Bplus mode_NE g _) in *. set (v := Bplus mode_NE l _) in *. clearbody u v.
    assert (Rf : forall a b, up_to a b -> up_to b b). { intros x z [Q1 Q2]. pose proof (xleb_trans _ _ _ Q1 Q2) as Q. split; [exact Q|]. destruct (xval z) as [|[]|]; try easy. cbn. apply Rleb_t. lra. }
    split; split; eauto. }
  assert (S : StronglySorted cum_le cum /\ forall x, In x cum -> cum_le x x).
  { unfold cum, cmo_cum. split.
    - apply scan_sorted; [| |exact C0|].
      + intros a b c [A B] [C D]. split; eapply up_to_trans; eauto.
      + now intros [g l] a.
      + intros [g l] a R. now apply (Step (g, l) a R).
    - intros x [<- |Hx]; [exact C0|]. revert x Hx. apply (in_scan _ (fun s => cum_le s s)); [exact C0|]. intros [g l] a _ R. split; now apply (Step (g, l) a R). }
  destruct S as [S Rf]. set (d := (@fnan f64 (B64 m), @fnan f64 (B64 m))).
  assert (LV : length (firstn (w + 1) (skipn j cum)) = (w + 1)%nat) by (rewrite firstn_length, skipn_length; lia).
  assert (NV : forall i, (i <= w)%nat -> nth i (firstn (w + 1) (skipn j cum)) d = nth (j + i) cum d). { intros i Hi. apply nth_error_nth. rewrite nth_error_firstn, nth_error_skipn by lia. apply nth_error_nth'. lia. }
  unfold cmo_win. fold d. rewrite LV. replace (w + 1 - 1)%nat with w by lia. rewrite (NV w), (NV 0%nat) by lia. pose proof (sorted_nth cum_le cum d S Rf (j + 0) (j + w) ltac:(lia)) as [Q1 Q2].
  apply signed_part; now apply up_to_sub.
Qed.

(** ** ultimate *)
Lemma lee_fold m (f g : nat -> f64) l : (forall k, In k l -> lee (f k) (g k)) -> forall a b, lee a b -> lee (fold_left (@fadd f64 (B64 m)) (map f l) a) (fold_left (@fadd f64 (B64 m)) (map g l) b).
Proof. induction l as [|k l IH]; intros H a b Hab; cbn [map fold_left]; [easy|]. apply IH; [intros; apply H; now right|]. apply lee_add; [easy|]. apply H. now left. Qed.
Lemma lee_part x y : lee x y -> inr 0 1 (Bdiv mode_NE x y).
Proof. intros (A & _ & C). now apply inr_part. Qed.
Lemma ultimate_mix m (q q0 q1 : f64) : inr 0 1 q -> inr 0 1 q0 -> inr 0 1 q1 ->
  inr 0 100 (@fdiv f64 (B64 m) (fmul (flit 100 1) (fadd (fadd (fmul q (flit 4 1)) (fmul q0 (flit 2 1))) q1)) (fadd (fadd (flit 4 1) (flit 2 1)) (flit 1 1))).
Proof.
  intros T1 T2 T3. replace (@fadd f64 (B64 m) (fadd (flit 4 1) (flit 2 1)) (flit 1 1)) with (b64_of_Z 7) by (apply B2SF_inj; vm_compute; reflexivity). change (flit 4 1) with (b64_of_Z 4). change (flit 2 1) with (b64_of_Z 2). change (flit 100 1) with (b64_of_Z 100). cbn [fdiv fmul fadd B64].
  assert (P1 : inr 0 4 (Bmult mode_NE q (b64_of_Z 4))) by (apply (inr_weaken (0 * 4) (1 * 4)); [apply inr_scale; [easy|now apply xval_of_Z|lra|rewrite Rmult_0_l; now apply (rep_Z 0)|rewrite Rmult_1_l; now apply (rep_Z 4)]|lra|lra]).
  assert (P2 : inr 0 2 (Bmult mode_NE q0 (b64_of_Z 2))) by (apply (inr_weaken (0 * 2) (1 * 2)); [apply inr_scale; [easy|now apply xval_of_Z|lra|rewrite Rmult_0_l; now apply (rep_Z 0)|rewrite Rmult_1_l; now apply (rep_Z 2)]|lra|lra]).
  assert (R0 : rep 0) by now apply (rep_Z 0).
  pose proof (inr_add _ _ _ _ _ _ P1 P2 ltac:(now rewrite Rplus_0_l) ltac:(rewrite <- plus_IZR; now apply rep_Z)) as P3. pose proof (inr_add _ _ _ _ _ _ P3 T3 ltac:(now rewrite !Rplus_0_l) ltac:(rewrite <- !plus_IZR; now apply rep_Z)) as P4.
  apply (inr_weaken (100 * (0 + 0 + 0) / 7) (100 * (4 + 2 + 1) / 7)); [|lra|lra].
  apply inr_quot; [|now apply (xval_of_Z 7)|lra|replace (100 * (0 + 0 + 0) / 7) with 0 by lra; easy|replace (100 * (4 + 2 + 1) / 7) with 100 by lra; now apply (rep_Z 100)].
  apply inr_scale_l; [exact P4|now apply xval_of_Z|lra|replace (100 * (0 + 0 + 0)) with 0 by lra; easy|replace (100 * (4 + 2 + 1)) with 700 by lra; now apply (rep_Z 700)].
Qed.
Theorem ultimate_f64_range m (h l c : nat -> f64) n w1 w2 w3 : (0 < w3)%nat -> (0 < n)%nat -> (w1 <= w3)%nat -> (w2 <= w3)%nat -> fbars h l c n ->
  exists o, @ultimate f64 (B64 m) (series h n) (series l n) (series c n) w1 w2 w3 = Ok o /\ forall x, In x o -> inr 0 100 x.
Proof.
  intros Hw Hn H1 H2 H. destruct (ultimate_values h l c n w1 w2 w3 Hw Hn H1 H2) as (o & E & A). exists o. split; [exact E|]. intros x Hx. apply (aligned_in _ _ _ _ _ _ A) in Hx as [-> |(i & Hi & ->)]; [exact I|]. cbv zeta.
  set (bp := fun k => fsub (c k) (fmin (l k) (c (k - 1)%nat))). set (tr := fun k => fsub (fmax (h k) (c (k - 1)%nat)) (fmin (l k) (c (k - 1)%nat))).
  assert (T : forall w, (w <= w3)%nat -> inr 0 1 (Bdiv mode_NE (fold_left fadd (last_bars w bp i) (flit 0 1)) (fold_left fadd (last_bars w tr i) (flit 0 1)))).
  { intros w Hww. apply lee_part. apply (lee_fold m bp tr); [|apply lee_zero]. intros k Hk. apply in_seq in Hk. destruct (H k ltac:(lia)) as (Fh & Fl & Fc & B). destruct (H (k - 1)%nat ltac:(lia)) as (_ & _ & Fp & _).
    destruct (fmin_fin m (l k) (c (k - 1)%nat) Fl Fp) as [Fm Vm]. destruct (fmax_fin m (h k) (c (k - 1)%nat) Fh Fp) as [FM VM]. pose proof (Rmin_l (B2R (l k)) (B2R (c (k - 1)%nat))). pose proof (Rmax_l (B2R (h k)) (B2R (c (k - 1)%nat))).
    unfold bp, tr. cbn [fsub B64]. apply sub_part_low; try easy. rewrite VM, Vm. lra. }
  pose proof (T w1 H1) as T1. pose proof (T w2 H2) as T2. pose proof (T w3 ltac:(lia)) as T3. clear T.
  now apply (ultimate_mix m).
Qed.

(** ** stochastic *)
Lemma inr_mean3 m (u u3 v : R) l : rep (u + u) -> rep u3 -> rep v -> rep u -> u + u + u <= u3 -> u3 <= v * 3 -> length l = 3%nat -> (forall x, In x l -> inr 0 u x) -> inr 0 v (@fdiv f64 (B64 m) (fsum l) (fofnat 3)).
Proof.
  intros R2 R3 RV R1 H3 HV L H. destruct l as [|a [|b [|c [|]]]]; try easy. unfold fsum. cbn [fold_left]. cbn [fdiv fadd B64].
  assert (R0 : rep 0) by now apply (rep_Z 0). assert (Z0 : inr 0 0 (@fsum0 f64 (B64 m))) by (unfold inr; cbn; destruct (lm_negsum0 m); cbn; lra).
  pose proof (inr_add _ _ _ _ _ _ Z0 (H a ltac:(now left)) ltac:(now rewrite Rplus_0_l) ltac:(now rewrite Rplus_0_l)) as P1. rewrite !Rplus_0_l in P1.
  pose proof (inr_add _ _ _ _ _ _ P1 (H b ltac:(right; now left)) ltac:(now rewrite Rplus_0_l) R2) as P2. rewrite !Rplus_0_l in P2. apply inr_cases in P2 as [-> |[F2 P2]]; [rewrite nan_plus_l, nan_div_l; exact I|].
  specialize (H c ltac:(right; right; now left)). apply inr_cases in H as [-> |[F3 P3]]; [rewrite nan_plus_r, nan_div_l; exact I|]. set (s := Bplus mode_NE (Bplus mode_NE _ a) b) in *. clearbody s.
  assert (P4 : inr 0 u3 (Bplus mode_NE s c)) by (apply (inr_of _ _ _ _ (xval_add s c F2 F3)); try easy; lra). apply inr_cases in P4 as [-> |[F4 P4]]; [now rewrite nan_div_l|].
  assert (XT : xval (@fofnat f64 (B64 m) 3) = Fin (INR 3)) by now apply (xval_nat m). apply xval_fin_inv in XT as [FT VT]. replace (INR 3) with 3 in VT by (cbn; lra). apply (inr_of _ _ _ _ (xval_div _ _ F4 FT ltac:(lra))); try easy. rewrite VT. lra.
Qed.
Lemma rep_eps z e : (0 <= z < 512)%Z -> (-46 <= e <= -40)%Z -> (Z.log2 z + - e <= 52)%Z -> rep (IZR z + bpow radix2 e).
Proof.
  intros Hz He Hl. apply (rep_F (z * 2 ^ (- e) + 1) e); [|rewrite Z.abs_eq by nia|lia].
  - rewrite plus_IZR, mult_IZR. change (2 ^ - e)%Z with (radix2 ^ - e)%Z. rewrite IZR_Zpower by lia. rewrite Rmult_plus_distr_r, Rmult_assoc, <- bpow_plus. replace (- e + e)%Z with 0%Z by ring. change (bpow radix2 0) with 1. ring.
  - destruct (Z.eq_dec z 0) as [-> |N]; [lia|]. pose proof (Z.log2_spec z ltac:(lia)) as [_ L]. assert (z + 1 <= 2 ^ Z.succ (Z.log2 z))%Z by lia. assert (Hp : (2 ^ Z.succ (Z.log2 z) * 2 ^ (- e) <= 2 ^ 53)%Z). { pose proof (Z.log2_nonneg z). rewrite <- Z.pow_add_r by lia. apply Z.pow_le_mono_r; lia. }
    assert (1 < 2 ^ (- e))%Z by (apply Z.pow_gt_1; lia). nia.
Qed.
Lemma sma3_within m data o (u u3 v : R) : @sma f64 (B64 m) data 3 = Ok o -> rep (u + u) -> rep u3 -> rep v -> rep u -> u + u + u <= u3 -> u3 <= v * 3 -> (forall x, In x data -> inr 0 u x) -> forall x, In x o -> inr 0 v x.
Proof.
  intros E R2 R3 RV R1 H3 HV H x Hx. unfold sma in E. cbn [usub Nat.leb bind] in E. unfold rwindows in E. cbn [Nat.eqb bind] in E. injection E as <-. destruct Hx as [<- |[<- |Hx]]; [exact I|exact I|]. apply in_map_iff in Hx as (l & <- & Hl). apply in_map_iff in Hl as (j & <- & Hj). apply in_seq in Hj.
  apply (inr_mean3 m u u3 v); try easy; [rewrite firstn_length, skipn_length; lia|]. intros x Hx. apply H. eapply skipn_in, firstn_in, Hx.
Qed.
Definition U100_2 : R := 100 + bpow radix2 (-45).
Definition U100_4 : R := 100 + bpow radix2 (-44).
Theorem stochastic_f64_range m (h l c : nat -> f64) n w : (0 < w)%nat -> (w + 1 <= n)%nat -> fbars h l c n -> (forall k, (k < n)%nat -> Rabs (B2R (h k)) <= B950 /\ Rabs (B2R (l k)) <= B950) ->
  exists o, @stochastic f64 (B64 m) (series h n) (series l n) (series c n) w = Ok o /\ forall x, In x o -> inr 0 U100_2 (fst x) /\ inr 0 U100_4 (snd x).
Proof.
  intros Hw Hn H Hb. destruct (stochastic_outcome (series h n) (series l n) (series c n) w) as [[Z _]|(_ & o & E & _)]; [exfalso; rewrite ?length_series in Z; lia|].
  exists o. split; [exact E|]. intros x Hx. unfold stochastic, stoch in E. rewrite hlc_windows_bars in E by lia. cbn [bind] in E. rewrite map_map in E.
  destruct (sma _ 3) as [fk|] eqn:S1; cbn [bind] in E; [|easy]. cbn [usub Nat.leb bind] in E. destruct (slice_from fk _) as [t|] eqn:ST; cbn [bind] in E; [|easy]. destruct (sma t 3) as [k|] eqn:S2; cbn [bind] in E; [|easy]. unfold usub in E. rewrite (proj2 (Nat.leb_le 1 w)) in E by lia. cbn [bind] in E. injection E as <-.
  assert (E45 : bpow radix2 (-45) = 2 * bpow radix2 (-46)) by (change (-45)%Z with (1 + -46)%Z; rewrite bpow_plus; reflexivity). assert (E44 : bpow radix2 (-44) = 4 * bpow radix2 (-46)) by (change (-44)%Z with (2 + -46)%Z; rewrite bpow_plus; reflexivity). assert (E43 : bpow radix2 (-43) = 8 * bpow radix2 (-46)) by (change (-43)%Z with (3 + -46)%Z; rewrite bpow_plus; reflexivity). pose proof (bpow_gt_0 radix2 (-46)).
  assert (K1 : forall x, In x fk -> inr 0 U100_2 x).
  { apply (sma3_within m _ fk U100 (300 + bpow radix2 (-44)) U100_2 S1); unfold U100, U100_2; try (apply (rep_eps 100); [lia|lia|reflexivity || (vm_compute; discriminate)]); try lra.
    - replace (100 + bpow radix2 (-46) + (100 + bpow radix2 (-46))) with (200 + bpow radix2 (-45)) by lra. apply (rep_eps 200); [lia|lia|vm_compute; discriminate].
    - apply (rep_eps 300); [lia|lia|vm_compute; discriminate].
    - intros y Hy. apply in_map_iff in Hy as (i & <- & Hi). apply in_seq in Hi. cbn [stoch_win fdiv fmul fsub B64]. change (flit 100 1) with (b64_of_Z 100).
      destruct (max_of_fin m (last_bars w h i)) as [FH UH]; [now apply last_bars_ne| |]. { intros z Hz. apply in_last_bars in Hz as (j & -> & Hj). apply (H j). lia. }
      destruct (min_of_fin m (last_bars w l i)) as [FL UL]; [now apply last_bars_ne| |]. { intros z Hz. apply in_last_bars in Hz as (j & -> & Hj). apply (H j). lia. }
      destruct (H i ltac:(lia)) as (_ & _ & FC & B). specialize (UH (h i) ltac:(now apply last_bars_at; lia)). specialize (UL (l i) ltac:(now apply last_bars_at; lia)).
      destruct (percent_of (Bminus mode_NE (c i) (min_of (last_bars w l i))) (Bminus mode_NE (max_of (last_bars w h i)) (min_of (last_bars w l i)))) as [P|[P _]]; [apply sub_part_low; try easy; lra|exact P|].
      exfalso. pose proof (min_of_lb m (- B950) (last_bars w l i) ltac:(now apply last_bars_ne)) as LB.
      assert (LB' : - B950 <= B2R (min_of (last_bars w l i))). { apply LB. intros z Hz. apply in_last_bars in Hz as (j & -> & Hj). split; [apply (H j); lia|]. destruct (Hb j ltac:(lia)) as [_ Hl]. apply Rabs_le_inv in Hl. lra. }
      clear LB. set (ll := min_of (last_bars w l i)) in *. clearbody ll. destruct (Hb i ltac:(lia)) as [Hh Hl]. apply Rabs_le_inv in Hh, Hl.
      assert (M : inr 0 (bpow radix2 951) (Bminus mode_NE (c i) ll)). { apply (inr_of _ _ _ _ (xval_sub (c i) ll FC FL)); [now apply (rep_Z 0)|apply (rep_F 1 951); [ring|easy|lia]|]. assert (bpow radix2 951 = 2 * B950) by (change 951%Z with (1 + 950)%Z; rewrite bpow_plus; reflexivity). lra. }
      apply inr_cases in M as [M|[FM M]]; [now rewrite M, nan_mult_r in P|]. now apply (mul100_fin _ FM M). }
  assert (K2 : forall x, In x k -> inr 0 U100_4 x).
  { apply (sma3_within m _ k U100_2 (300 + bpow radix2 (-43)) U100_4 S2); unfold U100_4, U100_2; try (apply (rep_eps 100); [lia|lia|reflexivity || (vm_compute; discriminate)]); try lra.
    - replace (100 + bpow radix2 (-45) + (100 + bpow radix2 (-45))) with (200 + bpow radix2 (-44)) by lra. apply (rep_eps 200); [lia|lia|vm_compute; discriminate].
    - apply (rep_eps 300); [lia|lia|vm_compute; discriminate].
    - intros y Hy. apply K1. unfold slice_from in ST. destruct (_ <=? _)%nat; [|easy]. injection ST as <-. now apply (skipn_in 2). }
  destruct x as [a b]. cbn [fst snd]. split.
  - apply in_combine_l in Hx. apply in_app_iff in Hx as [Hx|Hx]; [apply in_pad in Hx; now subst|now apply K1].
  - apply in_combine_r in Hx. apply in_app_iff in Hx as [Hx|Hx]; [apply in_pad in Hx; now subst|now apply K2].
Qed.

(** ** adx (C53) *)
Lemma in_combine_scan {A S T B C} (f : S -> A -> S * B) (g : T -> A -> T * C) (P : S -> T -> Prop) (Q : B -> C -> Prop) l : forall s t, P s t ->
  (forall s t a, In a l -> P s t -> P (fst (f s a)) (fst (g t a)) /\ Q (snd (f s a)) (snd (g t a))) -> forall x, In x (combine (scan f s l) (scan g t l)) -> Q (fst x) (snd x).
Proof.
  induction l as [|a l IH]; intros s t Ps H x Hx; cbn [scan] in Hx; [easy|]. destruct (H s t a (or_introl eq_refl) Ps) as [H1 H2]. destruct (f s a) as [s' b]. destruct (g t a) as [t' c]. cbn [fst snd combine] in *. destruct Hx as [<- |Hx]; [easy|]. apply (IH s' t' H1); [|easy]. intros; apply H; [now right|easy].
Qed.
Lemma scan_map {A B S C} (h : A -> B) (f : S -> B -> S * C) l : forall s, scan f s (map h l) = scan (fun s a => f s (h a)) s l.
Proof. induction l as [|a l IH]; intros s; cbn [map scan]; [easy|]. destruct (f s (h a)). now rewrite IH. Qed.
Lemma lee_nan : lee B754_nan B754_nan. Proof. easy. Qed.
Lemma combine_map2 {A B C} (f : A -> B) (g : A -> C) l x : In x (combine (map f l) (map g l)) -> exists a, In a l /\ x = (f a, g a).
Proof. induction l as [|a l IH]; cbn; [easy|]. intros [<- |H]; [exists a; tauto|]. destruct (IH H) as (b & Hb & ->). exists b. tauto. Qed.
Lemma combine_app2 {A B} (a a' : list A) (b b' : list B) : length a = length b -> combine (a ++ a') (b ++ b') = combine a b ++ combine a' b'.
Proof. revert b. induction a as [|x a IH]; intros [|y b] L; try easy. cbn. f_equal. apply IH. now injection L. Qed.
Lemma lee_fold_gen m {A} (f g : A -> f64) l : (forall k, In k l -> lee (f k) (g k)) -> forall a b, lee a b -> lee (fold_left (@fadd f64 (B64 m)) (map f l) a) (fold_left (@fadd f64 (B64 m)) (map g l) b).
Proof. induction l as [|k l IH]; intros H a b Hab; cbn [map fold_left]; [easy|]. apply IH; [intros; apply H; now right|]. apply lee_add; [easy|]. apply H. now left. Qed.
(** Wilder averages of ordered series are ordered. *)
Theorem wilder_f64_ordered m {A} (f g : A -> f64) l w p q : (Z.of_nat w <= 2 ^ 53)%Z -> @wilder f64 (B64 m) (map f l) w = Ok p -> @wilder f64 (B64 m) (map g l) w = Ok q -> (forall a, In a l -> lee (f a) (g a)) ->
  forall x, In x (combine p q) -> lee (fst x) (snd x).
Proof.
  intros Hw EP EQ H x Hx. unfold wilder in EP, EQ. destruct (Nat.eqb_spec w 1) as [-> |N].
  { injection EP as <-. injection EQ as <-. apply combine_map2 in Hx as (a & Ha & ->). now apply H. }
  unfold usub in EP, EQ. destruct (Nat.leb_spec 1 w); cbn [bind] in *; [|easy]. unfold slice_to, slice_from in *. rewrite map_length in *. destruct (w - 1 <=? length l)%nat; cbn [bind] in *; [|easy]. injection EP as <-. injection EQ as <-.
  rewrite combine_app2 in Hx by easy. apply in_app_iff in Hx as [Hx|Hx]; [destruct x as [u v]; pose proof (in_combine_l _ _ _ _ Hx) as X1; pose proof (in_combine_r _ _ _ _ Hx) as X2; apply in_pad in X1, X2; subst; apply lee_nan|].
  rewrite !skipn_map, !scan_map in Hx. revert x Hx. assert (KW : forall k, (0 < k <= w)%nat -> xval (@fofnat f64 (B64 m) k) = Fin (INR k) /\ 0 < INR k) by (intros k Hk; split; [apply (xval_nat m); lia|apply lt_0_INR; lia]).
  apply (in_combine_scan _ _ lee lee).
  - destruct (KW (w - 1)%nat ltac:(lia)) as [K1 K2]. cbn [fdiv B64]. apply (lee_div _ _ _ _) with (2 := K1) (3 := K2). unfold fsum. rewrite !firstn_map. apply (lee_fold_gen m); [|cbn; destruct (lm_negsum0 m); apply lee_zero]. intros a Ha. apply H. eapply firstn_in, Ha.
  - intros s t a Ha L. cbn [wilder_step fst snd]. destruct (KW w ltac:(lia)) as [K1 K2]. destruct (KW (w - 1)%nat ltac:(lia)) as [K3 K4]. match goal with |- lee ?u ?v /\ _ => assert (lee u v); [|easy] end. cbn [fdiv fadd fmul B64]. apply (lee_div _ _ _ _) with (2 := K1) (3 := K2). apply lee_add; [now apply (lee_mul _ _ _ _) with (2 := K3) (3 := K4)|]. apply H. eapply skipn_in, Ha.
Qed.
Lemma xabs_fl r : xabs (fl r) = fl (Rabs r).
Proof.
  unfold fl. destruct (Rle_lt_dec 0 r) as [N|N].
  - rewrite (Rabs_pos_eq r) by easy. assert (0 <= rnd r) by (rewrite <- rnd_0; now apply rnd_le). destruct (Rltb (Rabs (rnd r)) lim); cbn [xabs]; [now rewrite Rabs_pos_eq|]. f_equal. symmetry. now apply Rltb_f.
  - rewrite (Rabs_left r) by easy. rewrite rnd_opp, Rabs_Ropp. assert (rnd r <= 0) by (rewrite <- rnd_0; apply rnd_le; lra). destruct (Rltb (Rabs (rnd r)) lim); cbn [xabs]; [now rewrite Rabs_left1|]. f_equal. symmetry. apply Rltb_f. lra.
Qed.
Lemma max_not_less_r m a b : is_nan a = false -> is_nan b = false -> Bltb (@fmax f64 (B64 m) a b) b = false /\ is_nan (@fmax f64 (B64 m) a b) = false.
Proof.
  intros Na Nb. change (@fmax f64 (B64 m) a b) with (if is_nan a then b else if is_nan b then a else if Bltb a b then b else a). rewrite Na, Nb. destruct (Bltb a b) eqn:E; [split; [apply ltb_irrefl|easy]|easy].
Qed.
Lemma nnan_of (x : f64) r : xval x = fl r -> is_nan x = false.
Proof. intros X. rewrite isnan_xval, X. pose proof (fl_not_nan r). now destruct (fl r). Qed.
Lemma sub_nnan a b : fin a -> fin b -> is_nan (Bminus mode_NE a b) = false.
Proof. intros Fa Fb. rewrite isnan_xval, xval_sub by easy. pose proof (fl_not_nan (B2R a - B2R b)). now destruct (fl _). Qed.
Lemma max0_below m x r A : xval x = fl r -> nn A -> (0 < r -> Bltb A x = false) -> lee (@fmax f64 (B64 m) (B754_zero false) x) A.
Proof.
  intros X NA H. change (@fmax f64 (B64 m) (B754_zero false) x) with (if is_nan x then B754_zero false else if Bltb (B754_zero false) x then x else B754_zero false).
  destruct (is_nan x); [split; [easy|split; easy]|]. destruct (Bltb (B754_zero false) x) eqn:E; [|split; [easy|split; easy]]. split; [now apply pos_nn|split; [easy|]]. apply H. destruct (Rlt_le_dec 0 r); [easy|]. exfalso. enough (Bltb (B754_zero false) x = false) by congruence. apply (ltb_of _ _ 0 r); [cbn; symmetry; apply (fl_Z 0); easy|easy|easy].
Qed.
Lemma dm_le_tr m (ph h pl l pc : f64) : fin ph -> fin h -> fin pl -> fin l -> fin pc -> B2R l <= B2R h -> B2R pl <= B2R pc <= B2R ph ->
  lee (@dm_pos f64 (B64 m) (ph, h, pl, l, pc)) (@bar_tr f64 (B64 m) (ph, h, pl, l, pc)) /\ lee (@dm_neg f64 (B64 m) (ph, h, pl, l, pc)) (@bar_tr f64 (B64 m) (ph, h, pl, l, pc)).
Proof.
  intros Fph Fh Fpl Fl Fpc Hb Hp. unfold dm_pos, dm_neg, bar_tr, tr_bar. cbn [fsub B64]. change (flit 0 1) with (B754_zero false : f64). unfold fabs. cbn [B64].
  pose proof (xval_sub h ph Fh Fph) as X1. pose proof (xval_sub pl l Fpl Fl) as X2. pose proof (xval_abs (Bminus mode_NE h pc)) as XA. rewrite xval_sub, xabs_fl in XA by easy. pose proof (xval_abs (Bminus mode_NE l pc)) as XB. rewrite xval_sub, xabs_fl in XB by easy.
  assert (NA : is_nan (Babs (Bminus mode_NE h pc)) = false) by now apply (nnan_of _ _ XA). assert (NB : is_nan (Babs (Bminus mode_NE l pc)) = false) by now apply (nnan_of _ _ XB).
  pose proof (nn_abs (Bminus mode_NE h pc)) as PA. pose proof (nn_abs (Bminus mode_NE l pc)) as PB. pose proof (sub_nnan h l Fh Fl) as NR. assert (PR : nn (Bminus mode_NE h l)) by (apply (nn_of _ _ (xval_sub h l Fh Fl)); lra).
  set (d1 := Bminus mode_NE h ph) in *. set (d2 := Bminus mode_NE pl l) in *. set (A := Babs (Bminus mode_NE h pc)) in *. set (B := Babs (Bminus mode_NE l pc)) in *. set (R := Bminus mode_NE h l) in *. clearbody d1 d2 A B R.
  destruct (max_not_less_r m R A NR NA) as [M1 N1]. destruct (max_not_less_r m (fmax R A) B N1 NB) as [M2 N2]. assert (NT : nn (@fmax f64 (B64 m) (fmax R A) B)) by (apply nn_max; [now apply nn_max|easy]).
  assert (TA : Bltb (@fmax f64 (B64 m) (fmax R A) B) A = false) by (eapply not_less_trans; [exact N1|apply max_not_less_l|exact M1]).
  assert (Z : forall b : bool, forall x, lee x (@fmax f64 (B64 m) (fmax R A) B) -> lee (if b then x else B754_zero false) (@fmax f64 (B64 m) (fmax R A) B)) by (intros [] x Hx; [exact Hx|split; [easy|split; [easy|exact NT]]]).
  split; apply Z; (eapply max0_below; [eassumption|exact NT|intros P]).
  - eapply not_less_trans; [exact NA|exact TA|]. apply (ltb_of _ _ _ _ XA X1). rewrite Rabs_pos_eq; lra.
  - eapply not_less_trans; [exact NB|exact M2|]. apply (ltb_of _ _ _ _ XB X2). rewrite Rabs_left1; lra.
Qed.
(** The distance of two non-negative floats is at most their sum. *)
Lemma abs_part G L : nn G -> nn L -> inr 0 1 (Bdiv mode_NE (Babs (Bminus mode_NE G L)) (Bplus mode_NE G L)).
Proof.
  intros HG HL. apply inr_part; [apply nn_abs|]. fsplit G; fsplit L; try (rewrite ?nan_plus_l, ?nan_plus_r; apply ltb_nan_l); repeat match goal with s : bool |- _ => destruct s; [easy|] end.
  - apply nn_fin in HG, HL; try easy. pose proof (xval_abs (Bminus mode_NE G L)) as X. rewrite xval_sub, xabs_fl in X by easy. apply (ltb_of _ _ _ _ (xval_add G L ltac:(easy) ltac:(easy)) X). apply Rabs_le. lra.
  - now destruct G.
  - now destruct L.
  - easy.
Qed.
Theorem adx_f64_range m (h l c : nat -> f64) n w s o : (Z.of_nat w <= 2 ^ 53)%Z -> (100 * Z.of_nat s <= 2 ^ 53)%Z -> (0 < n)%nat -> fbars h l c n ->
  @adx f64 (B64 m) (series h n) (series l n) (series c n) w s = Ok o -> forall p q a, In (p, q, a) o -> inr 0 100 p /\ inr 0 100 q /\ inr 0 100 a.
Proof.
  intros Hw Hs Hn H E p q a Hi. unfold adx in E. rewrite bar_pairs_series in E by easy. cbn [bind] in E.
  destruct (wilder (map bar_tr _) w) as [at_r|] eqn:ET; cbn [bind] in E; [|easy]. destruct (wilder (map dm_pos _) w) as [wp|] eqn:EP; cbn [bind] in E; [|easy]. destruct (wilder (map dm_neg _) w) as [wn|] eqn:EN; cbn [bind] in E; [|easy].
  destruct (usub w 1) as [k|]; cbn [bind] in E; [|easy]. destruct (slice_from (map di_ratio (combine wp at_r)) k) as [dp|] eqn:SP; cbn [bind] in E; [|easy]. destruct (slice_from (map di_ratio (combine wn at_r)) k) as [dn|] eqn:SN; cbn [bind] in E; [|easy]. destruct (wilder _ s) as [ad|] eqn:EA; cbn [bind] in E; [|easy]. injection E as <-.
  match type of ET with wilder (map _ ?b) _ = _ => set (bars := b) in * end.
  assert (D : forall x, In x bars -> lee (@dm_pos f64 (B64 m) x) (@bar_tr f64 (B64 m) x) /\ lee (@dm_neg f64 (B64 m) x) (@bar_tr f64 (B64 m) x)).
  { intros x Hx. apply in_map_iff in Hx as (j & <- & Hj). apply in_seq in Hj. destruct (H j ltac:(lia)) as (F1 & F2 & _ & B1). destruct (H (j - 1)%nat ltac:(lia)) as (F4 & F5 & F6 & B2). apply dm_le_tr; try easy. lra. }
  assert (DI : forall wx f, wilder (map f bars) w = Ok wx -> (forall x, In x bars -> lee (f x) (@bar_tr f64 (B64 m) x)) -> forall x, In x (map di_ratio (combine wx at_r)) -> inr 0 100 x).
  { intros wx f EX L x Hx. apply in_map_iff in Hx as ((u & v) & <- & Hx). pose proof (wilder_f64_ordered m f bar_tr bars w wx at_r Hw EX ET L _ Hx) as Q. cbn [fst snd di_ratio] in *. apply (inr_weaken (0 * 100) (1 * 100)); [|lra|lra]. cbn [fdiv fmul B64]. apply inr_scale; [now apply lee_part|now apply (xval_of_Z 100)|lra|rewrite Rmult_0_l; now apply (rep_Z 0)|rewrite Rmult_1_l; now apply (rep_Z 100)]. }
  assert (DP := DI wp dm_pos EP ltac:(intros; now apply D)). assert (DN := DI wn dm_neg EN ltac:(intros; now apply D)).
  destruct Hi as [[= <- <- <-]|Hi]; [repeat split; exact I|]. unfold zip3 in Hi. pose proof (in_combine_l _ _ _ _ Hi) as I1. pose proof (in_combine_r _ _ _ _ Hi) as I2. pose proof (in_combine_l _ _ _ _ I1) as I3. pose proof (in_combine_r _ _ _ _ I1) as I4.
  split; [now apply DP|split; [now apply DN|]]. apply in_app_iff in I2 as [I2|I2]; [apply in_pad in I2; subst; exact I|].
  revert I2. apply (wilder_f64_within m 0 100 _ s ad EA); [lia| |].
  - intros j Hj. rewrite Rmult_0_l. split; [now apply (rep_Z 0)|]. rewrite INR_IZR_INZ, <- mult_IZR. apply rep_Z. lia.
  - intros x Hx. apply in_map_iff in Hx as ((u & v) & <- & Hx). cbn [dx_ratio].
    assert (SL : forall A (l l' : list A) y, slice_from l k = Ok l' -> In y l' -> In y l) by (intros A l0 l' y; unfold slice_from; destruct (_ <=? _)%nat; [|easy]; intros [= <-]; apply skipn_in).
    pose proof (DP u (SL _ _ _ _ SP (in_combine_l _ _ _ _ Hx))) as Iu. pose proof (DN v (SL _ _ _ _ SN (in_combine_r _ _ _ _ Hx))) as Iv.
    assert (NN : forall y, inr 0 100 y -> nn y). { intros y Hy. apply inr_cases in Hy as [-> |[Fy By]]; [exact nn_nan|]. apply nn_fin; [easy|lra]. }
    apply (inr_weaken (0 * 100) (1 * 100)); [|lra|lra]. cbn [fdiv fmul fsub fadd fabs B64]. apply inr_scale; [|now apply (xval_of_Z 100)|lra|rewrite Rmult_0_l; now apply (rep_Z 0)|rewrite Rmult_1_l; now apply (rep_Z 100)].
    apply abs_part; now apply NN.
Qed.
