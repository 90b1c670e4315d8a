(** * F64AccB: ranges, oscillators and errors in binary64, continued from F64Acc. *)

From Coq Require Import Reals Lra Lia ZArith Sorted.
From Flocq Require Import Core IEEE754.BinarySingleNaN.
From Verif Require Import Base Num Spec BaseFacts XReal XRFacts Scale Bars B64 F64 F64Range F64Err F64Osc.
From Verif Require Import Distribution Regression Correlation Smooth Volatility Trend Momentum Volume.
From Verif Require Import SmoothShape SmoothVals VolatReal VolumeReal MomReal TrendReal CorrReal F64Rel F64Acc.
Local Unset Implicit Arguments.
Local Open Scope R_scope.

(** ** Signs *)
Lemma near_xval k lo hi x y X : xval x = xval y -> near k lo hi x X -> near k lo hi y X.
Proof.
  intros E H r EX. destruct (H r EX) as (F & P & R & B). rewrite (xval_fin x F) in E. symmetry in E. apply xval_fin_inv in E as [F' V]. rewrite V. easy.
Qed.
Lemma xneg_fin X r : xneg X = Fin r -> X = Fin (- r).
Proof. destruct X as [a|s|]; cbn; try easy. intros [= <-]. f_equal. ring. Qed.
Lemma xabs_fin X r : xabs X = Fin r -> exists a, X = Fin a /\ r = Rabs a.
Proof. destruct X as [a|s|]; cbn; try easy. intros [= <-]. now exists a. Qed.
Lemma close_opp K x y X : xval y = xneg (xval x) -> close K x X -> close K y (xneg X).
Proof.
  intros E H r Er. apply xneg_fin in Er. destruct (H _ Er) as [F V]. rewrite (xval_fin x F) in E. cbn [xneg] in E. apply xval_fin_inv in E as [F' V']. split; [easy|].
  rewrite V'. replace (- B2R x - r) with (- (B2R x - - r)) by ring. rewrite Rabs_Ropp. rewrite Rabs_Ropp in V. exact V.
Qed.
(** Size without sign. *)
Definition size (k : nat) (lo hi : Z) (x : f64) (X : xr) : Prop := near k lo hi (Babs x) (xabs X).
Lemma size_near k lo hi x X : near k lo hi x X -> size k lo hi x X.
Proof.
  intros H r E. apply xabs_fin in E as (a & -> & ->). destruct (H a eq_refl) as (F & P & R & B). rewrite (Rabs_pos_eq a) by easy.
  split; [now rewrite is_finite_Babs|]. split; [easy|]. split; [easy|]. rewrite B2R_Babs, Rabs_pos_eq; [easy|]. pose proof (tol_pos k). nra.
Qed.
Lemma size_in x : sane x -> size 0 (-200) 200 x (Fin (B2R x)).
Proof.
  intros [F R] r [= <-]. split; [now rewrite is_finite_Babs|]. split; [apply Rabs_pos|]. rewrite B2R_Babs. split; [|unfold tol; cbn; lra].
  destruct R as [E|?]; [left; now rewrite E, Rabs_R0|now right].
Qed.
Section Sign.
  Context (m : libm).
  Notation B := (B64 m).
  Lemma size_sub a b : sane a -> sane b -> size 1 (-252) 201 (@fsub f64 B a b) (Fin (B2R a - B2R b)).
  Proof. intros Ha Hb. exact (near_dist m a b Ha Hb). Qed.
  Lemma size_mul j k lo lo' hi hi' x y X Y : size j lo hi x X -> size k lo' hi' y Y -> few (j + k) -> (hi + hi' <= 1020)%Z -> (-1020 <= lo + lo')%Z ->
    size (S (j + k)) (lo + lo') (hi + hi') (@fmul f64 B x y) (xmul X Y).
  Proof.
    intros Hx Hy Hf H1 H2 r E. pose proof E as E'. apply xabs_fin in E' as (ab & E' & _). apply xmul_fin in E' as (a & b & -> & -> & ->).
    pose proof (near_mul m j k lo lo' hi hi' _ _ _ _ Hx Hy Hf H1 H2) as N. destruct (Hx _ eq_refl) as (Fx & _). destruct (Hy _ eq_refl) as (Fy & _). rewrite is_finite_Babs in Fx, Fy.
    refine (near_xval _ _ _ _ _ _ _ N r _).
    - cbn [fmul B64]. rewrite xval_abs, !xval_mul by (easy || now rewrite is_finite_Babs). rewrite xabs_fl, !B2R_Babs, Rabs_mult. reflexivity.
    - cbn [xabs xmul] in *. rewrite <- Rabs_mult. exact E.
  Qed.
  Lemma size_div j k lo lo' hi hi' x y X b : size j lo hi x X -> size k lo' hi' y (Fin b) -> few (j + k) -> (hi - lo' <= 1020)%Z -> (-1020 <= lo - hi')%Z ->
    size (S (j + k)) (lo - hi') (hi - lo') (@fdiv f64 B x y) (xdiv X (Fin b)).
  Proof.
    intros Hx Hy Hf H1 H2 r E. pose proof E as E'. apply xabs_fin in E' as (ab & E' & _). apply xdiv_fin in E' as (a & -> & Nb & ->).
    pose proof (near_div m j k lo lo' hi hi' _ _ _ _ Hx Hy Hf H1 H2) as N. destruct (Hx _ eq_refl) as (Fx & _). destruct (Hy _ eq_refl) as (Fy & _ & _ & Vy). rewrite is_finite_Babs in Fx, Fy.
    rewrite B2R_Babs in Vy. pose proof (tol_pos k). assert (Yn : B2R y <> 0). { intros Z. rewrite Z, Rabs_R0 in Vy. assert (0 < Rabs b) by now apply Rabs_pos_lt. nra. }
    refine (near_xval _ _ _ _ _ _ _ N r _).
    - cbn [fdiv B64]. rewrite xval_abs, !xval_div; try easy; try now rewrite is_finite_Babs.
      + rewrite xabs_fl, !B2R_Babs. unfold Rdiv. rewrite Rabs_mult, Rabs_inv. reflexivity.
      + rewrite B2R_Babs. now apply Rabs_no_R0.
    - rewrite x_div in E by easy. cbn [xabs] in E. rewrite <- E. cbn [xabs]. rewrite x_div by now apply Rabs_no_R0. f_equal. unfold Rdiv. now rewrite Rabs_mult, Rabs_inv.
  Qed.
  Lemma near_square k lo hi x X : size k lo hi x X -> few (k + k) -> (hi + hi <= 1020)%Z -> (-1020 <= lo + lo)%Z ->
    near (S (k + k)) (lo + lo) (hi + hi) (@fmul f64 B x x) (xmul X X).
  Proof.
    intros Hx Hf H1 H2. pose proof (near_mul m k k lo lo hi hi _ _ _ _ Hx Hx Hf H1 H2) as N. intros r E.
    pose proof E as E'. apply xmul_fin in E' as (a & b & -> & [= <-] & ->). destruct (Hx _ eq_refl) as (Fx & _). rewrite is_finite_Babs in Fx.
    refine (near_xval _ _ _ _ _ _ _ N _ _).
    - cbn [fmul B64]. rewrite !xval_mul by (easy || now rewrite is_finite_Babs). f_equal. rewrite B2R_Babs. rewrite <- Rabs_mult. symmetry. rewrite Rabs_pos_eq by (fold (Rsqr (B2R x)); apply Rle_0_sqr). reflexivity.
    - cbn [xabs xmul]. rewrite <- Rabs_mult, Rabs_pos_eq by (fold (Rsqr a); apply Rle_0_sqr). reflexivity.
  Qed.
  Lemma close_neg_div K x y X b : b <> 0 -> fin x -> fin y -> B2R y <> 0 -> close K (@fdiv f64 B x y) (xdiv X (Fin b)) -> close K (@fdiv f64 B (@fneg f64 B x) y) (xdiv (xneg X) (Fin b)).
  Proof.
    intros Nb Fx Fy Ny H. replace (xdiv (xneg X) (Fin b)) with (xneg (xdiv X (Fin b))).
    - apply (close_opp K (@fdiv f64 B x y)); [|exact H]. cbn [fdiv fneg B64]. rewrite !xval_div by (easy || now rewrite is_finite_Bopp). rewrite B2R_Bopp, <- fl_opp. f_equal. field. easy.
    - destruct X as [a|s|]; cbn [xneg]; [rewrite !x_div by easy; cbn [xneg]; f_equal; field; easy| |easy].
      cbn. destruct (Rltb b 0); now destruct s.
  Qed.
End Sign.

(** A total that starts with its first item. *)
Lemma near_sum_first m {A} k lo hi p (l : list A) (f : A -> f64) (g : A -> xr) s S0 : few (k + length l) -> (0 <= p)%Z -> (Z.of_nat (length l) + 1 <= 2 ^ p)%Z -> (hi + p <= 1019)%Z ->
  (forall a, In a l -> near k lo hi (f a) (g a)) -> near k lo hi s S0 ->
  near (k + length l) lo (hi + p) (fold_left (fun t a => @fadd f64 (B64 m) t (f a)) l s) (fold_left (fun t a => xadd t (g a)) l S0).
Proof.
  intros Hf Hp Hn Hh H Hs.
  assert (I : forall r, fold_left (fun t a => xadd t (g a)) l S0 = Fin r -> fin (fold_left (fun t a => @fadd f64 (B64 m) t (f a)) l s) /\ 0 <= r /\ (r = 0 \/ p2 lo <= r) /\ r <= INR (length l + 1) * p2 hi /\
    r * tol (k + length l) <= B2R (fold_left (fun t a => @fadd f64 (B64 m) t (f a)) l s) <= r * / tol (k + length l)).
  - clear Hp. induction l as [|a l IH] using rev_ind; intros r; [cbn [fold_left length Nat.add INR]; intros E; destruct (Hs r E) as (F & P & R & B)|].
    + split; [easy|]. split; [lra|]. split; [destruct R as [?|[? _]]; [now left|now right]|]. rewrite Nat.add_0_r. split; [|easy]. pose proof (bpow_gt_0 radix2 hi). cbn [length Nat.add INR]. destruct R as [->|[_ ?]]; lra.
    + rewrite !fold_left_app, app_length. cbn [fold_left length]. rewrite app_length in *. cbn [length] in *. intros E. apply xadd_fin in E as (u & v & Eu & Ev & ->).
      assert (Hl : few (k + length l)) by (unfold few in *; lia).
      destruct (IH Hl ltac:(lia) ltac:(intros; apply H, in_or_app; now left) u Eu) as (Fu & Pu & Lu & Uu & Bu).
      destruct (H a ltac:(apply in_or_app; right; now left) v Ev) as (Fv & Pv & Rv & Bv).
      set (x := fold_left (fun t a => @fadd f64 (B64 m) t (f a)) l s) in *. replace (k + (length l + 1))%nat with (S (k + length l)) by lia.
      assert (Bv' : v * tol (k + length l) <= B2R (f a) <= v * / tol (k + length l)).
      { pose proof (tol_le k (k + length l) ltac:(lia)). pose proof (tol_pos (k + length l)). assert (/ tol k <= / tol (k + length l)) by (apply Rinv_le; lra). nra. }
      assert (Ip : 0 <= INR (length l)) by apply pos_INR. pose proof (bpow_gt_0 radix2 hi). pose proof (bpow_gt_0 radix2 lo).
      assert (Vh : v <= p2 hi) by (destruct Rv as [->|[_ ?]]; lra).
      assert (Uv : u + v <= INR (length l + 1 + 1) * p2 hi) by (rewrite plus_INR; cbn [INR]; rewrite plus_INR in *; cbn [INR] in *; nra).
      assert (Hn' : INR (length l + 1 + 1) <= p2 p).
      { rewrite INR_IZR_INZ. apply Rle_trans with (IZR (2 ^ p)); [apply IZR_le; lia|]. rewrite <- (IZR_Zpower radix2); [apply Rle_refl|]. destruct p; [lia|lia|]. cbn in Hn. lia. }
      assert (Cap : u + v <= p2 (hi + p)). { rewrite bpow_plus, Rmult_comm. eapply Rle_trans; [exact Uv|]. apply Rmult_le_compat_r; lra. }
      assert (Lv : u + v = 0 \/ p2 lo <= u + v) by (destruct Lu as [->|?], Rv as [->|[? _]]; try (right; lra); left; lra).
      destruct (rnd_tol (B2R x + B2R (f a)) (u + v) (k + length l) (@fadd f64 (B64 m) x (f a)) lo (hi + p)) as (G1 & G2 & G3 & G4); try easy; try lra; try lia.
      * now apply xval_add.
      * apply rnd_add_err.
  - intros r E. destruct (I r E) as (F & P & L & U & B). split; [easy|]. split; [easy|]. split; [|easy]. destruct L as [?|L]; [now left|right]. split; [easy|].
    eapply Rle_trans; [exact U|]. rewrite bpow_plus, Rmult_comm. apply Rmult_le_compat_l; [apply bpow_ge_0|].
    rewrite INR_IZR_INZ, <- (IZR_Zpower radix2) by easy. apply IZR_le. eapply Z.le_trans; [|exact Hn]. lia.
Qed.
(** The larger of two. *)
Lemma near_max m k lo hi x y a b : near k lo hi x (Fin a) -> near k lo hi y (Fin b) -> near k lo hi (@fmax f64 (B64 m) x y) (@fmax xr XR (Fin a) (Fin b)).
Proof.
  intros Hx Hy. rewrite x_max. intros r [= <-]. destruct (Hx a eq_refl) as (Fx & Pa & Ra & Ba). destruct (Hy b eq_refl) as (Fy & Pb & Rb & Bb).
  destruct (fmax_fin m x y Fx Fy) as [F V]. split; [easy|]. rewrite V. pose proof (tol_pos k). assert (0 < / tol k) by now apply Rinv_0_lt_compat. 
  destruct (Rle_lt_dec a b) as [L|L].
  - rewrite (Rmax_right a b) by easy. split; [easy|]. split; [easy|]. split; [eapply Rle_trans; [apply Bb|apply Rmax_r]|]. apply Rmax_lub; [|easy]. eapply Rle_trans; [apply Ba|]. apply Rmult_le_compat_r; lra.
  - rewrite (Rmax_left a b) by lra. split; [easy|]. split; [easy|]. split; [eapply Rle_trans; [apply Ba|apply Rmax_l]|]. apply Rmax_lub; [easy|]. eapply Rle_trans; [apply Bb|]. apply Rmult_le_compat_r; lra.
Qed.

Section Fns.
  Context (m : libm).
  Notation B := (B64 m).
  (** *** Ranges *)
  Lemma near_tr h l c n k : (forall j, (j < n)%nat -> sane (h j) /\ sane (l j) /\ sane (c j) /\ B2R (l j) <= B2R (h j)) -> (k < n)%nat ->
    near 1 (-252) 201 (@tr_at f64 B h l c k) (@tr_at xr XR (exactly h) (exactly l) (exactly c) k).
  Proof.
    intros H Hk. destruct (H k Hk) as (Sh & Sl & _ & L). destruct (H (k - 1)%nat ltac:(lia)) as (_ & _ & Sc & _). unfold tr_at, exactly. rewrite !x_sub, !x_abs. rewrite (x_max (B2R (h k) - B2R (l k))).
    apply near_max; [|now apply near_dist]. rewrite <- x_max. apply near_max; [now apply near_sub|now apply near_dist].
  Qed.
  Theorem tr_f64_accurate h l c n : (0 < n)%nat -> (forall j, (j < n)%nat -> sane (h j) /\ sane (l j) /\ sane (c j) /\ B2R (l j) <= B2R (h j)) ->
    accurate 1 (@tr f64 B (series h n) (series l n) (series c n)) (@tr xr XR (series (exactly h) n) (series (exactly l) n) (series (exactly c) n)).
  Proof.
    intros Hn H. destruct (@tr_values f64 B h l c n Hn) as (o & E & A). destruct (@tr_values xr XR (exactly h) (exactly l) (exactly c) n Hn) as (p & G & C).
    apply (accurate_aligned _ _ _ _ _ _ _ _ _ _ E A G C). intros i Hi. eapply near_close; [small|]. apply (near_tr h l c n); easy || lia.
  Qed.
  Theorem wpr_f64_accurate h l c n w : (0 < w)%nat -> (w - 1 <= n)%nat -> bars_ok h l c n ->
    accurate 4 (@wpr f64 B (series h n) (series l n) (series c n) w) (@wpr xr XR (series (exactly h) n) (series (exactly l) n) (series (exactly c) n) w).
  Proof.
    intros Hw Hn H. destruct (@wpr_values f64 B h l c n w Hw Hn) as (o & E & A). destruct (@wpr_values xr XR (exactly h) (exactly l) (exactly c) n w Hw Hn) as (p & G & C).
    apply (accurate_aligned _ _ _ _ _ _ _ _ _ _ E A G C). intros i Hi. cbv beta.
    destruct (max_exact m w h i ltac:(lia)) as (St & Et & Ut); [intros; apply H; lia|]. destruct (min_exact m w l i ltac:(lia)) as (Sb & Eb & Ub); [intros; apply H; lia|].
    rewrite Et, Eb. set (top := @max_of f64 B (last_bars w h i)) in *. set (bot := @min_of f64 B (last_bars w l i)) in *.
    destruct (H i ltac:(lia)) as (Sh & Sl & Sc & L1 & L2). specialize (Ut i ltac:(lia) ltac:(lia)). specialize (Ub i ltac:(lia) ltac:(lia)).
    unfold exactly. rewrite !x_sub, x_lit.
    apply (close_neg_mul m 3 100 _ _ (-252 - 201) (201 - -252)); [lia|small|lia|lia|].
    apply (near_quot m 1 1 (-252) (-252) 201 201); [apply near_sub; lra || easy|apply near_sub; lra || easy|now eexists|small|lia|lia].
  Qed.
  Theorem vhf_f64_accurate h l c n w : (0 < w)%nat -> (Z.of_nat w <= 2 ^ 48)%Z -> (forall k, (k < n)%nat -> sane (h k) /\ sane (l k) /\ sane (c k) /\ B2R (l k) <= B2R (h k)) ->
    accurate (w + 3) (@vhf f64 B (series h n) (series l n) (series c n) w) (@vhf xr XR (series (exactly h) n) (series (exactly l) n) (series (exactly c) n) w).
  Proof.
    intros Hw Hz H.
    assert (V : forall {F} {O : FOps F} (h l c : nat -> F), exists o, vhf (series h n) (series l n) (series c n) w = Ok o /\ aligned o n w fnan
      (fun i => fdiv (fsub (max_of (last_bars w h i)) (min_of (last_bars w l i))) (fsum (last_bars w (fun k => fabs (fsub (c k) (c (k - 1)%nat))) i)))).
    { intros F O h' l' c'. unfold vhf, abs_diffs. rewrite windows2_series, map_map. unfold series. rewrite !rwindows_bars by easy. cbn [bind]. eexists. split; [reflexivity|].
      rewrite !skipn_bars. unfold zip3. replace (0 + w - 1 + 1)%nat with w by lia. replace (1 + w - 1)%nat with w by lia. rewrite !combine_bars, map_map.
      apply aligned_bars_ext; [lia|]. intros i Hi. cbn [at_ nth]. reflexivity. }
    destruct (V f64 B h l c) as (o & E & A). destruct (V xr XR (exactly h) (exactly l) (exactly c)) as (p & G & C).
    apply (accurate_aligned _ _ _ _ _ _ _ _ _ _ E A G C). intros i Hi. cbv beta.
    destruct (max_exact m w h i ltac:(lia)) as (St & Et & Ut); [intros; apply H; lia|]. destruct (min_exact m w l i ltac:(lia)) as (Sb & Eb & Ub); [intros; apply H; lia|].
    rewrite Et, Eb. set (top := @max_of f64 B (last_bars w h i)) in *. set (bot := @min_of f64 B (last_bars w l i)) in *.
    destruct (H i ltac:(lia)) as (Sh & Sl & _ & L1). specialize (Ut i ltac:(lia) ltac:(lia)). specialize (Ub i ltac:(lia) ltac:(lia)).
    rewrite x_sub. replace (w + 3)%nat with (S (1 + (1 + w))) by lia. eapply near_close; [small|]. eapply near_quot.
    - apply near_sub; lra || easy.
    - apply (near_bars m w _ _ _ 1 (-252) 201 48); try small; try apply b64_sum0. intros j J1 J2. unfold exactly. rewrite x_sub, x_abs. apply near_dist; apply H; lia.
    - apply bars_fin. intros j. unfold exactly. rewrite x_sub, x_abs. now eexists.
    - small.
    - lia.
    - lia.
  Qed.
  Theorem cog_f64_accurate d n w : (0 < w)%nat -> (Z.of_nat w <= 2 ^ 48)%Z -> good d n -> (forall k, (k < n)%nat -> 0 < B2R (d k)) ->
    accurate (2 * w + 2) (@cog f64 B (series d n) w) (@cog xr XR (series (exactly d) n) w).
  Proof.
    intros Hw Hz H Hp. destruct (@cog_values f64 B d n w Hw) as (o & E & A). destruct (@cog_values xr XR (exactly d) n w Hw) as (p & G & C).
    apply (accurate_aligned _ _ _ _ _ _ _ _ _ _ E A G C). intros i Hi. cbv beta.
    assert (N1 : near (1 + w) (-200) 301 (@fsum f64 B (map (fun j => @fmul f64 B (d (i - j)%nat) (@fofnat f64 B (S j))) (seq 0 w))) (@fsum xr XR (map (fun j => @fmul xr XR (exactly d (i - j)%nat) (@fofnat xr XR (S j))) (seq 0 w)))).
    { unfold fsum. rewrite !fold_add_map. eapply near_weaken; [apply (near_sum m 1 (-200) 253 48 _ (fun j => @fmul f64 B (d (i - j)%nat) (@fofnat f64 B (S j))) (fun j => @fmul xr XR (exactly d (i - j)%nat) (@fofnat xr XR (S j))))| | |]; rewrite ?seq_length; try small; try apply b64_sum0.
      intros j Hj. apply in_seq in Hj. rewrite x_nat. apply (near_mul m 0 0 (-200) 0 200 53); [apply (good_near _ n); [easy|lia]|apply near_count; lia|small|lia|lia]. }
    assert (N2 : near w (-200) 248 (@fsum f64 B (last_bars w d i)) (@fsum xr XR (last_bars w (exactly d) i))).
    { apply (near_bars m w _ _ _ 0 (-200) 200 48); try small; try apply b64_sum0. intros j J1 J2. apply (good_near d n); [easy|lia]. }
    assert (F2 : exists b, @fsum xr XR (last_bars w (exactly d) i) = Fin b /\ b <> 0).
    { unfold exactly. rewrite (x_last_bars w (fun k => B2R (d k))), x_fsum. eexists. split; [reflexivity|].
      apply Rgt_not_eq, Rlt_gt. apply Rsum_pos; [|apply last_bars_ne; lia]. intros x Hx. apply In_last_bars in Hx as (k & K1 & K2 & ->); [apply Hp; lia|lia]. }
    destruct F2 as (b & F2 & Nb). assert (F1 : exists a, @fsum xr XR (map (fun j => @fmul xr XR (exactly d (i - j)%nat) (@fofnat xr XR (S j))) (seq 0 w)) = Fin a).
    { unfold fsum. rewrite fold_add_map. apply sum_fin. intros j _. rewrite x_nat. now eexists. }
    destruct F1 as [a F1]. rewrite F1 in *. rewrite F2 in *. destruct (N1 a eq_refl) as (Fx & _). destruct (N2 b eq_refl) as (Fy & Pb & _ & By).
    apply close_neg_div; try easy.
    - pose proof (tol_pos w). assert (0 < b * tol w) by (apply Rmult_lt_0_compat; lra). lra.
    - replace (2 * w + 2)%nat with (S (1 + w + w)) by lia. eapply near_close; [small|]. eapply near_div; [exact N1|exact N2|small|lia|lia].
  Qed.
  Theorem vwap_f64_accurate h l c v n resets : resets <> Some [] -> StronglySorted lt (unwrap_or resets [n]) -> (Z.of_nat n <= 2 ^ 48)%Z -> good h n -> good l n -> good c n -> good v n ->
    accurate (2 * n + 5) (@vwap f64 B (series h n) (series l n) (series c n) (series v n) resets) (@vwap xr XR (series (exactly h) n) (series (exactly l) n) (series (exactly c) n) (series (exactly v) n) resets).
  Proof.
    intros Hne Srt Hz Hh Hl Hc Hv. destruct (@vwap_values f64 B h l c v n resets Hne Srt) as (o & E & A). destruct (@vwap_values xr XR (exactly h) (exactly l) (exactly c) (exactly v) n resets Hne Srt) as (p & G & C).
    assert (T : forall {F} {O : FOps F} a s (d : nat -> F) q, total_from a s d q = fold_left (fun t k => fadd t (d k)) (seq a q) s).
    { intros F O a s d q. induction q as [|q IH]; [easy|]. cbn [total_from]. rewrite seq_S, fold_left_app. cbn [fold_left]. now rewrite IH. }
    apply (accurate_aligned _ _ _ _ _ _ _ _ _ _ E A G C). intros i Hi. cbv zeta. set (s := session (unwrap_or resets [n]) i). rewrite !T, !x_lit. set (q := (i + 1 - s)%nat). assert (Hq : (q <= n)%nat) by lia.
    apply (close_weaken (S (4 + q + (0 + q)))); [lia|]. eapply near_close; [small|]. eapply near_quot.
    - pose proof (near_sum m 4 (-420) 402 48 (seq s q) (fun k => @fmul f64 B (@fdiv f64 B (@fadd f64 B (@fadd f64 B (h k) (l k)) (c k)) (@flit f64 B 3 1)) (v k))
        (fun k => @fmul xr XR (@fdiv xr XR (@fadd xr XR (@fadd xr XR (exactly h k) (exactly l k)) (exactly c k)) (Fin 3)) (exactly v k)) (@flit f64 B 0 1)) as N. rewrite seq_length in N. apply N; try small; try apply b64_zero0.
      intros k Hk. apply in_seq in Hk. rewrite <- (x_lit 3). apply (near_mul m 3 0 (-220) (-200) 202 200); [apply (near_typical m h l c n); easy || lia|apply (good_near v n); [easy|lia]|small|lia|lia].
    - pose proof (near_sum m 0 (-200) 200 48 (seq s q) v (exactly v) (@flit f64 B 0 1)) as N. rewrite seq_length in N. apply N; try small; try apply b64_zero0. intros k Hk. apply in_seq in Hk. apply (good_near v n); [easy|lia].
    - apply sum_fin. intros k _. now eexists.
    - small.
    - lia.
    - lia.
  Qed.
  (** *** Oscillators *)
  Lemma near_fsum k lo hi p l l' : Forall2 (near k lo hi) l l' -> few (k + length l) -> (0 <= p)%Z -> (Z.of_nat (length l) <= 2 ^ p)%Z -> (hi + p <= 1019)%Z ->
    near (k + length l) lo (hi + p) (@fsum f64 B l) (@fsum xr XR l').
  Proof.
    intros H Hf Hp Hl Hh. assert (E : exists q, l = map fst q /\ l' = map snd q /\ forall a, In a q -> near k lo hi (fst a) (snd a)).
    { clear -H. induction H as [|x y l l' H _ (q & -> & -> & Q)]; [now exists []|]. exists ((x, y) :: q). split; [easy|]. split; [easy|]. intros a [<- |I]; [easy|now apply Q]. }
    destruct E as (q & -> & -> & Q). unfold fsum. rewrite !fold_add_map. rewrite map_length in *. apply near_sum; try easy; apply b64_sum0.
  Qed.
  Lemma near_sma k lo hi p w l l' : Forall2 (near k lo hi) l l' -> (0 < w)%nat -> few (k + w) -> (0 <= p <= 53)%Z -> (Z.of_nat w <= 2 ^ p)%Z -> (hi + p <= 1019)%Z -> (-1020 <= lo - 53)%Z ->
    rrel (Forall2 (near (S (k + w)) (lo - 53) (hi + p))) (@sma f64 B l w) (@sma xr XR l' w).
  Proof.
    intros H Hw Hf Hp Hz Hh Hl. unfold sma, usub. rewrite (proj2 (Nat.leb_le 1 w)) by lia. cbn [bind].
    assert (2 ^ p <= 2 ^ 53)%Z by (apply Z.pow_le_mono_r; lia).
    pose proof (r_rwindows (near k lo hi) w l l' H) as W. unfold rwindows in *. rewrite (proj2 (Nat.eqb_neq w 0)) in * by lia. cbn [bind]. cbn in W. apply r_ok. apply f2_app.
    - assert (L : Forall (fun a => length a = w) (windows w l)) by (apply Forall_forall; intros a Ha; now apply windows_length in Ha).
      induction W as [|a b la lb Hab W IH]; [constructor|]. apply Forall_inv in L as La. apply Forall_inv_tail in L. cbn [map]. constructor; [|now apply IH].
      unfold sma_win. eapply near_weaken; [eapply (near_quot m (k + w) 0 lo 0 (hi + p) 53)| | |]; try lia.
      + rewrite <- La. apply near_fsum; rewrite ?La; try easy; lia.
      + rewrite x_nat. apply near_count; lia.
      + rewrite x_nat. now eexists.
      + small.
    - apply f2_repeat. apply near_nan.
  Qed.
End Fns.
