(** * F64Acc: quotients of ranges, errors and weighted prices, in binary64.

    For prices and volumes of a reasonable size the binary64 result of these functions
    is the exact one up to a few rounding units, relative to the result: there is no
    cancellation and no drift. *)

From Coq Require Import Reals Lra Lia ZArith Sorted.
From Flocq Require Import Core IEEE754.BinarySingleNaN.
From Verif Require Import Base Num Spec BaseFacts XReal XRFacts Scale Bars B64 F64 F64Range F64Err.
From Verif Require Import Distribution Regression Correlation Smooth Volatility Trend Momentum Volume.
From Verif Require Import SmoothShape SmoothVals VolatReal VolumeReal MomReal TrendReal CorrReal F64Rel.
Local Unset Implicit Arguments.
Local Open Scope R_scope.

(** [x] is what binary64 printed where exact arithmetic prints [X]. *)
Definition close (k : nat) (x : f64) (X : xr) : Prop :=
  forall r, X = Fin r -> fin x /\ Rabs (B2R x - r) <= INR k * p2 (-52) * Rabs r.
Definition accurate (k : nat) (r : result (list f64)) (e : result (list xr)) : Prop :=
  match r, e with Ok o, Ok p => Forall2 (close k) o p | Panic, Panic => True | _, _ => False end.
(** The same input as exact numbers. *)
Definition exactly (f : nat -> f64) : nat -> xr := fun k => Fin (B2R (f k)).

Lemma near_close k lo hi x X : few k -> near k lo hi x X -> close k x X.
Proof. intros Hk H r ->. now apply (near_rel k lo hi). Qed.
Lemma close_weaken j k x X : (j <= k)%nat -> close j x X -> close k x X.
Proof.
  intros H C r E. destruct (C r E) as [F B]. split; [easy|]. eapply Rle_trans; [exact B|]. apply le_INR in H. pose proof (bpow_ge_0 radix2 (-52)). pose proof (Rabs_pos r).
  apply Rmult_le_compat_r; [easy|]. now apply Rmult_le_compat_r.
Qed.
Lemma f2_at {A B} (P : A -> B -> Prop) l m : length l = length m -> (forall i x y, nth_error l i = Some x -> nth_error m i = Some y -> P x y) -> Forall2 P l m.
Proof.
  revert m. induction l as [|a l IH]; intros [|b m]; cbn; try easy. intros [= L] H. constructor; [now apply (H 0%nat)|]. apply IH; [easy|]. intros i. apply (H (S i)).
Qed.
Lemma accurate_aligned K k n r o na f e p g : r = Ok o -> aligned o n k na f -> e = Ok p -> aligned p n k NaN g ->
  (forall i, (k <= i < n)%nat -> close K (f i) (g i)) -> accurate K r e.
Proof.
  intros -> (Lo & Wo & Vo) -> (Lp & Wp & Vp) H. cbn. apply f2_at; [congruence|]. intros i x y Ex Ey.
  assert (Hi : (i < length p)%nat) by (apply nth_error_Some; congruence).
  destruct (Nat.lt_ge_cases i k) as [L|L]; [rewrite Wp in Ey by easy; injection Ey as <-; now intros r|].
  assert (i < n)%nat by lia. rewrite Vo in Ex by easy. rewrite Vp in Ey by easy. injection Ex as <-. injection Ey as <-. apply H. easy.
Qed.

(** ** The pieces *)
Section Pieces.
  Context (m : libm).
  Notation B := (B64 m).
  Lemma near_lit n : (1 <= n <= 2 ^ 20)%Z -> near 0 0 20 (@flit f64 B n 1) (Fin (IZR n)).
  Proof.
    intros H. destruct (xval_fin_inv _ _ (xval_of_Z n ltac:(lia))) as [F V]. change (@flit f64 B n 1) with (b64_of_Z n). rewrite <- V. apply near_exact; [easy|rewrite V; apply IZR_le; lia|].
    right. rewrite V. split; [change (p2 0) with (IZR 1); apply IZR_le; lia|]. change (p2 20) with (IZR (2 ^ 20)). apply IZR_le; lia.
  Qed.
  Lemma near_count n : (0 < n)%nat -> (Z.of_nat n <= 2 ^ 53)%Z -> near 0 0 53 (@fofnat f64 B n) (Fin (INR n)).
  Proof.
    intros H0 H. destruct (xval_fin_inv _ _ (xval_nat m n H)) as [F V]. rewrite <- V. apply near_exact; [easy|rewrite V; apply pos_INR|].
    right. rewrite V, INR_IZR_INZ. split; [change (p2 0) with (IZR 1); apply IZR_le; lia|]. change (p2 53) with (IZR (2 ^ 53)). apply IZR_le; lia.
  Qed.
  Lemma b64_zero0 : fin (@flit f64 B 0 1) /\ B2R (@flit f64 B 0 1) = 0.
  Proof. split; reflexivity. Qed.
  Lemma b64_sum0 : fin (@fsum0 f64 B) /\ B2R (@fsum0 f64 B) = 0.
  Proof. split; reflexivity. Qed.

  (** The highest and the lowest of exact inputs are exact. *)
  Lemma max_sane l : l <> [] -> Forall sane l -> sane (@max_of f64 B l).
  Proof. intros N H. eapply Forall_forall; [exact H|]. now apply max_of_in. Qed.
  Lemma min_sane l : l <> [] -> Forall sane l -> sane (@min_of f64 B l).
  Proof. intros N H. eapply Forall_forall; [exact H|]. now apply min_of_in. Qed.
  Lemma max_exact w (f : nat -> f64) i : (0 < w <= i + 1)%nat -> (forall k, (k <= i)%nat -> sane (f k)) ->
    let top := @max_of f64 B (last_bars w f i) in
    sane top /\ @max_of xr XR (last_bars w (exactly f) i) = Fin (B2R top) /\ forall k, (k <= i)%nat -> (i < k + w)%nat -> B2R (f k) <= B2R top.
  Proof.
    intros Hw H top. assert (S : Forall sane (last_bars w f i)) by (apply Forall_forall; intros x Hx; apply In_last_bars in Hx as (k & K1 & K2 & ->); [now apply H|lia]).
    assert (Hf : forall x, In x (last_bars w f i) -> fin x) by (intros x Hx; eapply Forall_forall in S; [apply S|exact Hx]).
    pose proof (last_bars_ne w f i ltac:(lia)) as Ne. destruct (max_of_fin m (last_bars w f i) Ne Hf) as [_ U]. pose proof (max_of_in m (last_bars w f i) Ne) as I. fold top in U, I.
    assert (U' : forall k, (k <= i)%nat -> (i < k + w)%nat -> B2R (f k) <= B2R top) by (intros k K1 K2; apply U; apply In_last_bars; [lia|]; now exists k).
    split; [now apply max_sane|]. split; [|exact U']. unfold exactly. rewrite x_highest by lia. f_equal.
    destruct (highest_spec w (fun k => B2R (f k)) i Hw) as [(k & K1 & K2 & E) V]. apply Rle_antisym; [rewrite E; now apply U'|].
    apply In_last_bars in I as (j & J1 & J2 & Ej); [|lia]. rewrite Ej. now apply V.
  Qed.
  Lemma min_exact w (f : nat -> f64) i : (0 < w <= i + 1)%nat -> (forall k, (k <= i)%nat -> sane (f k)) ->
    let low := @min_of f64 B (last_bars w f i) in
    sane low /\ @min_of xr XR (last_bars w (exactly f) i) = Fin (B2R low) /\ forall k, (k <= i)%nat -> (i < k + w)%nat -> B2R low <= B2R (f k).
  Proof.
    intros Hw H low. assert (S : Forall sane (last_bars w f i)) by (apply Forall_forall; intros x Hx; apply In_last_bars in Hx as (k & K1 & K2 & ->); [now apply H|lia]).
    assert (Hf : forall x, In x (last_bars w f i) -> fin x) by (intros x Hx; eapply Forall_forall in S; [apply S|exact Hx]).
    pose proof (last_bars_ne w f i ltac:(lia)) as Ne. destruct (min_of_fin m (last_bars w f i) Ne Hf) as [_ U]. pose proof (min_of_in m (last_bars w f i) Ne) as I. fold low in U, I.
    assert (U' : forall k, (k <= i)%nat -> (i < k + w)%nat -> B2R low <= B2R (f k)) by (intros k K1 K2; apply U; apply In_last_bars; [lia|]; now exists k).
    split; [now apply min_sane|]. split; [|exact U']. unfold exactly. rewrite x_lowest by lia. f_equal.
    destruct (lowest_spec w (fun k => B2R (f k)) i Hw) as [(k & K1 & K2 & E) V]. apply Rle_antisym; [|rewrite E; now apply U'].
    apply In_last_bars in I as (j & J1 & J2 & Ej); [|lia]. rewrite Ej. now apply V.
  Qed.
  Lemma near_quot j k lo lo' hi hi' x y X Y : near j lo hi x X -> near k lo' hi' y Y -> (exists b, Y = Fin b) -> few (j + k) -> (hi - lo' <= 1020)%Z -> (-1020 <= lo - hi')%Z ->
    near (S (j + k)) (lo - hi') (hi - lo') (@fdiv f64 B x y) (xdiv X Y).
  Proof. intros Hx Hy [b ->]. now apply near_div. Qed.
  Lemma sum_fin {A} (l : list A) (g : A -> xr) : (forall a, In a l -> exists r, g a = Fin r) -> forall s, exists b, fold_left (fun t a => xadd t (g a)) l (Fin s) = Fin b.
  Proof.
    induction l as [|a l IH]; intros H s; cbn [fold_left]; [now exists s|]. destruct (H a ltac:(now left)) as [r ->]. cbn [xadd]. apply IH. intros; apply H. now right.
  Qed.
  (** Multiplying by a negative literal only changes the sign. *)
  Lemma close_neg_mul K n x X lo hi : (1 <= n <= 2 ^ 20)%Z -> few (S K) -> (hi <= 900)%Z -> (-900 <= lo)%Z -> near K lo hi x X ->
    close (S K) (@fmul f64 B (@flit f64 B (- n) 1) x) (xmul (Fin (IZR (- n))) X).
  Proof.
    intros Hn Hf Hh Hl Hx r E. pose proof (near_mul m 0 K 0 lo 20 hi _ _ _ _ (near_lit n Hn) Hx ltac:(unfold few in *; lia) ltac:(lia) ltac:(lia)) as N.
    apply xmul_fin in E as (a & b & [= <-] & -> & ->). destruct (near_rel (S (0 + K)) _ _ _ (IZR n * b) ltac:(exact Hf) N) as [F V].
    destruct (Hx b eq_refl) as (Fx & _). destruct (xval_fin_inv _ _ (xval_of_Z n ltac:(lia))) as [Fn Vn]. destruct (xval_fin_inv _ _ (xval_of_Z (- n) ltac:(lia))) as [Fm Vm].
    change (@flit f64 B n 1) with (b64_of_Z n) in *. change (@flit f64 B (- n) 1) with (b64_of_Z (- n)). cbn [fmul B64] in *.
    pose proof (xval_mul _ _ Fn Fx) as P. rewrite (xval_fin _ F), Vn in P. pose proof (xval_mul _ _ Fm Fx) as Q. rewrite Vm in Q.
    replace (IZR (- n) * B2R x) with (- (IZR n * B2R x)) in Q by (rewrite opp_IZR; ring).
    assert (L : Rabs (rnd (IZR n * B2R x)) < lim). { unfold fl in P. destruct (Rltb (Rabs (rnd (IZR n * B2R x))) lim) eqn:T; [now apply Rltb_t|easy]. }
    rewrite fl_fin in P by easy. injection P as P. rewrite fl_fin in Q by (now rewrite rnd_opp, Rabs_Ropp). apply xval_fin_inv in Q as [FQ VQ]. split; [easy|].
    rewrite VQ, rnd_opp, <- P, opp_IZR. replace (- IZR n * b) with (- (IZR n * b)) by ring. rewrite Rabs_Ropp. replace (- B2R (Bmult mode_NE (b64_of_Z n) x) - - (IZR n * b)) with (- (B2R (Bmult mode_NE (b64_of_Z n) x) - IZR n * b)) by ring. now rewrite Rabs_Ropp.
  Qed.
End Pieces.

(** ** Weighted prices *)
(** Numbers of a reasonable size, none of them negative; the order within a bar. *)
Definition good (f : nat -> f64) (n : nat) : Prop := forall k, (k < n)%nat -> sane (f k) /\ 0 <= B2R (f k).
Definition bars_ok (h l c : nat -> f64) (n : nat) : Prop :=
  forall k, (k < n)%nat -> sane (h k) /\ sane (l k) /\ sane (c k) /\ B2R (l k) <= B2R (c k) <= B2R (h k).
Lemma good_near f n k : good f n -> (k < n)%nat -> near 0 (-200) 200 (f k) (exactly f k).
Proof. intros H Hk. destruct (H k Hk). now apply near_in. Qed.
Ltac small := unfold few in *; lia.

Section Fns.
  Context (m : libm).
  Notation B := (B64 m).
  Lemma near_bars w (f : nat -> f64) (g : nat -> xr) i k lo hi p s : few (k + w) -> (0 <= p)%Z -> (Z.of_nat w <= 2 ^ p)%Z -> (hi + p <= 1019)%Z ->
    (w <= i + 1)%nat -> (forall j, (j <= i)%nat -> (i < j + w)%nat -> near k lo hi (f j) (g j)) -> fin s -> B2R s = 0 ->
    near (k + w) lo (hi + p) (fold_left (@fadd f64 B) (last_bars w f i) s) (fold_left xadd (last_bars w g i) (Fin 0)).
  Proof.
    intros Hf Hp Hw Hh Hi H Fs Vs. unfold last_bars. rewrite !fold_add_map. replace (k + w)%nat with (k + length (seq (i + 1 - w) w))%nat by now rewrite seq_length.
    apply near_sum; rewrite ?seq_length; try easy. intros j Hj. apply in_seq in Hj. apply H; lia.
  Qed.
  Lemma bars_fin w (g : nat -> xr) i : (forall j, exists r, g j = Fin r) -> exists b, fold_left xadd (last_bars w g i) (Fin 0) = Fin b.
  Proof. intros H. unfold last_bars. rewrite fold_add_map. apply sum_fin. intros; apply H. Qed.

  Theorem sma_f64_accurate d n w : (0 < w)%nat -> (Z.of_nat w <= 2 ^ 48)%Z -> good d n ->
    accurate (w + 1) (@sma f64 B (series d n) w) (@sma xr XR (series (exactly d) n) w).
  Proof.
    intros Hw Hz H. destruct (@sma_values f64 B (series d n) w Hw) as (o & E & A). destruct (@sma_values xr XR (series (exactly d) n) w Hw) as (p & G & C).
    rewrite length_series in A. rewrite length_series in C. apply (accurate_aligned _ _ _ _ _ _ _ _ _ _ E A G C). intros i Hi. rewrite !last_bars_win by lia.
    replace (w + 1)%nat with (S (0 + w + 0)) by lia. eapply near_close; [small|]. apply near_quot.
    - apply (near_bars w _ _ _ 0 (-200) 200 48); try small; try apply b64_sum0. intros j J1 J2. apply (good_near d n); [easy|lia].
    - rewrite x_nat. apply near_count; lia.
    - rewrite x_nat. now eexists.
    - small.
    - lia.
    - lia.
  Qed.
  Theorem vwma_f64_accurate d v n w : (0 < w)%nat -> (Z.of_nat w <= 2 ^ 48)%Z -> good d n -> good v n ->
    accurate (2 * w + 2) (@vwma f64 B (series d n) (series v n) w) (@vwma xr XR (series (exactly d) n) (series (exactly v) n) w).
  Proof.
    intros Hw Hz Hd Hv. destruct (@vwma_values f64 B d v n w Hw) as (o & E & A). destruct (@vwma_values xr XR (exactly d) (exactly v) n w Hw) as (p & G & C).
    apply (accurate_aligned _ _ _ _ _ _ _ _ _ _ E A G C). intros i Hi. cbv beta.
    replace (2 * w + 2)%nat with (S (1 + w + (0 + w))) by lia. eapply near_close; [small|]. apply near_quot.
    - replace (1 + w)%nat with (1 + length (seq (i + 1 - w) w))%nat by now rewrite seq_length.
      rewrite !x_lit. apply (near_sum m 1 (-400) 400 48 _ (fun k => @fmul f64 B (d k) (v k)) (fun k => xmul (exactly d k) (exactly v k))); rewrite ?seq_length; try small; try apply b64_zero0. intros j Hj. apply in_seq in Hj.
      apply (near_mul m 0 0 (-200) (-200) 200 200); try small; apply (good_near _ n); easy || lia.
    - apply (near_bars w _ _ _ 0 (-200) 200 48); try small; try apply b64_sum0. intros j J1 J2. apply (good_near v n); [easy|lia].
    - apply bars_fin. intros j. now eexists.
    - small.
    - lia.
    - lia.
  Qed.
  (** The price of a bar. *)
  Lemma near_typical h l c n k : good h n -> good l n -> good c n -> (k < n)%nat ->
    near 3 (-220) 202 (@fdiv f64 B (@fadd f64 B (@fadd f64 B (h k) (l k)) (c k)) (@flit f64 B 3 1))
      (@fdiv xr XR (@fadd xr XR (@fadd xr XR (exactly h k) (exactly l k)) (exactly c k)) (@flit xr XR 3 1)).
  Proof.
    intros Hh Hl Hc Hk. rewrite x_lit. eapply near_weaken.
    - apply near_quot; [eapply near_add; [eapply near_add; [now apply (good_near _ n)|now apply (good_near _ n)|small|lia]|now apply (good_near _ n)|small|lia]|apply (near_lit m 3); lia|now eexists|small|lia|lia].
    - cbn. lia.
    - cbn. lia.
    - cbn. lia.
  Qed.

  Lemma f2_close_series K (f : nat -> f64) (g : nat -> xr) n : (forall i, (i < n)%nat -> close K (f i) (g i)) -> Forall2 (close K) (series f n) (series g n).
  Proof. intros H. unfold series. apply f2_same. intros i Hi. apply in_seq in Hi. apply H. lia. Qed.
  Theorem wcp_f64_accurate h l c n : good h n -> good l n -> good c n ->
    Forall2 (close 3) (@wcp f64 B (series h n) (series l n) (series c n)) (@wcp xr XR (series (exactly h) n) (series (exactly l) n) (series (exactly c) n)).
  Proof.
    intros Hh Hl Hc. rewrite !wcp_values. apply f2_close_series. intros i Hi. rewrite !x_lit. eapply near_close; [|eapply near_weaken].
    - small.
    - apply near_quot; [eapply near_add; [eapply near_add; [now apply (good_near _ n)|now apply (good_near _ n)|small|lia]|
        eapply near_mul; [apply (near_lit m 2); lia|now apply (good_near _ n)|small|lia|lia]|small|lia]|apply (near_lit m 4); lia|now eexists|small|lia|lia].
    - cbn. lia.
    - apply Z.le_refl.
    - apply Z.le_refl.
  Qed.
  Theorem typical_f64_accurate h l c n w : (0 < w)%nat -> (Z.of_nat w <= 2 ^ 48)%Z -> good h n -> good l n -> good c n ->
    accurate (w + 4) (@typical f64 B (series h n) (series l n) (series c n) w) (@typical xr XR (series (exactly h) n) (series (exactly l) n) (series (exactly c) n) w).
  Proof.
    intros Hw Hz Hh Hl Hc. unfold typical, hlc3. rewrite !zip3_series, !map_map.
    set (f := fun k => @fdiv f64 B (@fadd f64 B (@fadd f64 B (h k) (l k)) (c k)) (@flit f64 B 3 1)). set (g := fun k => @fdiv xr XR (@fadd xr XR (@fadd xr XR (exactly h k) (exactly l k)) (exactly c k)) (@flit xr XR 3 1)).
    change (accurate (w + 4) (@sma f64 B (series f n) w) (@sma xr XR (series g n) w)).
    destruct (@sma_values f64 B (series f n) w Hw) as (o & E & A). destruct (@sma_values xr XR (series g n) w Hw) as (p & G & C).
    rewrite length_series in A. rewrite length_series in C. apply (accurate_aligned _ _ _ _ _ _ _ _ _ _ E A G C). intros i Hi. rewrite !last_bars_win by lia.
    replace (w + 4)%nat with (S (3 + w + 0)) by lia. eapply near_close; [small|]. apply near_quot.
    - apply (near_bars w f g _ 3 (-220) 202 48); try small; try apply b64_sum0. intros j J1 J2. apply (near_typical h l c n); easy || lia.
    - rewrite x_nat. apply near_count; lia.
    - rewrite x_nat. now eexists.
    - small.
    - lia.
    - lia.
  Qed.
  Theorem bw_mfi_f64_accurate h l v n : (forall k, (k < n)%nat -> sane (h k) /\ sane (l k) /\ B2R (l k) <= B2R (h k)) -> good v n ->
    Forall2 (close 3) (@bw_mfi f64 B (series h n) (series l n) (series v n)) (@bw_mfi xr XR (series (exactly h) n) (series (exactly l) n) (series (exactly v) n)).
  Proof.
    intros H Hv. rewrite !bw_mfi_values. apply f2_close_series. intros i Hi. rewrite !x_lit. destruct (H i Hi) as (Sh & Sl & L). unfold exactly at 1 2. rewrite x_sub.
    change 3%nat with (S (S (1 + 0) + 0)). eapply near_close; [small|]. eapply near_mul; [eapply near_quot; [now apply near_sub|now apply (good_near _ n)|now eexists|small|lia|lia]|apply (near_lit m 1000000); lia|small|lia|lia].
  Qed.
End Fns.
