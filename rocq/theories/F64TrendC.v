(** * F64TrendC: aroon in one-way markets, in binary64. *)
From Coq Require Import Reals Lra Lia List ZArith.
From Flocq Require Import Core IEEE754.BinarySingleNaN.
From Verif Require Import Spec BaseFacts Tac XReal RSpec XRFacts Bars B64 F64 Trend TrendReal F64Facts F64Range F64Osc F64Tau Mono ForgetB F64Trend F64TrendB.
Import ListNotations.
Local Unset Implicit Arguments.
Local Open Scope R_scope.

(** Every value is at least the one before it; at most the one before it (none is NaN). *)
Definition climbing (n : nat) (f : nat -> f64) : Prop := forall k, (S k < n)%nat -> Bleb (f k) (f (S k)) = true.
Definition sinking (n : nat) (f : nat -> f64) : Prop := forall k, (S k < n)%nat -> Bleb (f (S k)) (f k) = true.

(** The index of the last extreme when each item beats the one before, and when none beats the first. *)
Lemma arg_end {F} {O : FOps F} (better : F -> F -> bool) (f : nat -> F) m : better (f 0%nat) (f 0%nat) = true -> (forall k, (k < m)%nat -> better (f (S k)) (f k) = true) ->
  arg_last better (map f (seq 0 (S m))) = m.
Proof.
  intros H0 H. unfold arg_last. rewrite enumerate_bars. change (at_ (map f (seq 0 (S m))) 0) with (f 0%nat).
  assert (G : forall j, (j <= m)%nat -> fold_left (fun '(bi, bx) '(i, x) => if better x bx then (i, x) else (bi, bx)) (map (fun k => (k, f k)) (seq 0 (S j))) (0%nat, f 0%nat) = (j, f j)).
  { induction j as [|j IH]; intros Hj; [cbn; now rewrite H0|]. rewrite seq_S, map_app, fold_left_app, IH by lia. cbn [map fold_left plus]. now rewrite H by lia. }
  now rewrite G.
Qed.
Lemma arg_start {F} {O : FOps F} (better : F -> F -> bool) (f : nat -> F) m : (forall k, (0 < k <= m)%nat -> better (f k) (f 0%nat) = false) ->
  arg_last better (map f (seq 0 (S m))) = 0%nat.
Proof.
  intros H. unfold arg_last. rewrite enumerate_bars. change (at_ (map f (seq 0 (S m))) 0) with (f 0%nat).
  assert (G : forall j, (j <= m)%nat -> fold_left (fun '(bi, bx) '(i, x) => if better x bx then (i, x) else (bi, bx)) (map (fun k => (k, f k)) (seq 0 (S j))) (0%nat, f 0%nat) = (0%nat, f 0%nat)).
  { induction j as [|j IH]; intros Hj; [cbn; now destruct (better _ _)|]. rewrite seq_S, map_app, fold_left_app, IH by lia. cbn [map fold_left plus]. now rewrite H by lia. }
  now rewrite G.
Qed.
Lemma leb_refl_l (x y : f64) : Bleb x y = true -> Bleb x x = true.
Proof. rewrite !leb_xval. destruct (xval x) as [r|[]|], (xval y) as [q|[]|]; cbn; try easy; intros _; apply Rleb_t; lra. Qed.
Lemma leb_refl_r (x y : f64) : Bleb x y = true -> Bleb y y = true.
Proof. rewrite !leb_xval. destruct (xval x) as [r|[]|], (xval y) as [q|[]|]; cbn; try easy; intros _; apply Rleb_t; lra. Qed.
Lemma ltb_not_leb (x y : f64) : Bltb x y = true -> Bleb y x = false.
Proof. rewrite ltb_xval, leb_xval. destruct (xval x) as [r|[]|], (xval y) as [q|[]|]; cbn; try easy. rewrite Rltb_t. intros H. destruct (Rleb q r) eqn:E; [|easy]. apply Rleb_t in E. lra. Qed.
Lemma ltb_trans (x y z : f64) : Bltb x y = true -> Bltb y z = true -> Bltb x z = true.
Proof. rewrite !ltb_xval. destruct (xval x) as [r|[]|], (xval y) as [q|[]|], (xval z) as [p|[]|]; cbn; try easy. rewrite !Rltb_t. lra. Qed.
Lemma all_up_lt n f a b : all_up n f -> (a < b < n)%nat -> Bltb (f a) (f b) = true.
Proof. intros H [L B]. induction b as [|b IH]; [lia|]. destruct (Nat.eq_dec a b) as [->|]; [now apply H|]. apply ltb_trans with (f b); [apply IH; lia|now apply H]. Qed.
Lemma all_down_lt n f a b : all_down n f -> (a < b < n)%nat -> Bltb (f b) (f a) = true.
Proof. intros H [L B]. induction b as [|b IH]; [lia|]. destruct (Nat.eq_dec a b) as [->|]; [now apply H|]. apply ltb_trans with (f b); [now apply H|apply IH; lia]. Qed.

Lemma window_bars {A} (f : nat -> A) w i : (w <= i)%nat -> last_bars (w + 1) f i = map (fun k => f (i - w + k)%nat) (seq 0 (S w)).
Proof.
  intros H. unfold last_bars. rewrite (shift_bars (i - w) (fun k => f (i - w + k)%nat) 0). cbn [plus]. replace (i + 1 - (w + 1))%nat with (i - w)%nat by lia. rewrite Nat.add_1_r. apply map_ext_in. intros k Hk. apply in_seq in Hk. f_equal. lia.
Qed.
Lemma share_100 m w : (0 < w)%nat -> (Z.of_nat w <= 2 ^ 53)%Z -> @fmul f64 (B64 m) (fdiv (fofnat w) (fofnat w)) (flit 100 1) = b64_of_Z 100.
Proof.
  intros Hw Hb. cbn [fmul fdiv B64]. pose proof (xval_nat m w Hb) as V. apply xval_fin_inv in V as [Fw Vw]. assert (0 < INR w) by now apply lt_0_INR.
  assert (Q : is_int 1 (Bdiv mode_NE (@fofnat f64 (B64 m) w) (@fofnat f64 (B64 m) w))) by (unfold is_int; rewrite xval_div by (easy || lra); unfold Rdiv; rewrite Rinv_r by lra; now apply (fl_Z 1)).
  apply int_is; [easy|easy|]. apply (int_mul 1 100); [exact Q|now apply xval_of_Z|easy].
Qed.
Lemma share_0 m w : (0 < w)%nat -> @fmul f64 (B64 m) (fdiv (fofnat 0) (fofnat w)) (flit 100 1) = B754_zero false.
Proof.
  intros Hw. change (@fofnat f64 (B64 m) 0) with (B754_zero false : f64). cbn [fmul fdiv B64]. pose proof (pos_nat m w Hw) as P. destruct (fofnat w) as [s|[]| |[] p e B]; try easy; try (now destruct s).
Qed.
Theorem aroon_f64_trend m h l n w : (0 < w)%nat -> (Z.of_nat w <= 2 ^ 53)%Z -> exists o, @aroon f64 (B64 m) (series h n) (series l n) w = Ok o /\
  (climbing n h -> aligned (map fst o) n w B754_nan (fun _ => b64_of_Z 100)) /\ (all_down n h -> aligned (map fst o) n w B754_nan (fun _ => B754_zero false)) /\
  (all_up n l -> aligned (map snd o) n w B754_nan (fun _ => B754_zero false)) /\ (sinking n l -> aligned (map snd o) n w B754_nan (fun _ => b64_of_Z 100)).
Proof.
  intros Hw Hb. unfold aroon. eexists. split; [reflexivity|].
  assert (A : aligned (pad w (@fnan f64 (B64 m), @fnan f64 (B64 m)) ++ map (aroon_win w) (combine (windows (w + 1) (series h n)) (windows (w + 1) (series l n)))) n w (@fnan f64 (B64 m), @fnan f64 (B64 m))
    (fun i => aroon_win w (last_bars (w + 1) h i, last_bars (w + 1) l i))).
  { unfold series. rewrite !windows_bars by lia. rewrite combine_bars, Nat.min_id, map_map. replace (0 + (w + 1) - 1)%nat with w by lia. apply aligned_bars_ext; [lia|]. easy. }
  pose proof (aligned_of fst _ _ _ _ _ A) as A1. pose proof (aligned_of snd _ _ _ _ _ A) as A2. clear A. cbn [fst snd] in A1, A2.
  split; [|split; [|split]]; intros H; [revert A1|revert A1|revert A2|revert A2]; apply aligned_ext; intros i Hi; cbn beta; unfold aroon_win; cbn [fst snd]; rewrite window_bars by lia.
  - rewrite arg_end; [now apply share_100| |].
    + unfold fgeb. destruct w as [|w]; [lia|]. apply (leb_refl_l _ (h (S (i - S w + 0)))). apply H. lia.
    + intros k Hk. unfold fgeb. rewrite Nat.add_succ_r. apply H. lia.
  - rewrite arg_start; [now apply share_0|]. intros k Hk. unfold fgeb. apply ltb_not_leb, (all_down_lt n h); [exact H|lia].
  - rewrite arg_start; [now apply share_0|]. intros k Hk. apply ltb_not_leb, (all_up_lt n l); [exact H|lia].
  - rewrite arg_end; [now apply share_100| |].
    + destruct w as [|w]; [lia|]. apply (leb_refl_r (l (S (i - S w + 0)))). apply H. lia.
    + intros k Hk. rewrite Nat.add_succ_r. apply H. lia.
Qed.

(** ** adx: one line is zero and the smoothed index exactly 100 (or NaN) *)
Lemma wilder_hundreds m data s o : (100 * Z.of_nat s <= 2 ^ 53)%Z -> @wilder f64 (B64 m) data s = Ok o -> (forall x, In x data -> exact_or_nan 100 x) -> forall x, In x o -> exact_or_nan 100 x.
Proof.
  unfold wilder. intros Hs E H x Hx. destruct (s =? 1)%nat eqn:S1; [injection E as <-; now apply H|]. apply Nat.eqb_neq in S1. unfold usub in E. destruct (1 <=? s)%nat eqn:S0; cbn [bind] in E; [|easy]. apply Nat.leb_le in S0.
  unfold slice_to, slice_from in E. destruct (s - 1 <=? length data)%nat eqn:L; cbn [bind] in E; [|easy]. apply Nat.leb_le in L. injection E as <-. apply in_app_iff in Hx as [Hx|Hx]; [apply in_pad in Hx; now right|].
  assert (Q : forall j (y : f64), (0 < j)%nat -> (100 * Z.of_nat j <= 2 ^ 53)%Z -> is_int (100 * Z.of_nat j) y \/ y = B754_nan -> exact_or_nan 100 (@fdiv f64 (B64 m) y (fofnat j))).
  { intros j y Hj Bj [I| ->]; [left|right; apply nan_div_l]. apply int_is; [easy|easy|]. pose proof (xval_nat m j ltac:(lia)) as V. apply xval_fin_inv in V as [Fj Vj]. apply xval_fin_inv in I as [Fy Vy]. assert (0 < INR j) by now apply lt_0_INR.
    unfold is_int. cbn [fdiv B64]. rewrite xval_div by (easy || lra). rewrite Vy, Vj, mult_IZR, <- INR_IZR_INZ. replace (100 * INR j / INR j) with 100 by (field; lra). now apply (fl_Z 100). }
  assert (SF : forall l, (100 * Z.of_nat (length l) <= 2 ^ 53)%Z -> (forall y, In y l -> exact_or_nan 100 y) -> is_int (100 * Z.of_nat (length l)) (@fsum f64 (B64 m) l) \/ @fsum f64 (B64 m) l = B754_nan).
  { clear. intros l. unfold fsum. assert (G : forall l j (a : f64), (100 * Z.of_nat (j + length l) <= 2 ^ 53)%Z -> (forall y, In y l -> exact_or_nan 100 y) -> is_int (100 * Z.of_nat j) a \/ a = B754_nan -> is_int (100 * Z.of_nat (j + length l)) (fold_left (@fadd f64 (B64 m)) l a) \/ fold_left (@fadd f64 (B64 m)) l a = B754_nan).
    { clear l. induction l as [|b l IH]; intros j a B H A; cbn [fold_left length] in *; [now rewrite Nat.add_0_r|]. replace (j + S (length l))%nat with (S j + length l)%nat in * by lia. apply IH; [exact B|intros; apply H; now right|].
      destruct A as [A| ->]; [|right; apply nan_plus_l]. destruct (H b (or_introl eq_refl)) as [-> | ->]; [left|right; apply nan_plus_r]. replace (100 * Z.of_nat (S j))%Z with (100 * Z.of_nat j + 100)%Z by lia. apply int_add; [exact A|now apply xval_of_Z|lia]. }
    intros B H. apply (G l 0%nat _ B H). left. reflexivity. }
  revert x Hx. apply (in_scan _ (exact_or_nan 100)).
  - apply Q; [lia|lia|]. replace (s - 1)%nat with (length (firstn (s - 1) data)) at 1 by (rewrite firstn_length; lia). apply SF; [rewrite firstn_length; lia|]. intros y Hy. apply firstn_in in Hy. now apply H.
  - intros st a Ha Hst. assert (N : exact_or_nan 100 (@fdiv f64 (B64 m) (fadd (fmul st (fofnat (s - 1))) a) (fofnat s))); [|easy]. apply Q; [lia|lia|].
    apply skipn_in, H in Ha. destruct Hst as [-> | ->]; [|right; cbn [fadd fmul B64]; now rewrite nan_mult_l, nan_plus_l]. destruct Ha as [-> | ->]; [left|right; apply nan_plus_r].
    replace (100 * Z.of_nat s)%Z with (100 * Z.of_nat (s - 1) + 100)%Z by lia. apply int_add; [|now apply xval_of_Z|lia]. apply int_mul; [now apply xval_of_Z| |lia]. unfold is_int. rewrite (xval_nat m) by lia. now rewrite INR_IZR_INZ.
Qed.

Lemma one_sided m (x y : f64) : inr 0 100 x -> zero_or_nan y -> exact_or_nan 100 (@dx_ratio f64 (B64 m) (x, y)) /\ exact_or_nan 100 (@dx_ratio f64 (B64 m) (y, x)).
Proof.
  intros Hx Hy. unfold dx_ratio. apply inr_cases in Hx as [-> |[Fx Bx]]; [split; right; cbn [fmul fdiv fadd fsub fabs B64]; now rewrite ?nan_plus_l, ?nan_plus_r, ?nan_div_r, ?nan_mult_l|].
  destruct Hy as [-> |[s ->]]; [split; right; cbn [fmul fdiv fadd fsub fabs B64]; now rewrite ?nan_plus_l, ?nan_plus_r, ?nan_div_r, ?nan_mult_l|].
  assert (P : forall z : f64, exact_or_nan 1 z -> exact_or_nan 100 (@fmul f64 (B64 m) z (flit 100 1))) by (intros z; apply (mul_100 m 1); now left).
  destruct x as [t|t| |t p e B]; try easy; [split; apply P; right; now destruct s, t|]. destruct t; [exfalso; assert (B2R (B754_finite true p e B) < 0) by (now apply F2R_lt_0); lra|].
  split; apply P; exact (div_self (B754_finite false p e B)).
Qed.
Theorem adx_f64_trend m (h l c : nat -> f64) n w s o : (Z.of_nat w <= 2 ^ 53)%Z -> (100 * Z.of_nat s <= 2 ^ 53)%Z -> (0 < n)%nat -> fbars h l c n ->
  @adx f64 (B64 m) (series h n) (series l n) (series c n) w s = Ok o ->
  (no_dip n l -> forall p q a, In (p, q, a) o -> zero_or_nan q /\ exact_or_nan 100 a) /\
  (no_gain n h -> forall p q a, In (p, q, a) o -> zero_or_nan p /\ exact_or_nan 100 a).
Proof.
  intros Hw Hs Hn H E. unfold adx in E. rewrite bar_pairs_series in E by easy. cbn [bind] in E.
  destruct (wilder (map bar_tr _) w) as [at_r|] eqn:ET; cbn [bind] in E; [|easy]. destruct (wilder (map dm_pos _) w) as [wp|] eqn:EP; cbn [bind] in E; [|easy]. destruct (wilder (map dm_neg _) w) as [wn|] eqn:EN; cbn [bind] in E; [|easy].
  destruct (usub w 1) as [k|]; cbn [bind] in E; [|easy]. destruct (slice_from (map di_ratio (combine wp at_r)) k) as [dp|] eqn:SP; cbn [bind] in E; [|easy]. destruct (slice_from (map di_ratio (combine wn at_r)) k) as [dn|] eqn:SN; cbn [bind] in E; [|easy]. destruct (wilder _ s) as [ad|] eqn:EA; cbn [bind] in E; [|easy]. injection E as <-.
  match type of ET with wilder (map _ ?b) _ = _ => set (bars := b) in * end.
  assert (D : forall x, In x bars -> lee (@dm_pos f64 (B64 m) x) (@bar_tr f64 (B64 m) x) /\ lee (@dm_neg f64 (B64 m) x) (@bar_tr f64 (B64 m) x)).
  { intros x Hx. apply in_map_iff in Hx as (j & <- & Hj). apply in_seq in Hj. destruct (H j ltac:(lia)) as (F1 & F2 & _ & B1). destruct (H (j - 1)%nat ltac:(lia)) as (F4 & F5 & F6 & B2). apply dm_le_tr; try easy. lra. }
  assert (DI : forall wx f, wilder (map f bars) w = Ok wx -> (forall x, In x bars -> lee (f x) (@bar_tr f64 (B64 m) x)) -> forall x, In x (map di_ratio (combine wx at_r)) -> inr 0 100 x).
  { intros wx f EX L x Hx. apply in_map_iff in Hx as ((u & v) & <- & Hx). pose proof (wilder_f64_ordered m f bar_tr bars w wx at_r Hw EX ET L _ Hx) as Q. cbn [fst snd di_ratio] in *. apply (inr_weaken (0 * 100) (1 * 100)); [|lra|lra]. cbn [fdiv fmul B64]. apply inr_scale; [now apply lee_part|now apply (xval_of_Z 100)|lra|rewrite Rmult_0_l; now apply (rep_Z 0)|rewrite Rmult_1_l; now apply (rep_Z 100)]. }
  assert (ZI : forall wx f, @wilder f64 (B64 m) (map f bars) w = Ok wx -> (forall x, In x bars -> f x = B754_zero false) -> forall x, In x (map di_ratio (combine wx at_r)) -> zero_or_nan x).
  { intros wx f EX L x Hx. apply in_map_iff in Hx as ((u & v) & <- & Hx). cbn [di_ratio]. apply zn_mul, zn_div. apply (zn_wilder m _ _ _ EX); [|eapply in_combine_l, Hx]. intros y Hy. apply in_map_iff in Hy as (b & <- & Hb). rewrite (L b Hb). right. now exists false. }
  assert (SL : forall A (l l' : list A) y, slice_from l k = Ok l' -> In y l' -> In y l) by (intros A l0 l' y; unfold slice_from; destruct (_ <=? _)%nat; [|easy]; intros [= <-]; apply skipn_in).
  assert (DP := DI wp dm_pos EP ltac:(intros; now apply D)). assert (DN := DI wn dm_neg EN ltac:(intros; now apply D)).
  split; intros C p q a Hi; (destruct Hi as [[= <- <- <-]|Hi]; [split; [now left|now right]|]); unfold zip3 in Hi; pose proof (in_combine_l _ _ _ _ Hi) as I1; pose proof (in_combine_r _ _ _ _ Hi) as I2; pose proof (in_combine_l _ _ _ _ I1) as I3; pose proof (in_combine_r _ _ _ _ I1) as I4.
  - assert (Z := ZI wn dm_neg EN). specialize (Z ltac:(intros x Hx; apply in_map_iff in Hx as (j & <- & Hj); apply in_seq in Hj; unfold dm_neg; rewrite max_below; [now destruct (fgtb _ _)|replace (l j) with (l (S (j - 1))) by (f_equal; lia); apply C; lia])).
    split; [now apply Z|]. apply in_app_iff in I2 as [I2|I2]; [apply in_pad in I2; now right|]. revert I2. apply (wilder_hundreds m _ s ad Hs EA). intros x Hx. apply in_map_iff in Hx as ((u & v) & <- & Hx).
    refine (proj1 (one_sided m u v _ _)); [exact (DP u (SL _ _ _ _ SP (in_combine_l _ _ _ _ Hx)))|exact (Z v (SL _ _ _ _ SN (in_combine_r _ _ _ _ Hx)))].
  - assert (Z := ZI wp dm_pos EP). specialize (Z ltac:(intros x Hx; apply in_map_iff in Hx as (j & <- & Hj); apply in_seq in Hj; unfold dm_pos; rewrite max_below; [now destruct (fgtb _ _)|replace (h j) with (h (S (j - 1))) by (f_equal; lia); apply C; lia])).
    split; [now apply Z|]. apply in_app_iff in I2 as [I2|I2]; [apply in_pad in I2; now right|]. revert I2. apply (wilder_hundreds m _ s ad Hs EA). intros x Hx. apply in_map_iff in Hx as ((u & v) & <- & Hx).
    refine (proj2 (one_sided m v u _ _)); [exact (DN v (SL _ _ _ _ SN (in_combine_r _ _ _ _ Hx)))|exact (Z u (SL _ _ _ _ SP (in_combine_l _ _ _ _ Hx)))].
Qed.
