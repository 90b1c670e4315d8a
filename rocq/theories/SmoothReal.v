(** * The moving averages in exact arithmetic. *)

From Verif Require Export SmoothVals XRFacts.
Local Unset Implicit Arguments.
Local Open Scope R_scope.

(** ** Windows of an aligned series *)

Lemma win_aligned {B} (o : list B) n k na f w i :
  aligned o n k na f -> (k + w <= i + 1)%nat -> (i < n)%nat ->
  win w o i = map f (seq (i + 1 - w) w).
Proof.
  intros (L & _ & V) H1 H2. apply nth_error_ext. intros j.
  destruct (le_lt_dec w j) as [Hj|Hj].
  - rewrite (proj2 (nth_error_None (win w o i) j)) by (unfold win; rewrite firstn_length; lia).
    symmetry. apply nth_error_None. rewrite map_length, seq_length. lia.
  - rewrite nth_error_win by easy. rewrite nth_error_map', nth_error_seq by easy.
    rewrite V by lia. reflexivity.
Qed.
Lemma win_aligned_warm {B} (o : list B) n k na f w i :
  aligned o n k na f -> (w <= i + 1)%nat -> (i + 1 < k + w)%nat -> (0 < w)%nat ->
  In na (win w o i).
Proof.
  intros (L & W & V) H1 H2 H3. apply nth_error_In with (n := O). rewrite nth_error_win by easy.
  apply W. lia.
Qed.

(** A NaN anywhere in a sum makes it NaN. *)
Lemma fold_add_nan l : fold_left fadd l NaN = NaN.
Proof. induction l; cbn [fold_left]; [easy|]. now rewrite x_add_nan_l. Qed.
Lemma fold_add_nan_in l a : In NaN l -> fold_left fadd l a = NaN.
Proof.
  revert a. induction l as [|x l IH]; intros a H; [easy|]. destruct H as [-> | H]; cbn [fold_left].
  - now rewrite x_add_nan_r, fold_add_nan.
  - now apply IH.
Qed.

(** Replace the values of an aligned output on an interval. *)
Lemma aligned_late {B} (o : list B) n k k' na f g :
  aligned o n k na f -> (k <= k' <= n)%nat ->
  (forall i, (k <= i < k')%nat -> f i = na) ->
  (forall i, (k' <= i < n)%nat -> f i = g i) ->
  aligned o n k' na g.
Proof.
  intros (L & W & V) Hk Hna Hg. split; [lia|split].
  - intros i Hi. destruct (le_lt_dec k i); [|now apply W].
    rewrite V by lia. f_equal. apply Hna. lia.
  - intros i Hi. rewrite V by lia. f_equal. apply Hg. lia.
Qed.

(** ** sma *)

Theorem sma_real (l : list R) w : (0 < w)%nat ->
  exists o, sma (map Fin l) w = Ok o /\
  aligned o (length l) (w - 1) NaN (fun i => Fin (mean (win w l i))).
Proof.
  intros Hw. destruct (sma_values (map Fin l) w Hw) as (o & E & A).
  exists o. split; [easy|]. rewrite map_length in A. revert A. apply aligned_ext.
  intros i Hi. rewrite x_win. fold (fsum (map Fin (win w l i))).
  rewrite x_fsum, x_nat, x_div by (apply INR_neq0; lia). unfold mean.
  rewrite length_win by lia. reflexivity.
Qed.

(** ** weighted windows *)

Lemma wsum_scale c ws x : wsum (map (fun a => a * c) ws) x = wsum ws x * c.
Proof.
  unfold wsum. revert x. induction ws as [|a ws IH]; intros [|b x]; cbn [map combine fst snd];
    rewrite ?Rsum_nil, ?Rsum_cons; try lra. rewrite IH. lra.
Qed.
Lemma x_wdot ws x : wdot (map Fin ws) (map Fin x) = Fin (wsum ws x).
Proof.
  unfold wdot. fold (fsum (map (fun '(v, c) => fmul v c) (combine (map Fin x) (map Fin ws)))).
  replace (map _ (combine (map Fin x) (map Fin ws))) with
    (map Fin (map (fun p => fst p * snd p) (combine ws x))).
  - apply x_fsum.
  - revert x. induction ws as [|a ws IH]; intros [|b x]; cbn [map combine fst snd]; try easy.
    rewrite IH, x_mul. now rewrite Rmult_comm.
Qed.
Lemma x_wdot_div ws d x : d <> 0 ->
  wdot (map (fun a => fdiv (Fin a) (Fin d)) ws) (map Fin x) = Fin (wsum ws x / d).
Proof.
  intros Hd. replace (map (fun a => fdiv (Fin a) (Fin d)) ws)
    with (map Fin (map (fun a => a * / d) ws)).
  - rewrite x_wdot, wsum_scale. reflexivity.
  - rewrite map_map. apply map_ext. intros a. now rewrite x_div.
Qed.
Lemma wdot_nan ws x : length ws = length x -> In NaN x -> wdot ws x = NaN.
Proof.
  intros L H. unfold wdot. apply fold_add_nan_in.
  revert x L H. induction ws as [|a ws IH]; intros [|b x] L H; try easy.
  cbn [combine map]. destruct H as [-> | H]; [left; now rewrite x_mul_nan_l|].
  right. apply IH; [now injection L | easy].
Qed.

Lemma Rsum_seq n : Rsum (map INR (seq 1 n)) = INR n * (INR n + 1) / 2.
Proof.
  induction n as [|n IH]; [cbn; lra|]. rewrite seq_S, map_app, Rsum_app, IH. cbn [map].
  rewrite Rsum_cons, Rsum_nil. replace (INR (1 + n)) with (INR n + 1) by (rewrite <- S_INR; reflexivity).
  rewrite S_INR. lra.
Qed.

Lemma wma_den w : fdiv (fofN (N.of_nat w * N.of_nat w + N.of_nat w)) (@flit xr XR 2 1)
  = Fin (INR w * (INR w + 1) / 2).
Proof.
  rewrite x_lit. cbn. unfold xofN. rewrite (proj2 (Req_false 2 0)) by lra.
  f_equal. rewrite N2Z.inj_add, N2Z.inj_mul, nat_N_Z, plus_IZR, mult_IZR, <- INR_IZR_INZ. lra.
Qed.

Theorem wma_real (l : list R) w : (0 < w)%nat -> (N.of_nat w < 2 ^ 32)%N ->
  exists o, wma (map Fin l) w = Ok o /\
  aligned o (length l) (w - 1) NaN (fun i => Fin (wmean (map INR (seq 1 w)) (win w l i))).
Proof.
  intros Hw Hb. destruct (wma_values (map Fin l) w Hw Hb) as (o & E & A).
  exists o. split; [easy|]. rewrite map_length in A. revert A. apply aligned_ext.
  intros i Hi. rewrite x_win, wma_den. unfold wmean. rewrite Rsum_seq.
  rewrite <- x_wdot_div.
  - rewrite map_map. f_equal. apply map_ext. intros k. now rewrite x_nat.
  - pose proof (INR_pos w Hw). nra.
Qed.

(** A NaN in the window makes the weighted sum NaN. *)
Lemma wma_nan (data : list xr) w o : wma data w = Ok o ->
  forall i, (w - 1 <= i < length data)%nat -> In NaN (win w data i) -> nth_error o i = Some NaN.
Proof.
  intros E i Hi Hn. assert (Hok := wma_outcome data w).
  destruct Hok as [[_ P]|[NB _]]; [congruence|].
  destruct (wma_values data w) as (o' & E' & (_ & _ & V)); [lia|lia|].
  rewrite E in E'. injection E' as <-. rewrite V by easy. f_equal. apply wdot_nan; [|easy].
  rewrite map_length, seq_length, length_win; lia.
Qed.

(** ** pwma *)

Definition RN (n : N) : R := IZR (Z.of_N n).
Lemma RN_add a b : RN (a + b) = RN a + RN b.
Proof. unfold RN. now rewrite N2Z.inj_add, plus_IZR. Qed.
Lemma RN_mul a b : RN (a * b) = RN a * RN b.
Proof. unfold RN. now rewrite N2Z.inj_mul, mult_IZR. Qed.
Lemma RN_nonneg a : 0 <= RN a.
Proof. unfold RN. apply IZR_le. lia. Qed.
Lemma RN_pos a : (0 < a)%N -> 0 < RN a.
Proof. unfold RN. intros. apply IZR_lt. lia. Qed.

Lemma binom_diag n : binom n n = 1%N.
Proof.
  induction n as [|n IH]; [easy|]. cbn [binom]. rewrite IH, binom_gt by lia. reflexivity.
Qed.
Lemma binom_0_S k : binom 0 (S k) = 0%N.
Proof. reflexivity. Qed.
Lemma Rsum_binom n : Rsum (map (fun k => RN (binom n k)) (seq 0 (S n))) = RN (2 ^ N.of_nat n).
Proof.
  induction n as [|n IH]; [cbn; unfold RN; cbn; lra|].
  change (seq 0 (S (S n))) with (0%nat :: seq 1 (S n)). cbn [map]. rewrite Rsum_cons, binom_n_0.
  rewrite <- seq_shift, map_map.
  rewrite (map_ext _ (fun k => RN (binom n k) + RN (binom n (S k))))
    by (intros k; cbn [binom]; apply RN_add).
  rewrite Rsum_map_add.
  replace (2 ^ N.of_nat (S n))%N with (2 ^ N.of_nat n + 2 ^ N.of_nat n)%N
    by (rewrite Nat2N.inj_succ, N.pow_succ_r'; lia).
  rewrite RN_add, <- IH.
  assert (X : Rsum (map (fun k => RN (binom n (S k))) (seq 0 (S n)))
    = Rsum (map (fun k => RN (binom n k)) (seq 0 (S n))) - 1).
  { rewrite seq_S at 1. rewrite map_app, Rsum_app. cbn [map Nat.add]. rewrite (binom_gt n (S n)) by lia.
    rewrite Rsum_cons, Rsum_nil. cbn [seq map]. rewrite Rsum_cons, binom_n_0.
    rewrite <- seq_shift, map_map. unfold RN at 2 3. cbn. lra. }
  rewrite X. unfold RN at 1. cbn -[seq]. lra.
Qed.

Theorem pwma_real (l : list R) w : (0 < w < 64)%nat ->
  exists o, pwma (map Fin l) w = Ok o /\
  aligned o (length l) (w - 1) NaN
    (fun i => Fin (wmean (map (fun k => IZR (Z.of_N (binom (w - 1) k))) (seq 0 w)) (win w l i))).
Proof.
  intros Hw. destruct (pwma_values (map Fin l) w Hw) as (o & E & A).
  exists o. split; [easy|]. rewrite map_length in A. revert A. apply aligned_ext.
  intros i Hi. rewrite x_win. fold RN. unfold wmean.
  assert (S1 : Rsum (map (fun k => IZR (Z.of_N (binom (w - 1) k))) (seq 0 w)) = RN (2 ^ N.of_nat (w - 1))).
  { rewrite <- Rsum_binom. replace (S (w - 1)) with w by lia. reflexivity. }
  rewrite S1, <- x_wdot_div.
  - rewrite map_map. reflexivity.
  - assert (0 < RN (2 ^ N.of_nat (w - 1))); [|lra]. apply RN_pos.
    apply N.neq_0_lt_0, N.pow_nonzero. easy.
Qed.

(** ** fwma *)

Lemma fib_SS n : fib (S (S n)) = (fib (S n) + fib n)%nat.
Proof. reflexivity. Qed.
Lemma x_fib_seq m : fib_seq m = map (fun k => Fin (INR (fib k))) (seq 1 (m + 2)).
Proof.
  unfold fib_seq. replace (m + 2)%nat with (S (S m)) by lia. cbn [seq map].
  rewrite !x_lit. cbn [fib Nat.add INR]. f_equal. f_equal.
  assert (H : forall k a, scan (fun '(a, b) (_ : nat) => ((b, fadd a b), fadd a b))
     (Fin (INR (fib (S k))), Fin (INR (fib (S (S k))))) (seq a m)
     = map (fun j => Fin (INR (fib j))) (seq (S (S (S k))) m)).
  { induction m as [|m IH]; intros k a; [easy|]. cbn [seq scan map]. f_equal.
    - rewrite x_add, (fib_SS (S k)), plus_INR. f_equal. lra.
    - rewrite x_add. replace (INR (fib (S k)) + INR (fib (S (S k)))) with (INR (fib (S (S (S k)))))
        by (rewrite (fib_SS (S k)), plus_INR; lra). apply IH. }
  apply (H O O).
Qed.
Lemma fib_pos n : (0 < n)%nat -> (0 < fib n)%nat.
Proof.
  intros H. assert (X : forall n, (0 < fib (S n))%nat /\ (0 < fib (S (S n)))%nat).
  { clear. induction n as [|n [IH1 IH2]]; [cbn; lia|]. split; [easy|]. rewrite fib_SS. lia. }
  destruct n; [lia|]. apply X.
Qed.
Lemma Rsum_fib_pos w : (0 < w)%nat -> 0 < Rsum (map (fun k => INR (fib k)) (seq 1 w)).
Proof.
  intros H. apply Rsum_pos.
  - intros x Hx. apply in_map_iff in Hx. destruct Hx as (k & <- & Hk). apply in_seq in Hk.
    apply INR_pos, fib_pos. lia.
  - destruct w; [lia|easy].
Qed.

Theorem fwma_real (l : list R) w : (2 <= w)%nat ->
  exists o, fwma (map Fin l) w = Ok o /\
  aligned o (length l) (w - 1) NaN
    (fun i => Fin (wmean (map (fun k => INR (fib k)) (seq 1 w)) (win w l i))).
Proof.
  intros Hw. destruct (fwma_values (map Fin l) w Hw) as (o & E & A).
  exists o. split; [easy|]. rewrite map_length in A. revert A. apply aligned_ext.
  intros i Hi. rewrite x_win. unfold fib_weights. rewrite x_fib_seq.
  replace (w - 2 + 2)%nat with w by lia. unfold wmean.
  assert (D : fold_left (fun d x : xr => fadd d x) (skipn 2 (map (fun k => Fin (INR (fib k))) (seq 1 w)))
     (flit 2 1) = Fin (Rsum (map (fun k => INR (fib k)) (seq 1 w)))).
  { destruct w as [|[|w]]; try lia. cbn [seq map skipn].
    rewrite <- map_map with (f := fun k => INR (fib k)) (g := Fin).
    rewrite x_lit. rewrite fold_left_map.
    rewrite (x_fold_add (fun x : R => Fin x) (fun x => x)) by easy.
    rewrite map_id, !Rsum_cons. cbn [fib INR Nat.add]. f_equal. lra. }
  rewrite D. rewrite <- x_wdot_div by (pose proof (Rsum_fib_pos w ltac:(lia)); lra).
  rewrite !map_map. reflexivity.
Qed.

(** ** trima: the mean of means *)

Lemma trima_windows w : (trima_w1 w + trima_w2 w = w + 1)%nat.
Proof.
  unfold trima_w1, trima_w2. pose proof (div_ceil2_spec w).
  destruct (Nat.even w) eqn:E.
  - apply Nat.even_spec in E. destruct E as [m ->]. lia.
  - assert (O : Nat.odd w = true) by (rewrite <- Nat.negb_even, E; easy).
    apply Nat.odd_spec in O. destruct O as [m ->]. lia.
Qed.

(** An [sma] of a series with [k] warm-up NaNs. *)
Lemma sma_of_aligned (data : list xr) n k (f : nat -> R) w :
  aligned data n k NaN (fun i => Fin (f i)) -> (0 < w)%nat -> (k + w - 1 <= n)%nat -> (k <= n)%nat ->
  exists o, sma data w = Ok o /\
  aligned o n (k + w - 1) NaN (fun i => Fin (mean (map f (seq (i + 1 - w) w)))).
Proof.
  intros A Hw Hn Hk. assert (L : length data = n) by (destruct A as (-> & _); lia).
  destruct (sma_values data w Hw) as (o & E & B). exists o. split; [easy|].
  rewrite L in B. apply (aligned_late _ _ _ _ _ _ _ B); [lia| |].
  - intros i Hi. rewrite fold_add_nan_in; [apply x_div_nan_l|].
    apply (win_aligned_warm _ _ _ _ _ w i A); lia.
  - intros i Hi. rewrite (win_aligned _ _ _ _ _ w i A) by lia.
    rewrite <- map_map with (f := f) (g := Fin).
    fold (fsum (map Fin (map f (seq (i + 1 - w) w)))). rewrite x_fsum, x_nat, x_div by (apply INR_neq0; lia).
    unfold mean. now rewrite map_length, seq_length.
Qed.

Theorem trima_real (l : list R) w : (0 < w <= length l + 1)%nat ->
  exists o, trima (map Fin l) w = Ok o /\
  aligned o (length l) (w - 1) NaN
    (fun i => Fin (let w1 := ((w + 1) / 2)%nat in
                   let w2 := (w + 1 - w1)%nat in
                   mean (map (fun j => mean (win w1 l j)) (seq (i + 1 - w2) w2)))).
Proof.
  intros Hw. unfold trima.
  replace (if (w mod 2 =? 0)%nat then (div_ceil2 w + 1)%nat else div_ceil2 w) with (trima_w2 w).
  2:{ unfold trima_w2. rewrite <- Nat.bit0_mod, Nat.bit0_odd, <- Nat.negb_even. now destruct (Nat.even w). }
  fold (trima_w1 w). pose proof (trima_windows w) as T.
  change ((w + 1) / 2)%nat with (trima_w1 w).
  replace (w + 1 - trima_w1 w)%nat with (trima_w2 w) by lia.
  pose proof (div_ceil2_spec w) as D. fold (trima_w1 w) in D.
  assert (P : (0 < trima_w1 w <= w)%nat) by lia.
  destruct (sma_real l (trima_w1 w)) as (o1 & E1 & A1); [lia|]. rewrite E1. cbn [bind].
  destruct (sma_of_aligned o1 _ _ _ (trima_w2 w) A1) as (o & E & A); try lia.
  exists o. split; [easy|]. replace (w - 1)%nat with (trima_w1 w - 1 + trima_w2 w - 1)%nat by lia.
  exact A.
Qed.

(** ** hull *)

Lemma map2_combine {A B C} (f : A * B -> C) (a : list A) (b : list B) i x y :
  nth_error a i = Some x -> nth_error b i = Some y -> nth_error (map f (combine a b)) i = Some (f (x, y)).
Proof. intros Ha Hb. now rewrite nth_error_map', nth_error_combine, Ha, Hb. Qed.

(** Pointwise combination of two aligned series. *)
Lemma aligned_map2 (a b : list xr) n ka kb f g (h : xr * xr -> xr) :
  aligned a n ka NaN f -> aligned b n kb NaN g -> (ka <= n)%nat -> (kb <= n)%nat ->
  (forall x, h (NaN, x) = NaN) -> (forall x, h (x, NaN) = NaN) ->
  aligned (map h (combine a b)) n (Nat.max ka kb) NaN (fun i => h (f i, g i)).
Proof.
  intros (La & Wa & Va) (Lb & Wb & Vb) Ha Hb H1 H2. split; [|split].
  - rewrite map_length, combine_length, La, Lb. lia.
  - intros i Hi.
    destruct (@nth_error_is_Some _ a i ltac:(lia)) as [x Hx].
    destruct (@nth_error_is_Some _ b i ltac:(lia)) as [y Hy].
    rewrite (map2_combine h a b i x y Hx Hy). f_equal.
    destruct (le_lt_dec ka i) as [G|G].
    + rewrite Wb in Hy by lia. injection Hy as <-. apply H2.
    + rewrite Wa in Hx by lia. injection Hx as <-. apply H1.
  - intros i Hi. apply map2_combine; [apply Va; lia | apply Vb; lia].
Qed.

Lemma wma_of_aligned (data : list xr) n k (f : nat -> R) w :
  aligned data n k NaN (fun i => Fin (f i)) -> (0 < w)%nat -> (N.of_nat w < 2 ^ 32)%N ->
  (k + w - 1 <= n)%nat -> (k <= n)%nat ->
  exists o, wma data w = Ok o /\
  aligned o n (k + w - 1) NaN
    (fun i => Fin (wmean (map INR (seq 1 w)) (map f (seq (i + 1 - w) w)))).
Proof.
  intros A Hw Hb Hn Hk. assert (L : length data = n) by (destruct A as (-> & _); lia).
  destruct (wma_values data w Hw Hb) as (o & E & B). exists o. split; [easy|].
  rewrite L in B. apply (aligned_late _ _ _ _ _ _ _ B); [lia| |].
  - intros i Hi. apply wdot_nan; [rewrite map_length, seq_length, length_win; lia|].
    apply (win_aligned_warm _ _ _ _ _ w i A); lia.
  - intros i Hi. rewrite (win_aligned _ _ _ _ _ w i A) by lia.
    rewrite <- map_map with (f := f) (g := Fin). rewrite wma_den. unfold wmean.
    rewrite Rsum_seq, <- x_wdot_div.
    + rewrite (map_map INR). f_equal. apply map_ext. intros j. now rewrite x_nat.
    + pose proof (INR_pos w Hw). nra.
Qed.

(** [(w as f64).sqrt().floor() as usize] is the integer square root. *)
Lemma x_fsqrtN w : (N.of_nat w < 2 ^ 64)%N -> fsqrtN (F := xr) w = Nat.sqrt w.
Proof.
  intros Hb. unfold fsqrtN. rewrite x_nat, x_sqrt by apply pos_INR. cbn [ffloor XR xmap ftoN].
  unfold xtoN. rewrite Raux.Ztrunc_IZR.
  assert (S1 : Raux.Zfloor (sqrt (INR w)) = Z.of_nat (Nat.sqrt w)).
  { apply Raux.Zfloor_imp. rewrite plus_IZR, <- INR_IZR_INZ.
    pose proof (Nat.sqrt_spec w ltac:(lia)) as [A B]. split.
    - rewrite <- (sqrt_Rsqr (INR (Nat.sqrt w))) by apply pos_INR. apply sqrt_le_1_alt.
      unfold Rsqr. rewrite <- mult_INR. now apply le_INR.
    - replace (INR (Nat.sqrt w) + 1) with (INR (S (Nat.sqrt w))) by now rewrite S_INR.
      rewrite <- (sqrt_Rsqr (INR (S (Nat.sqrt w)))) by apply pos_INR. apply sqrt_lt_1_alt.
      split; [apply pos_INR|]. unfold Rsqr. rewrite <- mult_INR. now apply lt_INR. }
  rewrite S1. rewrite Z.min_r; [lia|].
  pose proof (Nat.sqrt_le_lin w). unfold two64. lia.
Qed.
Lemma sqrt_pos_le w : (0 < w)%nat -> (0 < Nat.sqrt w <= w)%nat.
Proof.
  intros H. pose proof (Nat.sqrt_le_lin w). pose proof (Nat.sqrt_spec w ltac:(lia)).
  destruct (Nat.sqrt w); lia.
Qed.

Theorem hull_real (l : list R) w :
  (0 < w)%nat -> (N.of_nat w < 2 ^ 32)%N -> (w + Nat.sqrt w - 2 <= length l)%nat ->
  exists o, hull (map Fin l) w = Ok o /\
  aligned o (length l) (w + Nat.sqrt w - 2) NaN
    (fun i => Fin (let q := Nat.sqrt w in
                   let h := ((w + 1) / 2)%nat in
                   let lw m j := wmean (map INR (seq 1 m)) (win m l j) in
                   wmean (map INR (seq 1 q))
                         (map (fun j => 2 * lw h j - lw w j) (seq (i + 1 - q) q)))).
Proof.
  intros Hw Hb Hn. unfold hull. fold (fsqrtN (F := xr) w).
  pose proof (sqrt_pos_le w Hw) as Hq.
  rewrite x_fsqrtN by lia.
  pose proof (div_ceil2_spec w) as D. assert (P : (0 < div_ceil2 w <= w)%nat) by lia.
  destruct (wma_real l w) as (o1 & E1 & A1); [lia|lia|]. rewrite E1. cbn [bind].
  destruct (wma_real l (div_ceil2 w)) as (o2 & E2 & A2); [lia|lia|]. rewrite E2. cbn [bind].
  assert (A3 : aligned (map (fun '(x, y) => fsub (fmul (flit 2 1) x) y) (combine o2 o1)) (length l) (w - 1) NaN
     (fun i => Fin (2 * wmean (map INR (seq 1 (div_ceil2 w))) (win (div_ceil2 w) l i)
                    - wmean (map INR (seq 1 w)) (win w l i)))).
  { replace (w - 1)%nat with (Nat.max (div_ceil2 w - 1) (w - 1)) by lia.
    eapply aligned_ext; [|apply (aligned_map2 o2 o1 _ _ _ _ _ _ A2 A1); try lia].
    - intros i Hi. cbv beta iota. rewrite x_lit, x_mul, x_sub. reflexivity.
    - intros x. now rewrite x_mul_nan_r, x_sub_nan_l.
    - intros x. now rewrite x_sub_nan_r. }
  destruct (wma_of_aligned _ _ _ _ (Nat.sqrt w) A3) as (o & E & A); try lia.
  exists o. split; [exact E|]. replace (w + Nat.sqrt w - 2)%nat with (w - 1 + Nat.sqrt w - 1)%nat by lia.
  exact A.
Qed.

(** ** ewma and wilder *)

Lemma fold_ema_x a s (xs : list R) :
  fold_left (fun prev x => fadd (fmul x (Fin a)) (fmul prev (fsub (flit 1 1) (Fin a)))) (map Fin xs) (Fin s)
  = Fin (ema a s xs).
Proof.
  unfold ema. rewrite x_lit, x_sub. revert s. induction xs as [|x xs IH]; intros s; [easy|].
  cbn [map fold_left]. rewrite !x_mul, x_add. apply IH.
Qed.
Lemma x_range a b l : range a b (map Fin l) = map Fin (range a b l).
Proof. unfold range. now rewrite skipn_map, firstn_map. Qed.
Lemma x_alpha w : fdiv (flit 2 1) (fofnat (w + 1)) = Fin (2 / (INR w + 1)).
Proof.
  rewrite x_lit, x_nat, plus_INR. cbn [INR]. rewrite x_div; [easy|]. pose proof (pos_INR w). lra.
Qed.

Lemma x_mean_firstn w l : (0 < w <= length l)%nat ->
  fdiv (fold_left fadd (firstn w (map Fin l)) fsum0) (fofnat w) = Fin (mean (firstn w l)).
Proof.
  intros H. rewrite firstn_map. fold (fsum (map Fin (firstn w l))).
  rewrite x_fsum, x_nat, x_div by (apply INR_neq0; lia). unfold mean. rewrite firstn_length.
  now rewrite Nat.min_l by lia.
Qed.

Theorem ewma_real (l : list R) w : (0 < w <= length l)%nat ->
  exists o, ewma (map Fin l) w = Ok o /\
  aligned o (length l) (w - 1) NaN
    (fun i => Fin (ema (2 / (INR w + 1)) (mean (firstn w l)) (range w (i + 1) l))).
Proof.
  intros Hw. destruct (ewma_values (map Fin l) w) as (o & E & A); [now rewrite map_length|].
  exists o. split; [easy|]. apply follows_aligned in A. rewrite map_length in A.
  revert A. apply aligned_ext. intros i Hi. rewrite x_mean_firstn by lia.
  rewrite x_range. replace (w - 1 + 1)%nat with w by lia. rewrite x_alpha. apply fold_ema_x.
Qed.

(** Explicit weights: the seed and each later bar are discounted by powers of
    [1 - a]. *)
Theorem ema_closed_form a s xs :
  ema a s xs = (1 - a) ^ length xs * s
    + Rsum (map (fun j => a * (1 - a) ^ (length xs - 1 - j) * nth j xs 0) (seq 0 (length xs))).
Proof.
  induction xs as [|x xs IH] using rev_ind; [cbn; lra|].
  unfold ema in *. rewrite fold_left_app. cbn [fold_left]. rewrite IH. rewrite app_length. cbn [length].
  rewrite Nat.add_1_r, seq_S, map_app, Rsum_app. cbn [map Nat.add]. rewrite Rsum_cons, Rsum_nil.
  rewrite app_nth2, Nat.sub_diag by lia. cbn [nth]. replace (S (length xs) - 1 - length xs)%nat with 0%nat by lia.
  replace (Rsum (map (fun j => a * (1 - a) ^ (S (length xs) - 1 - j) * nth j (xs ++ [x]) 0) (seq 0 (length xs))))
    with ((1 - a) * Rsum (map (fun j => a * (1 - a) ^ (length xs - 1 - j) * nth j xs 0) (seq 0 (length xs)))).
  - cbn [pow]. lra.
  - rewrite <- Rsum_map_scale. f_equal. apply map_ext_in. intros j Hj. apply in_seq in Hj.
    rewrite app_nth1 by lia. replace (S (length xs) - 1 - j)%nat with (S (length xs - 1 - j)) by lia.
    cbn [pow]. lra.
Qed.
Theorem ema_weights_sum_to_one a n :
  (1 - a) ^ n + Rsum (map (fun j => a * (1 - a) ^ (n - 1 - j)) (seq 0 n)) = 1.
Proof.
  pose proof (ema_closed_form a 1 (repeat 1 n)) as H. rewrite repeat_length in H.
  replace (ema a 1 (repeat 1 n)) with 1 in H.
  - rewrite Rmult_1_r in H. rewrite H at 2. f_equal. f_equal. apply map_ext_in. intros j Hj.
    apply in_seq in Hj.
    enough (nth j (repeat 1 n) 0 = 1) as -> by lra.
    clear - Hj. destruct Hj as [_ Hj]. revert j Hj. induction n; intros [|j] H; cbn; try lia; try easy.
    apply IHn. lia.
  - clear. unfold ema. induction n; [easy|]. cbn [repeat fold_left].
    replace (1 * a + 1 * (1 - a)) with 1 by lra. exact IHn.
Qed.

Theorem wilder_real (l : list R) w : (2 <= w <= length l)%nat ->
  exists o, wilder (map Fin l) w = Ok o /\
  aligned o (length l) (w - 1) NaN
    (fun i => Fin (ema (1 / INR w) (mean (firstn (w - 1) l)) (range (w - 1) (i + 1) l))).
Proof.
  intros Hw. destruct (wilder_values (map Fin l) w) as (o & x & E & X & A); [now rewrite map_length|].
  exists o. split; [easy|]. apply follows_aligned in A. rewrite map_length in A.
  revert A. apply aligned_ext. intros i Hi.
  rewrite nth_error_map' in X. destruct (nth_error l (w - 1)) as [y|] eqn:Y; [|easy].
  injection X as <-. rewrite x_mean_firstn by lia. rewrite x_range.
  assert (G : forall xs s, fold_left (fun prev x => fdiv (fadd (fmul prev (fofnat (w - 1))) x) (fofnat w))
     (map Fin xs) (Fin s) = Fin (ema (1 / INR w) s xs)).
  { pose proof (INR_neq0 w ltac:(lia)) as Hn. rewrite !x_nat, minus_INR by lia. cbn [INR].
    unfold ema. induction xs as [|z xs IH]; intros s; [easy|]. cbn [map fold_left].
    rewrite x_mul, x_add, x_div by easy. rewrite IH. do 2 f_equal. field. easy. }
  rewrite <- G.
  replace (range (w - 1) (i + 1) l) with (y :: range (w - 1 + 1) (i + 1) l).
  - cbn [map fold_left]. reflexivity.
  - unfold range. replace (i + 1 - (w - 1))%nat with (S (i + 1 - (w - 1 + 1))) by lia.
    assert (S1 : skipn (w - 1) l = y :: skipn (w - 1 + 1) l).
    { rewrite Nat.add_comm. apply nth_error_ext. intros [|j].
      - rewrite nth_error_skipn, Nat.add_0_r. exact Y.
      - change (nth_error (y :: skipn (1 + (w - 1)) l) (S j)) with (nth_error (skipn (1 + (w - 1)) l) j).
        rewrite !nth_error_skipn. f_equal. lia. }
    rewrite S1. reflexivity.
Qed.

(** ** Iterated exponential averages *)

Lemma skipn_aligned {B} (o : list B) n k na f :
  aligned o n k na f -> (k <= n)%nat -> skipn k o = map f (seq k (n - k)).
Proof.
  intros (L & _ & V) H. apply nth_error_ext. intros j. rewrite nth_error_skipn, nth_error_map'.
  destruct (le_lt_dec (n - k) j) as [Hj|Hj].
  - rewrite (proj2 (nth_error_None o (k + j))) by lia.
    rewrite (proj2 (nth_error_None (seq k (n - k)) j)); [easy|]. rewrite seq_length. lia.
  - rewrite nth_error_seq by easy. apply V. lia.
Qed.
Lemma range_map_seq {B} (f : nat -> B) a b k m :
  (b <= m)%nat -> range a b (map f (seq k m)) = map f (seq (k + a) (b - a)).
Proof.
  intros H. unfold range. rewrite skipn_map, firstn_map. f_equal.
  apply nth_error_ext. intros j. destruct (le_lt_dec (b - a) j) as [Hj|Hj].
  - rewrite !(proj2 (nth_error_None _ j)); [easy | rewrite seq_length; lia | rewrite firstn_length; lia].
  - rewrite nth_error_firstn, nth_error_skipn, !nth_error_seq by lia. f_equal. lia.
Qed.

Lemma ewma_of_aligned (data : list xr) n k (f : nat -> R) w :
  aligned data n k NaN (fun i => Fin (f i)) -> (0 < w)%nat -> (k + w <= n)%nat ->
  exists o, ewma (skipn k data) w = Ok o /\
  aligned (pad k NaN ++ o) n (k + w - 1) NaN (fun i => Fin (ewma_from w k f i)).
Proof.
  intros A Hw Hn. rewrite (skipn_aligned _ _ _ _ _ A) by lia.
  rewrite <- map_map with (f := f) (g := Fin).
  destruct (ewma_real (map f (seq k (n - k))) w) as (o & E & (L & W & V));
    [rewrite map_length, seq_length; lia|].
  rewrite map_length, seq_length in *. exists o. split; [easy|]. split; [|split].
  - rewrite app_length, length_pad. lia.
  - intros i Hi. destruct (le_lt_dec k i).
    + rewrite nth_error_app2; rewrite length_pad; [apply W; lia | lia].
    + rewrite nth_error_app1 by (rewrite length_pad; lia). now apply nth_error_pad.
  - intros i Hi. rewrite nth_error_app2; rewrite length_pad; [|lia]. rewrite V by lia.
    do 2 f_equal. unfold ewma_from. rewrite range_map_seq by lia.
    replace (i - k + 1 - w)%nat with (i + 1 - (k + w))%nat by lia.
    rewrite firstn_map. replace (firstn w (seq k (n - k))) with (seq k w); [easy|].
    apply nth_error_ext. intros j. destruct (le_lt_dec w j).
    + rewrite !(proj2 (nth_error_None _ j)); [easy | rewrite firstn_length; lia | rewrite seq_length; lia].
    + rewrite nth_error_firstn, !nth_error_seq by lia. reflexivity.
Qed.

Lemma aligned_series (l : list R) :
  aligned (map Fin l) (length l) 0 NaN (fun i => Fin (nth i l 0)).
Proof.
  split; [rewrite map_length; lia|split; [lia|]]. intros i Hi. rewrite nth_error_map'.
  rewrite (nth_error_nth' l 0) by lia. reflexivity.
Qed.

(** [ewma], restated with [ewma_from]. *)
Theorem ewma_real_from (l : list R) w : (0 < w <= length l)%nat ->
  exists o, ewma (map Fin l) w = Ok o /\
  aligned o (length l) (w - 1) NaN (fun i => Fin (ewma_from w 0 (fun j => nth j l 0) i)).
Proof.
  intros H. destruct (ewma_of_aligned _ _ _ _ w (aligned_series l)) as (o & E & A); [lia|lia|].
  exists o. split; [exact E|]. exact A.
Qed.

Theorem dema_real (l : list R) w : (0 < w)%nat -> (2 * w - 1 <= length l)%nat ->
  exists o, dema (map Fin l) w = Ok o /\
  aligned o (length l) (2 * w - 2) NaN
    (fun i => Fin (let e1 := ewma_from w 0 (fun j => nth j l 0) in
                   let e2 := ewma_from w (w - 1) e1 in
                   2 * e1 i - e2 i)).
Proof.
  intros Hw Hn. unfold dema.
  destruct (ewma_real_from l w) as (ma & E1 & A1); [lia|]. rewrite E1. cbn [bind].
  unfold usub. rewrite (proj2 (Nat.leb_le 1 w)) by lia. cbn [bind].
  assert (L1 : length ma = length l) by (destruct A1 as (-> & _); lia).
  unfold slice_from. rewrite (proj2 (Nat.leb_le (w - 1) (length ma))) by lia. cbn [bind].
  destruct (ewma_of_aligned ma _ _ _ w A1) as (o2 & E2 & A2); [lia|lia|]. rewrite E2. cbn [bind].
  eexists. split; [reflexivity|].
  replace (2 * w - 2)%nat with (Nat.max (w - 1) (w - 1 + w - 1)) by lia.
  eapply aligned_ext; [|apply (aligned_map2 _ _ _ _ _ _ _ _ A1 A2); try lia].
  - intros i Hi. cbv beta iota zeta. now rewrite x_lit, x_mul, x_sub.
  - intros x. now rewrite x_mul_nan_r, x_sub_nan_l.
  - intros x. now rewrite x_sub_nan_r.
Qed.

Lemma skipn_app_pad {A} k m (x : A) l : skipn (k + m) (pad k x ++ l) = skipn m l.
Proof.
  apply nth_error_ext. intros j. rewrite !nth_error_skipn, nth_error_app2 by (rewrite length_pad; lia).
  rewrite length_pad. f_equal. lia.
Qed.
Lemma aligned_zip3 (a b c : list xr) n ka kb kc f g h (F : xr -> xr -> xr -> xr) :
  aligned a n ka NaN f -> aligned b n kb NaN g -> aligned c n kc NaN h ->
  (ka <= kb <= kc)%nat -> (kc <= n)%nat ->
  (forall x y, F x y NaN = NaN) ->
  aligned (map (fun '(x, y, z) => F x y z) (zip3 a b c)) n kc NaN (fun i => F (f i) (g i) (h i)).
Proof.
  intros (La & Wa & Va) (Lb & Wb & Vb) (Lc & Wc & Vc) Hk Hn HF. unfold zip3. split; [|split].
  - rewrite map_length, !combine_length. lia.
  - intros i Hi. rewrite nth_error_map', !nth_error_combine, (Wc i Hi).
    destruct (@nth_error_is_Some _ a i ltac:(lia)) as [x ->].
    destruct (@nth_error_is_Some _ b i ltac:(lia)) as [y ->]. now rewrite HF.
  - intros i Hi. rewrite nth_error_map', !nth_error_combine, Va, Vb, Vc by lia. reflexivity.
Qed.

Theorem tema_real (l : list R) w : (0 < w)%nat -> (3 * w - 2 <= length l)%nat ->
  exists o, tema (map Fin l) w = Ok o /\
  aligned o (length l) (3 * w - 3) NaN
    (fun i => Fin (let e1 := ewma_from w 0 (fun j => nth j l 0) in
                   let e2 := ewma_from w (w - 1) e1 in
                   let e3 := ewma_from w (2 * w - 2) e2 in
                   3 * e1 i - 3 * e2 i + e3 i)).
Proof.
  intros Hw Hn. unfold tema.
  destruct (ewma_real_from l w) as (ma & E1 & A1); [lia|]. rewrite E1. cbn [bind].
  unfold usub. rewrite (proj2 (Nat.leb_le 1 w)) by lia. cbn [bind].
  assert (L1 : length ma = length l) by (destruct A1 as (-> & _); lia).
  unfold slice_from. rewrite (proj2 (Nat.leb_le (w - 1) (length ma))) by lia. cbn [bind].
  destruct (ewma_of_aligned ma _ _ _ w A1) as (o2 & E2 & A2); [lia|lia|]. rewrite E2. cbn [bind].
  assert (L2 : (length o2 = length l - (w - 1))%nat).
  { destruct A2 as (L2 & _). rewrite app_length, length_pad in L2. lia. }
  rewrite (proj2 (Nat.leb_le (w - 1) (length o2))) by lia. cbn [bind].
  destruct (ewma_of_aligned _ _ _ _ w A2) as (o3 & E3 & A3); [lia|lia|].
  replace (w - 1 + w - 1)%nat with (w - 1 + (w - 1))%nat in * by lia.
  rewrite skipn_app_pad in E3. rewrite E3. cbn [bind].
  eexists. split; [reflexivity|].
  replace ((w - 1) * 2)%nat with (w - 1 + (w - 1))%nat by lia.
  replace (3 * w - 3)%nat with (w - 1 + (w - 1) + w - 1)%nat by lia.
  eapply aligned_ext; [|apply (aligned_zip3 _ _ _ _ _ _ _ _ _ _
     (fun x y z => fadd (fsub (fmul (flit 3 1) x) (fmul (flit 3 1) y)) z) A1 A2 A3); try lia].
  - intros i Hi. cbv beta iota zeta. rewrite x_lit, !x_mul, x_sub, x_add.
    replace (2 * w - 2)%nat with (w - 1 + (w - 1))%nat by lia. reflexivity.
  - intros x y. now rewrite x_add_nan_r.
Qed.

Definition clamp01 (x : R) : R := Rmin 1 (Rmax 0 x).
Lemma x_clamp01 v : fclamp_val (Fin v) (flit 0 1) (flit 1 1) = Fin (clamp01 v).
Proof.
  unfold fclamp_val, clamp01. rewrite !x_lit, x_ltb. unfold Rmin, Rmax.
  destruct (Rle_dec 0 v), (Rltb v 0) eqn:E1; try apply Rltb_true in E1; try apply Rltb_false in E1; try lra;
    rewrite x_ltb; rcase; repeat destruct Rle_dec; try (f_equal; lra).
Qed.

Theorem t3_real (l : list R) w factor : (0 < w)%nat -> (6 * w - 5 <= length l)%nat ->
  exists o, t3 (map Fin l) w (option_map Fin factor) = Ok o /\
  aligned o (length l) (6 * w - 6) NaN
    (fun i => Fin (let v := clamp01 (match factor with Some v => v | None => 7 / 10 end) in
                   let e1 := ewma_from w 0 (fun j => nth j l 0) in
                   let e2 := ewma_from w (w - 1) e1 in
                   let e3 := ewma_from w (2 * (w - 1)) e2 in
                   let e4 := ewma_from w (3 * (w - 1)) e3 in
                   let e5 := ewma_from w (4 * (w - 1)) e4 in
                   let e6 := ewma_from w (5 * (w - 1)) e5 in
                   - v ^ 3 * e6 i + (3 * v ^ 2 + 3 * v ^ 3) * e5 i
                   + (-3 * v - 6 * v ^ 2 - 3 * v ^ 3) * e4 i
                   + (1 + 3 * v + 3 * v ^ 2 + v ^ 3) * e3 i)).
Proof.
  intros Hw Hn. unfold t3.
  set (k := (w - 1)%nat).
  destruct (ewma_real_from l w) as (ma & E1 & A1); [lia|]. rewrite E1. cbn [bind].
  unfold usub. rewrite (proj2 (Nat.leb_le 1 w)) by lia. cbn [bind]. fold k.
  assert (L1 : length ma = length l) by (destruct A1 as (-> & _); lia).
  unfold slice_from.
  rewrite (proj2 (Nat.leb_le k (length ma))) by lia. cbn [bind].
  destruct (ewma_of_aligned ma _ _ _ w A1) as (o2 & E2 & A2); [lia|lia|].
  fold k in E2, A2. rewrite E2. cbn [bind]. clear E1 E2.
  assert (L2 : (length o2 = length l - k)%nat).
  { destruct A2 as (L2 & _). rewrite app_length, length_pad in L2. lia. }
  rewrite (proj2 (Nat.leb_le k (length o2))) by lia. cbn [bind].
  replace (k + w - 1)%nat with (k + k)%nat in A2 by lia.
  destruct (ewma_of_aligned _ _ _ _ w A2) as (o3 & E3 & A3); [lia|lia|].
  rewrite skipn_app_pad in E3. rewrite E3. cbn [bind]. clear E3.
  assert (L3 : (length o3 = length l - 2 * k)%nat).
  { destruct A3 as (L3 & _). rewrite app_length, length_pad in L3. lia. }
  rewrite (proj2 (Nat.leb_le k (length o3))) by lia. cbn [bind].
  replace (k + k + w - 1)%nat with (k + k + k)%nat in A3 by lia.
  destruct (ewma_of_aligned _ _ _ _ w A3) as (o4 & E4 & A4); [lia|lia|].
  rewrite skipn_app_pad in E4. rewrite E4. cbn [bind]. clear E4.
  assert (L4 : (length o4 = length l - 3 * k)%nat).
  { destruct A4 as (L4 & _). rewrite app_length, length_pad in L4. lia. }
  rewrite (proj2 (Nat.leb_le k (length o4))) by lia. cbn [bind].
  replace (k + k + k + w - 1)%nat with (k + k + k + k)%nat in A4 by lia.
  destruct (ewma_of_aligned _ _ _ _ w A4) as (o5 & E5 & A5); [lia|lia|].
  rewrite skipn_app_pad in E5. rewrite E5. cbn [bind]. clear E5.
  assert (L5 : (length o5 = length l - 4 * k)%nat).
  { destruct A5 as (L5 & _). rewrite app_length, length_pad in L5. lia. }
  rewrite (proj2 (Nat.leb_le k (length o5))) by lia. cbn [bind].
  replace (k + k + k + k + w - 1)%nat with (k + k + k + k + k)%nat in A5 by lia.
  destruct (ewma_of_aligned _ _ _ _ w A5) as (o6 & E6 & A6); [lia|lia|].
  rewrite skipn_app_pad in E6. rewrite E6. cbn [bind]. clear E6.
  assert (L6 : (length o6 = length l - 5 * k)%nat).
  { destruct A6 as (L6 & _). rewrite app_length, length_pad in L6. lia. }
  replace (k + k + k + k + k + w - 1)%nat with (6 * k)%nat in A6 by lia.
  replace (k + k + k + k + k)%nat with (5 * k)%nat in * by lia.
  replace (k + k + k + k)%nat with (4 * k)%nat in * by lia.
  replace (k + k + k)%nat with (3 * k)%nat in * by lia.
  replace (k + k)%nat with (2 * k)%nat in * by lia.
  replace (k * 2)%nat with (2 * k)%nat by lia. replace (k * 3)%nat with (3 * k)%nat by lia.
  eexists. split; [reflexivity|]. change (@fnan xr XR) with NaN.
  assert (V : fclamp_val (unwrap_or (option_map Fin factor) (flit 7 10)) (flit 0 1) (flit 1 1)
     = Fin (clamp01 (match factor with Some v => v | None => 7 / 10 end))).
  { rewrite <- x_clamp01. destruct factor; reflexivity. }
  rewrite V. set (v := clamp01 _). 
  replace (6 * w - 6)%nat with (6 * k)%nat by lia.
  destruct A3 as (_ & W3 & V3), A4 as (_ & W4 & V4), A5 as (_ & W5 & V5), A6 as (_ & W6 & V6).
  assert (P : forall m (o : list xr) j i, (m <= i)%nat ->
             nth_error (pad m NaN ++ o) i = j -> nth_error o (i - m) = j).
  { intros m o j i Hi H. now rewrite nth_error_app2, length_pad in H by (rewrite length_pad; lia). }
  assert (Q : forall m m2 (o : list xr) i j, (m2 <= i)%nat ->
             nth_error (pad (m2 + m) NaN ++ o) i = j -> nth_error (pad m NaN ++ o) (i - m2) = j).
  { intros m m2 o i j Hi <-. symmetry.
    destruct (le_lt_dec (m2 + m) i).
    - rewrite !nth_error_app2; rewrite !length_pad; try lia. f_equal. lia.
    - rewrite !nth_error_app1; rewrite ?length_pad; try lia.
      rewrite !nth_error_pad by lia. easy. }
  split; [|split].
  - unfold zip4, zip3. rewrite app_length, map_length, !combine_length, !app_length, !length_pad. lia.
  - intros i Hi. destruct (le_lt_dec (2 * k) i) as [G|G].
    + rewrite nth_error_app2; rewrite length_pad; [|lia]. rewrite nth_error_map'. unfold zip4, zip3.
      rewrite !nth_error_combine.
      rewrite (Q (3 * k) (2 * k) o6 i (Some NaN))%nat; [|lia|].
      2:{ replace (2 * k + 3 * k)%nat with (5 * k)%nat by lia. now apply W6. }
      destruct (@nth_error_is_Some _ o3 (i - 2 * k) ltac:(lia)) as [x1 ->].
      destruct (@nth_error_is_Some _ (pad k NaN ++ o4) (i - 2 * k)) as [x2 ->];
        [rewrite app_length, length_pad; lia|].
      destruct (@nth_error_is_Some _ (pad (2 * k) NaN ++ o5) (i - 2 * k)) as [x3 ->];
        [rewrite app_length, length_pad; lia|].
      now rewrite x_mul_nan_r, !x_add_nan_l.
    + rewrite nth_error_app1 by (rewrite length_pad; lia). now apply nth_error_pad.
  - intros i Hi. rewrite nth_error_app2; rewrite length_pad; [|lia]. rewrite nth_error_map'. unfold zip4, zip3.
    rewrite !nth_error_combine.
    rewrite (P (2 * k)%nat o3 _ i ltac:(lia) (V3 i ltac:(lia))).
    erewrite (Q (k) (2 * k)%nat o4 i); [|lia|].
    2:{ replace (2 * k + k)%nat with (3 * k)%nat by lia. apply V4. lia. }
    erewrite (Q (2 * k) (2 * k) o5 i)%nat; [|lia|].
    2:{ replace (2 * k + 2 * k)%nat with (4 * k)%nat by lia. apply V5. lia. }
    erewrite (Q (3 * k) (2 * k) o6 i)%nat; [|lia|].
    2:{ replace (2 * k + 3 * k)%nat with (5 * k)%nat by lia. apply V6. lia. }
    rewrite !x_pow2, !x_pow3, !x_lit. repeat progress rewrite ?x_neg, ?x_mul, ?x_add, ?x_sub. reflexivity.
Qed.
