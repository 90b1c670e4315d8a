(** * The moving averages in exact arithmetic, continued. *)

From Verif Require Export SmoothReal.
Local Unset Implicit Arguments.
Local Open Scope R_scope.

(** ** zlma *)

Theorem zlma_real (l : list R) w : (0 < w)%nat -> ((w - 1) / 2 + w <= length l)%nat ->
  exists o, zlma (map Fin l) w = Ok o /\
  aligned o (length l) ((w - 1) / 2 + w - 1) NaN
    (fun i => Fin (let lag := ((w - 1) / 2)%nat in
                   ewma_from w lag (fun j => 2 * nth j l 0 - nth (j - lag) l 0) i)).
Proof.
  intros Hw Hn. unfold zlma, usub. rewrite (proj2 (Nat.leb_le 1 w)) by lia. cbn [bind].
  set (lag := ((w - 1) / 2)%nat) in *. unfold slice_from. rewrite map_length.
  rewrite (proj2 (Nat.leb_le lag (length l))) by lia. cbn [bind].
  set (f := fun j => 2 * nth j l 0 - nth (j - lag) l 0).
  set (de := map (fun '(prev, curr) => fsub (fmul (flit 2 1) curr) prev)
               (combine (map Fin l) (skipn lag (map Fin l)))).
  assert (A : aligned (pad lag NaN ++ de) (length l) lag NaN (fun i => Fin (f i))).
  { unfold de. apply aligned_pad_map.
    - rewrite combine_length, skipn_length, map_length. lia.
    - intros i Hi. eexists. split.
      + rewrite nth_error_combine, nth_error_skipn, !nth_error_map'.
        rewrite (nth_error_nth' l 0) by lia. rewrite (nth_error_nth' l 0) by lia. reflexivity.
      + cbv beta iota. rewrite x_lit, x_mul, x_sub. unfold f. do 3 f_equal. f_equal. f_equal. lia. }
  destruct (ewma_of_aligned _ _ _ _ w A) as (o & E & B); [lia|lia|].
  rewrite <- (Nat.add_0_r lag) in E at 1. rewrite skipn_app_pad in E. cbn [skipn] in E.
  rewrite E. cbn [bind]. eexists. split; [reflexivity|]. exact B.
Qed.

(** ** lrf *)

Lemma lrf_fold (ws : list (nat * R)) a b :
  fold_left (fun '(ys, xys) '(count, v) => (fadd ys v, fadd xys (fmul count v)))
    (map (fun p => (Fin (INR (fst p)), Fin (snd p))) ws) (Fin a, Fin b)
  = (Fin (a + Rsum (map snd ws)), Fin (b + Rsum (map (fun p => INR (fst p) * snd p) ws))).
Proof.
  revert a b. induction ws as [|[k y] ws IH]; intros a b; cbn [map fold_left fst snd].
  - rewrite !Rsum_nil. do 2 f_equal; lra.
  - rewrite x_mul, !x_add, IH, !Rsum_cons. do 2 f_equal; lra.
Qed.
Lemma combine_map {A B C D} (f : A -> C) (g : B -> D) a b :
  combine (map f a) (map g b) = map (fun p => (f (fst p), g (snd p))) (combine a b).
Proof. revert b; induction a as [|x a IH]; intros [|y b]; cbn; auto. now rewrite IH. Qed.
Lemma map_snd_combine {A B} (a : list A) (b : list B) : length a = length b -> map snd (combine a b) = b.
Proof. revert b; induction a as [|x a IH]; intros [|y b] H; cbn in *; try easy. now rewrite IH by lia. Qed.
Lemma map_fst_combine {A B} (a : list A) (b : list B) : length a = length b -> map fst (combine a b) = a.
Proof. revert b; induction a as [|x a IH]; intros [|y b] H; cbn in *; try easy. now rewrite IH by lia. Qed.

Lemma Rsum_sq n : Rsum (map (fun k => INR k ^ 2) (seq 1 n)) = INR n * (INR n + 1) * (2 * INR n + 1) / 6.
Proof.
  induction n as [|n IH]; [cbn; lra|]. rewrite seq_S, map_app, Rsum_app, IH. cbn [map].
  rewrite Rsum_cons, Rsum_nil. replace (INR (1 + n)) with (INR n + 1) by (rewrite <- S_INR; reflexivity).
  rewrite S_INR. field.
Qed.

(** Normal equations imply least squares. *)
Lemma sq_err_shift (pts : list (nat * R)) m b m' b' :
  Rsum (map (fun p => snd p - (m * INR (fst p) + b)) pts) = 0 ->
  Rsum (map (fun p => INR (fst p) * (snd p - (m * INR (fst p) + b))) pts) = 0 ->
  Rsum (map (fun p => (snd p - (m' * INR (fst p) + b')) ^ 2) pts)
  = Rsum (map (fun p => (snd p - (m * INR (fst p) + b)) ^ 2) pts)
    + Rsum (map (fun p => ((m' - m) * INR (fst p) + (b' - b)) ^ 2) pts).
Proof.
  intros H1 H2. 
  rewrite (map_ext (fun p => (snd p - (m' * INR (fst p) + b')) ^ 2)
     (fun p => ((snd p - (m * INR (fst p) + b)) ^ 2 + ((m' - m) * INR (fst p) + (b' - b)) ^ 2)
        + ((-2 * (m' - m)) * (INR (fst p) * (snd p - (m * INR (fst p) + b)))
        + (-2 * (b' - b)) * (snd p - (m * INR (fst p) + b))))) by (intros; lra).
  rewrite Rsum_map_add, Rsum_map_add, Rsum_map_add, !Rsum_map_scale, H1, H2. lra.
Qed.

Lemma pow2_eq0 x : x ^ 2 = 0 -> x = 0.
Proof. intros H. destruct (Req_dec x 0) as [|N]; [easy|]. now apply (pow_nonzero x 2) in N. Qed.

Lemma pow2_pos x : x <> 0 -> 0 < x ^ 2.
Proof.
  intros H. destruct (Rle_lt_or_eq_dec _ _ (pow2_ge_0 x)) as [|E]; [easy|].
  exfalso. apply H. now apply pow2_eq0.
Qed.

Lemma lsq_normal (ys : list R) m b :
  let n := INR (length ys) in
  let sy := Rsum ys in
  let sx := n * (n + 1) / 2 in
  let sxx := n * (n + 1) * (2 * n + 1) / 6 in
  let sxy := Rsum (map (fun p => INR (fst p) * snd p) (combine (seq 1 (length ys)) ys)) in
  sy = m * sx + b * n -> sxy = m * sxx + b * sx -> (2 <= length ys)%nat ->
  forall m' b', (m', b') <> (m, b) -> sq_err m b ys < sq_err m' b' ys.
Proof.
  intros n sy sx sxx sxy H1 H2 Hl m' b' Hne.
  set (pts := combine (seq 1 (length ys)) ys).
  assert (Lc : length (seq 1 (length ys)) = length ys) by now rewrite seq_length.
  assert (F1 : map fst pts = seq 1 (length ys)) by (unfold pts; now apply map_fst_combine).
  assert (F2 : map snd pts = ys) by (unfold pts; now apply map_snd_combine).
  assert (Lp : length pts = length ys) by (unfold pts; rewrite combine_length, Lc; lia).
  assert (X1 : Rsum (map (fun p : nat * R => INR (fst p)) pts) = sx).
  { unfold sx, n. rewrite <- Rsum_seq, <- F1, map_map. reflexivity. }
  assert (X2 : Rsum (map (fun p : nat * R => INR (fst p) ^ 2) pts) = sxx).
  { unfold sxx, n. rewrite <- Rsum_sq, <- F1, map_map. reflexivity. }
  assert (Y1 : Rsum (map snd pts) = sy) by now rewrite F2.
  unfold sq_err. fold pts. rewrite (sq_err_shift pts m b m' b').
  - assert (P : 0 < Rsum (map (fun p => ((m' - m) * INR (fst p) + (b' - b)) ^ 2) pts)); [|lra].
    assert (G : 0 <= Rsum (map (fun p => ((m' - m) * INR (fst p) + (b' - b)) ^ 2) pts)).
    { apply Rsum_nonneg. intros x Hx. apply in_map_iff in Hx. destruct Hx as (p & <- & _). apply pow2_ge_0. }
    destruct (Rle_lt_or_eq_dec _ _ G) as [|E]; [easy|]. exfalso. symmetry in E.
    assert (Z : forall p, In p pts -> ((m' - m) * INR (fst p) + (b' - b)) ^ 2 = 0).
    { intros p Hp. apply (Rsum_zero _ ltac:(intros x Hx; apply in_map_iff in Hx; destruct Hx as (q & <- & _); apply pow2_ge_0) E).
      apply in_map_iff. now exists p. }
    destruct ys as [|y1 [|y2 ys]]; cbn in Hl; try lia.
    pose proof (Z (1%nat, y1) ltac:(now left)) as Z1. pose proof (Z (2%nat, y2) ltac:(right; now left)) as Z2.
    cbn [fst INR] in Z1, Z2.
    assert (Z1' : (m' - m) * 1 + (b' - b) = 0) by now apply pow2_eq0.
    assert (Z2' : (m' - m) * (1 + 1) + (b' - b) = 0) by now apply pow2_eq0.
    apply Hne. f_equal; lra.
  - rewrite Rsum_map_sub, Y1, Rsum_map_add, Rsum_map_scale, Rsum_const, X1, Lp. fold n. lra.
  - rewrite (map_ext (fun p : nat * R => INR (fst p) * (snd p - (m * INR (fst p) + b)))
       (fun p => (INR (fst p) * snd p) - (m * INR (fst p) ^ 2 + b * INR (fst p)))) by (intros; lra).
    rewrite Rsum_map_sub, Rsum_map_add, !Rsum_map_scale, X1, X2. rewrite <- H2. unfold sxy. fold pts. lra.
Qed.

(** The line is the unique least squares line of the window; the output is its
    value at the newest bar. *)
Theorem lrf_real (l : list R) w : (2 <= w)%nat -> (N.of_nat w < 2 ^ 31)%N ->
  exists o (m b : nat -> R), lrf (map Fin l) w = Ok o /\
  aligned o (length l) (w - 1) NaN (fun i => Fin (m i * INR w + b i)) /\
  (forall i, (w - 1 <= i < length l)%nat ->
     forall m' b', (m', b') <> (m i, b i) ->
       sq_err (m i) (b i) (win w l i) < sq_err m' b' (win w l i)).
Proof.
  intros Hw Hb.
  set (n := INR w).
  assert (Hn : 2 <= n).
  { unfold n. change 2 with (INR 2). now apply le_INR. }
  set (sx := n * (n + 1) / 2). set (sxx := n * (n + 1) * (2 * n + 1) / 6).
  set (den := n * sxx - sx * sx).
  assert (Hden : 0 < den).
  { replace den with (n * n * ((n + 1) * (n - 1)) / 12) by (unfold den, sxx, sx; field).
    apply Rdiv_lt_0_compat; [|lra]. apply Rmult_lt_0_compat; apply Rmult_lt_0_compat; lra. }
  set (sxy := fun i => Rsum (map (fun p => INR (fst p) * snd p) (combine (seq 1 w) (win w l i)))).
  set (sy := fun i => Rsum (win w l i)).
  set (m := fun i => (n * sxy i - sx * sy i) / den).
  set (b := fun i => (sy i * sxx - sx * sxy i) / den).
  unfold lrf, umul, two64.
  assert (Hm : (N.of_nat w * N.of_nat (w + 1) < 2 ^ 64)%N).
  { change (2 ^ 64)%N with (2 ^ 32 * 2 ^ 32)%N. 
    apply N.le_lt_trans with ((2 ^ 31) * (2 ^ 31))%N; [apply N.mul_le_mono; lia|reflexivity]. }
  rewrite (proj2 (N.ltb_lt _ _) Hm). cbn [bind].
  unfold usub. rewrite (proj2 (Nat.leb_le 1 w)) by lia. cbn [bind].
  unfold rwindows. rewrite (proj2 (Nat.eqb_neq w 0)) by lia. cbn [bind].
  eexists _, m, b. split; [reflexivity|].
  assert (Ex : fdiv (fofN (N.of_nat w * N.of_nat (w + 1))) (@flit xr XR 2 1) = Fin sx).
  { rewrite x_lit. unfold fofN at 1. cbn [XR]. unfold xofN. rewrite x_div by lra. f_equal. unfold sx, n.
    rewrite N2Z.inj_mul, !nat_N_Z, mult_IZR, <- !INR_IZR_INZ, plus_INR. cbn [INR]. lra. }
  assert (Exx : fdiv (fmul (Fin sx) (fofnat (2 * w + 1))) (@flit xr XR 3 1) = Fin sxx).
  { rewrite x_lit, x_nat, x_mul, x_div by lra. f_equal. rewrite plus_INR, mult_INR. cbn [INR]. fold n.
    unfold sxx, sx. lra. }
  assert (Ed : fsub (fmul (fofnat w) (Fin sxx)) (fmul (Fin sx) (Fin sx)) = Fin den).
  { rewrite x_nat, !x_mul, x_sub. reflexivity. }
  rewrite Ex, Exx, Ed. clear Ex Exx Ed Hm.
  split.
  - pose proof (@aligned_windows xr xr NaN
       (lrf_win (Fin sx) (Fin sxx) (Fin den) w (map fofnat (seq 1 w))) (map Fin l) w ltac:(lia)) as A.
    rewrite map_length in A. revert A. apply aligned_ext. intros i Hi.
    rewrite x_win. unfold lrf_win. rewrite (map_ext _ (fun k => Fin (INR k))) by (intros; apply x_nat).
    rewrite combine_map, x_lit, lrf_fold, x_nat. fold n. rewrite !Rplus_0_l.
    rewrite map_snd_combine by (rewrite seq_length, length_win; lia).
    fold (sxy i) (sy i). rewrite !x_mul, !x_sub, !x_div by lra.
    rewrite x_mul, x_add. unfold m, b. reflexivity.
  - intros i Hi. assert (Lw : length (win w l i) = w) by (apply length_win; lia).
    apply lsq_normal; rewrite Lw; fold n; fold sx; fold sxx; [| |lia].
    + fold (sy i). unfold m, b.
      replace ((n * sxy i - sx * sy i) / den * sx + (sy i * sxx - sx * sxy i) / den * n)
        with (sy i * ((n * sxx - sx * sx) / den)) by (field; lra).
      fold den. field. lra.
    + fold (sxy i). unfold m, b.
      replace ((n * sxy i - sx * sy i) / den * sxx + (sy i * sxx - sx * sxy i) / den * sx)
        with (sxy i * ((n * sxx - sx * sx) / den)) by (field; lra).
      fold den. field. lra.
Qed.

(** Hence straight lines are reproduced exactly. *)
Lemma sq_err_line m b n : sq_err m b (map (fun k => m * INR k + b) (seq 1 n)) = 0.
Proof.
  unfold sq_err. rewrite map_length, seq_length.
  rewrite <- (map_id (seq 1 n)) at 1. rewrite combine_map, map_map. cbn [fst snd].
  assert (G : forall l : list (nat * nat), (forall p, In p l -> fst p = snd p) ->
     Rsum (map (fun x => (m * INR (snd x) + b - (m * INR (fst x) + b)) ^ 2) l) = 0).
  { induction l as [|p l IH]; intros H; cbn [map]; rewrite ?Rsum_nil, ?Rsum_cons; [easy|].
    rewrite IH by (intros; apply H; now right). rewrite (H p) by now left. lra. }
  apply G. intros p Hp. generalize (seq 1 n) Hp. clear. intros s H.
  induction s as [|a s IH]; [easy|]. destruct H as [<- | H]; [easy | auto].
Qed.

Theorem lrf_line (a c : R) n w : (2 <= w)%nat -> (N.of_nat w < 2 ^ 31)%N ->
  exists o, lrf (map Fin (map (fun k => a * INR k + c) (seq 0 n))) w = Ok o /\
  aligned o n (w - 1) NaN (fun i => Fin (a * INR i + c)).
Proof.
  intros Hw Hb. set (l := map (fun k => a * INR k + c) (seq 0 n)).
  destruct (lrf_real l w Hw Hb) as (o & m & b & E & A & M).
  assert (Ll : length l = n) by (unfold l; now rewrite map_length, seq_length).
  rewrite Ll in *. exists o. split; [easy|]. revert A. apply aligned_ext. intros i Hi. f_equal.
  set (c' := a * (INR i - INR w) + c).
  assert (W : win w l i = map (fun k => a * INR k + c') (seq 1 w)).
  { apply nth_error_ext. intros j. destruct (le_lt_dec w j) as [Hj|Hj].
    - rewrite !(proj2 (nth_error_None _ j)); [easy | rewrite map_length, seq_length; lia |].
      rewrite length_win; lia.
    - rewrite nth_error_win by easy. unfold l. rewrite !nth_error_map', !nth_error_seq by lia.
      f_equal. unfold c'. rewrite !plus_INR, minus_INR, plus_INR by lia. cbn [INR]. lra. }
  specialize (M i Hi a c'). rewrite W in M. rewrite (sq_err_line a c' w) in M.
  assert (P : 0 <= sq_err (m i) (b i) (map (fun k => a * INR k + c') (seq 1 w))).
  { unfold sq_err. apply Rsum_nonneg. intros x Hx. apply in_map_iff in Hx. destruct Hx as (p & <- & _).
    apply pow2_ge_0. }
  destruct (Req_dec a (m i)) as [Ha|Ha]; [destruct (Req_dec c' (b i)) as [Hc|Hc]|].
  - rewrite <- Ha, <- Hc. unfold c'. lra.
  - exfalso. enough (sq_err (m i) (b i) (map (fun k => a * INR k + c') (seq 1 w)) < 0) by lra.
    apply M. intros [=]. easy.
  - exfalso. enough (sq_err (m i) (b i) (map (fun k => a * INR k + c') (seq 1 w)) < 0) by lra.
    apply M. intros [=]. easy.
Qed.

(** ** kernel and alma *)

Lemma x_weighted_mean ws vs : length ws = length vs -> 0 < Rsum ws ->
  weighted_mean (map Fin ws) (map Fin vs) = Fin (wmean ws vs).
Proof.
  intros L H. unfold weighted_mean.
  assert (G : forall ws vs a b, length ws = length vs ->
     fold_left (fun '(s, sw) '(w, v) => (fadd s (fmul w v), fadd sw w))
       (combine (map Fin ws) (map Fin vs)) (Fin a, Fin b)
     = (Fin (a + wsum ws vs), Fin (b + Rsum ws))).
  { clear. unfold wsum. induction ws as [|w ws IH]; intros [|v vs] a b L; try easy; cbn [map combine fold_left].
    - rewrite !Rsum_nil. do 2 f_equal; lra.
    - rewrite x_mul, !x_add, IH by (cbn in L; lia). cbn [fst snd]. rewrite !Rsum_cons. do 2 f_equal; lra. }
  rewrite !x_lit, G by easy. rewrite x_div by lra. unfold wmean. do 2 f_equal; lra.
Qed.

Lemma weighted_mean_firstn {F} `{FOps F} (ws vs : list F) :
  weighted_mean ws vs = weighted_mean (firstn (length vs) ws) vs.
Proof.
  unfold weighted_mean. f_equal.
  replace (combine (firstn (length vs) ws) vs) with (combine ws vs); [easy|].
  revert vs. induction ws as [|w ws IH]; intros [|v vs]; cbn; try easy. f_equal. apply IH.
Qed.

Lemma Rsum_exp_pos {A} (f : A -> R) l : l <> [] -> 0 < Rsum (map (fun x => exp (f x)) l).
Proof.
  intros H. apply Rsum_pos.
  - intros x Hx. apply in_map_iff in Hx. destruct Hx as (y & <- & _). apply exp_pos.
  - destruct l; easy.
Qed.

Lemma firstn_seq' k a n : firstn k (seq a n) = seq a (Nat.min k n).
Proof.
  revert a n. induction k as [|k IH]; intros a [|n]; cbn; try easy. f_equal. apply IH.
Qed.

Theorem kernel_real (l : list R) sigma : sigma <> 0 ->
  exists o, kernel (map Fin l) (Fin sigma) = Ok o /\
  aligned o (length l) 0 NaN
    (fun i => Fin (let m := Nat.min (i + 1) 255 in
                   wmean (map (fun k => exp (- (INR k ^ 2 / (2 * sigma ^ 2)))) (seq 0 m))
                         (map (fun k => nth (i - k) l 0) (seq 0 m)))).
Proof.
  intros Hs. eexists. split; [reflexivity|]. rewrite map_length.
  set (g := fun i => _). set (n := length l) in *.
  assert (E : map g (seq 0 n) = map (fun i => Fin (let m := Nat.min (i + 1) 255 in
                   wmean (map (fun k => exp (- (INR k ^ 2 / (2 * sigma ^ 2)))) (seq 0 m))
                         (map (fun k => nth (i - k) l 0) (seq 0 m)))) (seq 0 n)).
  { apply map_ext_in. intros i Hi. apply in_seq in Hi. cbv zeta. unfold g.
    set (m := Nat.min (i + 1) 255).
    rewrite weighted_mean_firstn.
    assert (L1 : length (firstn m (rev (firstn (i + 1) (map Fin l)))) = m).
    { rewrite firstn_length, rev_length, firstn_length, map_length. fold n. lia. }
    rewrite L1. unfold kernel_weights. rewrite firstn_map, firstn_seq'.
    replace (Nat.min m 256) with m by lia.
    rewrite <- x_weighted_mean.
    - f_equal.
      + rewrite map_map. apply map_ext. intros k.
        assert (2 * sigma * sigma <> 0) by (apply Rmult_integral_contrapositive; split; lra).
        rewrite !x_lit, x_mul, x_mul, x_div by easy. rewrite x_neg, x_nat, x_mul, x_exp. do 2 f_equal.
        rewrite mult_INR. field. easy.
      + rewrite map_map. apply nth_error_ext. intros j. destruct (le_lt_dec m j) as [Hj|Hj].
        * rewrite !(proj2 (nth_error_None _ j)); [easy | rewrite map_length, seq_length; lia | lia].
        * rewrite nth_error_firstn by easy. rewrite nth_error_map', nth_error_seq by easy.
          rewrite firstn_map, <- map_rev, nth_error_map'.
          assert (Lf : length (firstn (i + 1) l) = (i + 1)%nat) by (rewrite firstn_length; fold n; lia).
          rewrite (nth_error_nth' _ 0) by (rewrite rev_length; lia).
          rewrite rev_nth by lia. rewrite Lf. do 2 f_equal.
          replace (i + 1 - S j)%nat with (i - j)%nat by lia. replace (0 + j)%nat with j by lia.
          rewrite <- (firstn_skipn (i + 1) l) at 2. rewrite app_nth1; [easy|lia].
    - now rewrite !map_length, !seq_length.
    - apply Rsum_exp_pos. unfold m. replace (Nat.min (i + 1) 255) with (S (Nat.min i 254)) by lia. easy. }
  rewrite E. apply (@aligned_pad_map nat xr NaN _ (seq 0 n) 0 n).
  - rewrite seq_length. lia.
  - intros i Hi. exists i. split; [|reflexivity]. rewrite nth_error_seq by lia. f_equal. lia.
Qed.

Theorem alma_real (l : list R) w sigma mu : (0 < w)%nat -> sigma <> 0 ->
  exists o, alma (map Fin l) w (Fin sigma) (option_map Fin mu) = Ok o /\
  aligned o (length l) w NaN
    (fun i => Fin (let c := match mu with Some m => m | None => 85 / 100 end * INR (w - 1) in
                   wmean (map (fun k => exp (- ((INR k - c) ^ 2 / (2 * (INR w / sigma) ^ 2)))) (seq 0 w))
                         (map (fun k => nth (i - k) l 0) (seq 0 w)))).
Proof.
  intros Hw Hs. unfold alma, usub. rewrite (proj2 (Nat.leb_le 1 w)) by lia. cbn [bind].
  eexists. split; [reflexivity|]. rewrite map_length.
  apply aligned_pad_map; [rewrite seq_length; lia|]. intros i Hi. exists i. split.
  { rewrite nth_error_seq by lia. f_equal. lia. }
  cbv beta zeta.
  set (c := match mu with Some m => m | None => 85 / 100 end * INR (w - 1)).
  assert (Ec : fmul (unwrap_or (option_map Fin mu) (flit 85 100)) (fofnat (w - 1)) = Fin c).
  { rewrite x_nat. unfold c. destruct mu; cbn [option_map unwrap_or]; [apply x_mul|].
    rewrite x_frac, x_mul. reflexivity. }
  rewrite Ec. unfold alma_weights.
  pose proof (INR_neq0 w Hw) as Hn.
  rewrite <- x_weighted_mean.
  - f_equal.
    + rewrite map_map. apply map_ext. intros k.
      rewrite !x_nat, x_sub, x_div, !x_pow2, !x_lit, !x_mul by easy.
      assert (P : 0 < 2 * (INR w / sigma) ^ 2).
      { apply Rmult_lt_0_compat; [lra|]. apply pow2_pos. unfold Rdiv.
        apply Rmult_integral_contrapositive. split; [easy|]. now apply Rinv_neq_0_compat. }
      rewrite x_div, x_exp by lra. do 2 f_equal. field. split; [easy|]. easy.
    + rewrite map_map. apply map_ext_in. intros k Hk. apply in_seq in Hk. apply x_at. lia.
  - now rewrite !map_length, !seq_length.
  - apply Rsum_exp_pos. destruct w; easy.
Qed.

(** The weight of the bar [k] bars ago is largest near [k = mu * (w-1)]: with an
    offset above one half the *oldest* bar of the window weighs more than the
    newest one, contrary to the documented meaning of the offset. *)
Theorem alma_weights_reversed w (sigma c : R) : (2 <= w)%nat -> 0 < sigma -> 1 / 2 < c ->
  let weight k := exp (- ((INR k - c * INR (w - 1)) ^ 2 / (2 * (INR w / sigma) ^ 2))) in
  weight 0%nat < weight (w - 1)%nat.
Proof.
  intros Hw Hs Hc weight. unfold weight. apply exp_increasing. apply Ropp_lt_contravar.
  assert (Hn : 0 < INR (w - 1)) by (apply INR_pos; lia). assert (Hn' : 0 < INR w) by (apply INR_pos; lia).
  assert (P : 0 < 2 * (INR w / sigma) ^ 2).
  { apply Rmult_lt_0_compat; [lra|]. apply pow_lt. now apply Rdiv_lt_0_compat. }
  unfold Rdiv at 1 3. apply Rmult_lt_compat_r; [now apply Rinv_0_lt_compat|]. cbn [INR]. set (n := INR (w - 1)) in *.
  enough (0 < n * n * (2 * c - 1)) by nra. apply Rmult_lt_0_compat; [nra|lra].
Qed.
