(** * Correlation of two series (correlation.rs): values for every arithmetic,
    and Pearson's correlation, beta and relative performance over the reals. *)

From Verif Require Export DistReal.
Local Unset Implicit Arguments.

(** ** Any arithmetic *)
Section Vals.
  Context {F : Type} {O : FOps F}.
  Implicit Types (a b : list F).

  (** The pairs of windows, in step. *)
  Lemma zip_windows_val (A B : list F) w : 0 < w ->
    zip_windows w A B = Ok (combine (windows w A) (windows w B)).
  Proof. intros Hw. unfold zip_windows. zap. reflexivity. Qed.
  Lemma aligned_zip_windows {B} (na : B) (g : list F * list F -> B) a b w : 0 < w ->
    aligned (pad (w - 1) na ++ map g (combine (windows w a) (windows w b))) (bars2 a b) (w - 1) na
      (fun i => g (win w a i, win w b i)).
  Proof.
    intros Hw. unfold bars2. apply aligned_pad_map.
    - rewrite combine_length, !length_windows. lia.
    - intros i Hi. exists (win w a i, win w b i). split; [|easy].
      rewrite nth_error_combine, !nth_error_windows_win by lia. reflexivity.
  Qed.

  Theorem pcc_values a b w : 0 < w ->
    exists o, pcc a b w = Ok o /\
    aligned o (bars2 a b) (w - 1) fnan (fun i => pcc_win w (win w a i, win w b i)).
  Proof.
    intros Hw. unfold pcc. zap. rewrite zip_windows_val by lia. cbn [bind].
    eexists; split; [reflexivity|]. now apply aligned_zip_windows.
  Qed.

  (** Swapping the series changes no bit, if multiplication commutes. *)
  Theorem pcc_symmetric a b w : (forall x y : F, fmul x y = fmul y x) -> pcc a b w = pcc b a w.
  Proof.
    intros Cm. unfold pcc, zip_windows. destruct (usub w 1); [|easy]. cbn [bind].
    unfold rwindows. destruct (w =? 0); [easy|]. cbn [bind]. do 2 f_equal.
    assert (S : forall x y, pcc_win w (x, y) = pcc_win w (y, x)).
    { intros x y. unfold pcc_win. cbn [fst snd].
      assert (E : forall x y s1 s2 s3 s4 s5,
        let '(p, q, r, s, t) := fold_left (fun '(sxy, sx, sy, sx2, sy2) '(x, y) =>
                 (fadd sxy (fmul x y), fadd sx x, fadd sy y, fadd sx2 (fmul x x), fadd sy2 (fmul y y)))
              (combine x y) (s1, s2, s3, s4, s5) in
        fold_left (fun '(sxy, sx, sy, sx2, sy2) '(x, y) =>
                 (fadd sxy (fmul x y), fadd sx x, fadd sy y, fadd sx2 (fmul x x), fadd sy2 (fmul y y)))
              (combine y x) (s1, s3, s2, s5, s4) = (p, r, q, t, s)).
      { clear - Cm. intros x. induction x as [|u x IH]; intros [|v y] s1 s2 s3 s4 s5; cbn [combine fold_left]; try easy.
        rewrite (Cm v u). apply IH. }
      specialize (E x y (flit 0 1) (flit 0 1) (flit 0 1) (flit 0 1) (flit 0 1)). unfold pcc_sums.
      destruct (fold_left _ (combine x y) _) as [[[[p q] r] s] t]. rewrite E.
      now rewrite (Cm q r), (Cm (fsqrt (fsub (fmul (fofnat w) s) (fmul q q)))). }
    generalize (windows w a), (windows w b). intros l. induction l as [|x l IH]; intros [|y m]; cbn; try easy.
    now rewrite S, IH.
  Qed.

  Theorem rsq_square a b w : rsq a b w = let* p := pcc a b w in Ok (map (fun r => fmul r r) p).
  Proof. reflexivity. Qed.

  (** Relative change against the bar before. *)
  Lemma returns_nth (s : list F) i x y : nth_error s i = Some x -> nth_error s (S i) = Some y ->
    nth_error (returns s) i = Some (fsub (fdiv y x) (flit 1 1)).
  Proof.
    intros Hx Hy. assert (S i < length s) by (apply nth_error_Some; congruence).
    unfold returns. rewrite nth_error_map', nth_error_windows by lia.
    unfold at_. rewrite (nth_error_nth _ 1 fnan (x := y)), (nth_error_nth _ 0 fnan (x := x)); try reflexivity;
      rewrite nth_error_firstn, nth_error_skipn by lia.
    - now rewrite Nat.add_0_r.
    - now rewrite Nat.add_1_r.
  Qed.

  Theorem beta_values a b w : 0 < w ->
    exists o, beta a b w = Ok o /\
    aligned o (bars2 a b) (2 * w - 1) fnan
      (fun i => beta_win w (map (fun j => beta_dev w (win w (returns a) j, win w (returns b) j)) (seq (i - w) w))).
  Proof.
    intros Hw. unfold beta. zap. rewrite zip_windows_val by lia. cbn [bind]. zap.
    eexists; split; [reflexivity|]. replace ((w - 1) * 2 + 1) with (2 * w - 1) by lia.
    apply aligned_pad_map.
    - rewrite length_windows, map_length, combine_length, !length_windows, !length_returns. unfold bars2. lia.
    - intros i Hi. unfold bars2 in Hi. eexists. split.
      { rewrite nth_error_windows; [reflexivity|].
        rewrite map_length, combine_length, !length_windows, !length_returns. lia. }
      f_equal. apply nth_error_ext. intros j. destruct (le_lt_dec w j) as [G|G].
      + rewrite !(proj2 (nth_error_None _ j)); [easy| |]; rewrite ?map_length, ?seq_length, ?firstn_length; lia.
      + rewrite nth_error_firstn, nth_error_skipn, !nth_error_map', nth_error_seq by lia.
        rewrite nth_error_combine.
        replace (i - (2 * w - 1) + j) with (i - w + j - (w - 1)) by lia.
        rewrite !nth_error_windows_win by (rewrite ?length_returns; lia). reflexivity.
  Qed.

  Theorem perf_values a b w : 0 < w ->
    exists ma mb o, sma a w = Ok ma /\ sma b w = Ok mb /\ perf a b w = Ok o /\ length o = bars2 a b /\
    forall i x y p q, nth_error a i = Some x -> nth_error b i = Some y -> nth_error ma i = Some p -> nth_error mb i = Some q ->
      nth_error o i = Some (fmul (fdiv x y) (fdiv q p)).
  Proof.
    intros Hw. destruct (sma_values a w Hw) as (ma & Ea & La & Wa & Va).
    destruct (sma_values b w Hw) as (mb & Eb & Lb & Wb & Vb).
    unfold perf. rewrite Ea, Eb. cbn [bind]. do 3 eexists. split; [reflexivity|split; [reflexivity|split; [reflexivity|]]].
    split; [rewrite map_length, length_zip4; unfold bars2; lia|].
    intros i x y p q Hx Hy Hp Hq. unfold zip4, zip3. rewrite nth_error_map', !nth_error_combine, Hx, Hy, Hp, Hq. reflexivity.
  Qed.
  Theorem rsc_values a b i x y : nth_error a i = Some x -> nth_error b i = Some y ->
    nth_error (rsc a b) i = Some (fdiv x y).
  Proof. intros Hx Hy. unfold rsc. rewrite nth_error_map', nth_error_combine, Hx, Hy. reflexivity. Qed.
End Vals.

(** ** Reals *)
Local Open Scope R_scope.

(** Population covariance and Pearson's correlation coefficient. *)
Definition cov (a b : list R) : R :=
  mean (map (fun p => (fst p - mean a) * (snd p - mean b)) (combine a b)).
Definition pearson (a b : list R) : R := cov a b / (sqrt (var a) * sqrt (var b)).

Lemma Rsum_cross a b : length a = length b -> forall u v,
  Rsum (map (fun p => (fst p - u) * (snd p - v)) (combine a b)) =
  Rsum (map (fun p => fst p * snd p) (combine a b)) - u * Rsum b - v * Rsum a + INR (length a) * u * v.
Proof.
  revert b. induction a as [|x a IH]; intros [|y b] L u v; try easy; cbn [combine map fst snd length].
  - rewrite !Rsum_nil. cbn. lra.
  - rewrite !Rsum_cons, IH by now injection L. rewrite S_INR. ring.
Qed.
Lemma cov_sums a b : length a = length b -> a <> [] ->
  let n := INR (length a) in
  n * Rsum (map (fun p => fst p * snd p) (combine a b)) - Rsum a * Rsum b = n * n * cov a b.
Proof.
  intros L Hn n. unfold cov. unfold mean at 1. rewrite map_length, combine_length, <- L, Nat.min_id. fold n.
  rewrite Rsum_cross by easy. unfold mean. rewrite <- L. fold n.
  assert (n <> 0) by (pose proof (length_pos_INR a Hn); unfold n; lra). field. easy.
Qed.
Lemma combine_self {A} (l : list A) : combine l l = map (fun x => (x, x)) l.
Proof. induction l; cbn; congruence. Qed.
Lemma cov_self l : cov l l = var l.
Proof. unfold cov, var. rewrite combine_self, map_map. f_equal. apply map_ext. intros x. cbn [fst snd]. ring. Qed.
Lemma combine_swap {A B} (a : list A) (b : list B) : combine b a = map (fun p => (snd p, fst p)) (combine a b).
Proof. revert b. induction a as [|x a IH]; intros [|y b]; cbn; try easy. now rewrite IH. Qed.
Lemma cov_sym a b : cov a b = cov b a.
Proof. unfold cov. rewrite (combine_swap a b), map_map. f_equal. apply map_ext. intros []. cbn. ring. Qed.

(** Cauchy–Schwarz. *)
Lemma cauchy_schwarz {A} (u v : A -> R) l :
  Rsum (map (fun x => u x * v x) l) ^ 2 <= Rsum (map (fun x => u x ^ 2) l) * Rsum (map (fun x => v x ^ 2) l).
Proof.
  set (A0 := Rsum (map (fun x => u x ^ 2) l)). set (B := Rsum (map (fun x => u x * v x) l)).
  set (C := Rsum (map (fun x => v x ^ 2) l)).
  assert (HA : 0 <= A0).
  { apply Rsum_nonneg. intros x Hx. apply in_map_iff in Hx. destruct Hx as (y & <- & _). apply pow2_ge_0. }
  destruct (Req_dec A0 0) as [Z|NZ].
  - assert (Hu : forall x, In x l -> u x = 0).
    { intros x Hx. apply pow2_eq0. apply (Rsum_zero (map (fun x => u x ^ 2) l)); [|easy|].
      - intros y Hy. apply in_map_iff in Hy. destruct Hy as (z & <- & _). apply pow2_ge_0.
      - apply in_map_iff. now exists x. }
    replace B with 0; [rewrite Z; nra|]. symmetry. unfold B. rewrite (map_ext_in _ (fun _ => 0)).
    + rewrite Rsum_const. lra.
    + intros x Hx. rewrite Hu by easy. ring.
  - assert (P : 0 <= Rsum (map (fun x => (A0 * v x - B * u x) ^ 2) l)).
    { apply Rsum_nonneg. intros x Hx. apply in_map_iff in Hx. destruct Hx as (y & <- & _). apply pow2_ge_0. }
    assert (E : Rsum (map (fun x => (A0 * v x - B * u x) ^ 2) l) = A0 * (A0 * C - B ^ 2)).
    { rewrite (map_ext _ (fun x => (A0 * A0 * (v x ^ 2) + (- 2 * A0 * B) * (u x * v x)) + B * B * (u x ^ 2))) by (intros; ring).
      rewrite Rsum_map_add, Rsum_map_add, !Rsum_map_scale. fold A0 B C. ring. }
    rewrite E in P. assert (0 < A0) by lra. assert (0 <= A0 * C - B ^ 2); [|lra].
    apply Rmult_le_reg_l with A0; [easy|lra].
Qed.

Lemma map_fst_comb {A B} (a : list A) (b : list B) : length a = length b -> map fst (combine a b) = a.
Proof. revert b. induction a as [|x a IH]; intros [|y b] L; cbn in *; try easy. rewrite IH; [easy|lia]. Qed.
Lemma map_snd_comb {A B} (a : list A) (b : list B) : length a = length b -> map snd (combine a b) = b.
Proof. revert b. induction a as [|x a IH]; intros [|y b] L; cbn in *; try easy. rewrite IH; [easy|lia]. Qed.
Lemma cov_cauchy a b : length a = length b -> cov a b ^ 2 <= var a * var b.
Proof.
  intros L. destruct a as [|x0 a'] eqn:Ea; [destruct b; [|easy]; unfold cov, var, mean; cbn; unfold Rdiv; rewrite Rinv_0; lra|].
  rewrite <- Ea in *. assert (Hn : a <> []) by now rewrite Ea. clear Ea x0 a'.
  pose proof (cauchy_schwarz (fun p => fst p - mean a) (fun p => snd p - mean b) (combine a b)) as CS. cbv beta in CS.
  rewrite <- (map_map fst (fun x => (x - mean a) ^ 2)), map_fst_comb in CS by easy.
  rewrite <- (map_map snd (fun x => (x - mean b) ^ 2)), map_snd_comb in CS by easy.
  rewrite !var_dev. unfold dev, cov. unfold mean at 1. rewrite map_length, combine_length, <- L, Nat.min_id.
  pose proof (length_pos_INR a Hn) as P. set (n := INR (length a)) in *.
  match goal with |- (?s / n) ^ 2 <= _ => set (S0 := s) in * end.
  set (A := Rsum (map (fun x => (x - mean a) ^ 2) a)) in *. set (B := Rsum (map (fun x => (x - mean b) ^ 2) b)) in *.
  replace ((S0 / n) ^ 2) with (S0 ^ 2 * / (n * n)) by (field; lra).
  replace (A / n * (B / n)) with (A * B * / (n * n)) by (field; lra).
  apply Rmult_le_compat_r; [apply Rlt_le, Rinv_0_lt_compat; nra|easy].
Qed.
Lemma cov_zero a b : length a = length b -> var a = 0 \/ var b = 0 -> cov a b = 0.
Proof.
  intros L H. pose proof (cov_cauchy a b L). apply pow2_eq0. pose proof (pow2_ge_0 (cov a b)).
  destruct H as [E|E]; rewrite E in *; lra.
Qed.
Lemma Rabs_le_sqrt a b c : 0 <= b -> 0 <= c -> a ^ 2 <= b * c -> Rabs a <= sqrt b * sqrt c.
Proof.
  intros Hb Hc H. rewrite <- sqrt_mult by easy. rewrite <- (sqrt_Rsqr_abs a). apply sqrt_le_1_alt. unfold Rsqr. lra.
Qed.
(** -1 <= r <= 1. *)
Theorem pearson_range a b : length a = length b -> -1 <= pearson a b <= 1.
Proof.
  intros L. assert (G : Rabs (pearson a b) <= 1); [|revert G; unfold Rabs; destruct (Rcase_abs _); lra]. unfold pearson.
  pose proof (Rabs_le_sqrt _ _ _ (var_nonneg a) (var_nonneg b) (cov_cauchy a b L)) as H.
  pose proof (sqrt_pos (var a)). pose proof (sqrt_pos (var b)).
  destruct (Req_dec (sqrt (var a) * sqrt (var b)) 0) as [Z|NZ].
  - rewrite Z. unfold Rdiv. rewrite Rinv_0, Rmult_0_r, Rabs_R0. lra.
  - assert (P : 0 < sqrt (var a) * sqrt (var b)) by nra.
    unfold Rdiv. rewrite Rabs_mult, Rabs_inv, (Rabs_pos_eq (_ * _)) by lra.
    apply Rmult_le_reg_r with (sqrt (var a) * sqrt (var b)); [easy|].
    rewrite Rmult_assoc, Rinv_l by easy. lra.
Qed.
Lemma pearson_sym a b : pearson a b = pearson b a.
Proof. unfold pearson. rewrite cov_sym. f_equal. apply Rmult_comm. Qed.

Lemma cov_affine c d a b : length a = length b -> a <> [] -> cov (map (fun x => c * x + d) a) b = c * cov a b.
Proof.
  intros L H. unfold cov at 1. rewrite mean_affine by easy.
  replace (combine (map (fun x => c * x + d) a) b) with (map (fun p => (c * fst p + d, snd p)) (combine a b)).
  2:{ clear. revert b. induction a as [|x a IH]; intros [|y b]; cbn; try easy. now rewrite IH. }
  rewrite map_map. unfold cov. remember (mean a) as ma. remember (mean b) as mb. unfold mean. rewrite !map_length.
  unfold Rdiv. rewrite <- Rmult_assoc. f_equal.
  rewrite <- Rsum_map_scale. f_equal. apply map_ext. intros p. cbn [fst snd]. ring.
Qed.
(** Invariant under increasing affine maps; the sign flips under decreasing ones. *)
Theorem pearson_affine c d a b : length a = length b -> a <> [] -> 0 < c ->
  pearson (map (fun x => c * x + d) a) b = pearson a b.
Proof.
  intros L H Hc. unfold pearson. rewrite cov_affine, var_affine by easy.
  rewrite sqrt_mult by (try apply pow2_ge_0; apply var_nonneg). rewrite sqrt_pow2 by lra.
  destruct (Req_dec (sqrt (var a) * sqrt (var b)) 0) as [Z|NZ].
  - rewrite Rmult_assoc, Z, Rmult_0_r. unfold Rdiv. rewrite Rinv_0. ring.
  - field. repeat split; try lra; intros E; apply NZ; rewrite E; ring.
Qed.
Theorem pearson_negate a b : length a = length b -> a <> [] -> pearson (map (fun x => -1 * x + 0) a) b = - pearson a b.
Proof.
  intros L H. unfold pearson. rewrite cov_affine, var_affine by easy.
  replace ((-1) ^ 2 * var a) with (var a) by ring. unfold Rdiv. ring.
Qed.
(** 1 exactly on the windows that are increasing affine images of each other. *)
Theorem pearson_self c d a : a <> [] -> var a <> 0 -> 0 < c -> pearson (map (fun x => c * x + d) a) a = 1.
Proof.
  intros H V Hc. rewrite pearson_affine by easy. unfold pearson. rewrite cov_self, sqrt_sqrt by apply var_nonneg.
  field. easy.
Qed.

Lemma x_pcc_win w a b : length a = w -> length b = w -> (0 < w)%nat ->
  pcc_win w (map Fin a, map Fin b) = if Req (var a * var b) 0 then NaN else Fin (pearson a b).
Proof.
  intros La Lb Hw. unfold pcc_win. cbn [fst snd]. unfold pcc_sums.
  assert (E : forall a b s1 s2 s3 s4 s5, length a = length b ->
    fold_left (fun '(sxy, sx, sy, sx2, sy2) '(x, y) =>
                 (fadd sxy (fmul x y), fadd sx x, fadd sy y, fadd sx2 (fmul x x), fadd sy2 (fmul y y)))
              (combine (map Fin a) (map Fin b)) (Fin s1, Fin s2, Fin s3, Fin s4, Fin s5) =
    (Fin (s1 + Rsum (map (fun p => fst p * snd p) (combine a b))), Fin (s2 + Rsum a), Fin (s3 + Rsum b),
     Fin (s4 + Rsum (map (fun p => fst p * snd p) (combine a a))), Fin (s5 + Rsum (map (fun p => fst p * snd p) (combine b b))))).
  { clear. induction a as [|x a IH]; intros [|y b] s1 s2 s3 s4 s5 L; try easy; cbn [map combine fold_left].
    - rewrite !Rsum_nil. now rewrite !Rplus_0_r.
    - rewrite !x_mul, !x_add, IH by now injection L. rewrite !Rsum_cons. cbn [fst snd].
      do 4 (apply f_equal2; [|apply f_equal; ring]). apply f_equal; ring. }
  rewrite x_lit, E by lia. rewrite !x_nat. rewrite !Rplus_0_l.
  assert (Hn : a <> []) by (intros ->; cbn in La; lia). assert (Hm : b <> []) by (intros ->; cbn in Lb; lia).
  pose proof (cov_sums a b ltac:(lia) Hn) as C1. pose proof (cov_sums a a eq_refl Hn) as C2.
  pose proof (cov_sums b b eq_refl Hm) as C3. cbv zeta in C1, C2, C3. rewrite La in C1, C2. rewrite Lb in C3.
  rewrite !x_mul, !x_sub, C1, C2, C3, !cov_self.
  pose proof (INR_pos w Hw) as P. pose proof (var_nonneg a) as Va. pose proof (var_nonneg b) as Vb.
  rewrite !x_sqrt by (apply Rmult_le_pos; nra). rewrite x_mul, x_quot.
  rewrite !(sqrt_mult (INR w * INR w)) by nra. rewrite !sqrt_square by lra.
  destruct (Req (var a * var b) 0) eqn:Z.
  - apply Req_true in Z. apply Rmult_integral in Z. rewrite (cov_zero a b) by (lia || easy).
    replace (INR w * sqrt (var a) * (INR w * sqrt (var b))) with 0; [rewrite Rmult_0_r; apply quot_0_0|].
    destruct Z as [-> | ->]; rewrite sqrt_0; ring.
  - apply Req_false in Z. assert (var a <> 0 /\ var b <> 0) as [Za Zb] by (split; intros E0; apply Z; rewrite E0; ring).
    pose proof (sqrt_lt_R0 (var a) ltac:(lra)). pose proof (sqrt_lt_R0 (var b) ltac:(lra)).
    rewrite quot_ok; [|assert (0 < INR w * sqrt (var a)) by nra; assert (0 < INR w * sqrt (var b)) by nra; nra].
    f_equal. unfold pearson. field. lra.
Qed.

(** [pcc] is Pearson's coefficient of the two windows; NaN exactly when one of
    them is constant. *)
Theorem pcc_real a b w : (0 < w)%nat ->
  exists o, pcc (map Fin a) (map Fin b) w = Ok o /\
  aligned o (bars2 a b) (w - 1) NaN (fun i => if Req (var (win w a i) * var (win w b i)) 0 then NaN
                                              else Fin (pearson (win w a i) (win w b i))).
Proof.
  intros Hw. destruct (pcc_values (map Fin a) (map Fin b) w Hw) as (o & E & A). exists o. split; [easy|].
  unfold bars2 in *. rewrite !map_length in A. revert A. apply aligned_ext. intros i Hi.
  rewrite !x_win. apply x_pcc_win; try lia; apply length_win; lia.
Qed.
(** [rsq] is its square and lies in [0,1]. *)
Theorem rsq_real a b w : (0 < w)%nat ->
  exists o, rsq (map Fin a) (map Fin b) w = Ok o /\
  aligned o (bars2 a b) (w - 1) NaN (fun i => if Req (var (win w a i) * var (win w b i)) 0 then NaN
                                              else Fin (pearson (win w a i) (win w b i) ^ 2)).
Proof.
  intros Hw. destruct (pcc_real a b w Hw) as (o & E & L & W & V). unfold rsq. rewrite E. cbn [bind].
  eexists. split; [reflexivity|]. split; [now rewrite map_length|]. split.
  - intros i Hi. rewrite nth_error_map', W by easy. reflexivity.
  - intros i Hi. rewrite nth_error_map', V by easy. f_equal. destruct (Req _ 0); [easy|]. rewrite x_mul. f_equal. ring.
Qed.
Theorem pearson_sq_range a b : length a = length b -> 0 <= pearson a b ^ 2 <= 1.
Proof. intros L. pose proof (pearson_range a b L). nra. Qed.

(** ** beta *)
(** Relative changes; their newest deviation from the mean of the last [w]. *)
Definition change (s : list R) (i : nat) : R := nth (S i) s 0 / nth i s 0 - 1.
Definition newest_dev (w : nat) (s : list R) (j : nat) : R :=
  change s j - mean (map (change s) (seq (j + 1 - w) w)).

Lemma x_returns s : (forall x, In x s -> x <> 0) -> returns (map Fin s) = map Fin (map (change s) (seq 0 (length s - 1))).
Proof.
  intros H. apply nth_error_ext. intros i. destruct (le_lt_dec (length s - 1) i) as [G|G].
  - rewrite !(proj2 (nth_error_None _ i)); [easy| |]; rewrite ?map_length, ?seq_length, ?length_returns, ?map_length; lia.
  - assert (N : forall k, (k < length s)%nat -> nth_error (map Fin s) k = Some (Fin (nth k s 0))).
    { intros k Hk. rewrite nth_error_map', (nth_error_nth' s 0) by easy. reflexivity. }
    rewrite (returns_nth (map Fin s) i (Fin (nth i s 0)) (Fin (nth (S i) s 0))) by (apply N; lia).
    rewrite !nth_error_map', nth_error_seq by lia. rewrite x_lit, x_div, x_sub by (apply H, nth_In; lia). reflexivity.
Qed.
Lemma win_seq (f : nat -> R) n w j : (0 < w <= j + 1)%nat -> (j < n)%nat ->
  win w (map f (seq 0 n)) j = map f (seq (j + 1 - w) w).
Proof.
  intros H1 H2. rewrite win_map. f_equal. apply nth_error_ext. intros k. destruct (le_lt_dec w k).
  - rewrite !(proj2 (nth_error_None _ k)); [easy| |]; rewrite ?length_win, ?seq_length; rewrite ?seq_length; lia.
  - rewrite nth_error_win, !nth_error_seq by lia. reflexivity.
Qed.

Lemma x_beta_dev w sa sb j : (0 < w <= j + 1)%nat -> (S j < length sa)%nat -> (S j < length sb)%nat ->
  (forall x, In x sa -> x <> 0) -> (forall x, In x sb -> x <> 0) ->
  beta_dev w (win w (returns (map Fin sa)) j, win w (returns (map Fin sb)) j) =
  (Fin (newest_dev w sa j * newest_dev w sb j), Fin (newest_dev w sb j ^ 2)).
Proof.
  intros Hw Ha Hb Na Nb. unfold beta_dev. rewrite !x_returns by easy. rewrite !x_win, !win_seq by lia.
  rewrite !x_fsum, !x_nat, !x_div by (apply INR_neq0; lia).
  rewrite !x_at by (rewrite map_length, seq_length; lia).
  assert (N : forall s : list R, nth (w - 1) (map (change s) (seq (j + 1 - w) w)) 0 = change s j).
  { intros s. apply nth_error_nth. rewrite nth_error_map', nth_error_seq by lia. do 2 f_equal. lia. }
  rewrite !N, !x_sub, x_mul, x_pow2. unfold newest_dev, mean. rewrite !map_length, !seq_length. reflexivity.
Qed.

(** Sum of the products of the newest deviations over the sum of their squares
    on the market side (positive prices). *)
Theorem beta_real a b w : (0 < w)%nat -> (forall x, In x a -> x <> 0) -> (forall x, In x b -> x <> 0) ->
  exists o, beta (map Fin a) (map Fin b) w = Ok o /\
  aligned o (bars2 a b) (2 * w - 1) NaN (fun i =>
    quot (Rsum (map (fun j => newest_dev w a j * newest_dev w b j) (seq (i - w) w)) / INR w)
         (Rsum (map (fun j => newest_dev w b j ^ 2) (seq (i - w) w)) / INR w)).
Proof.
  intros Hw Na Nb. destruct (beta_values (map Fin a) (map Fin b) w Hw) as (o & E & A). exists o. split; [easy|].
  unfold bars2 in *. rewrite !map_length in A. revert A. apply aligned_ext. intros i Hi.
  rewrite (map_ext_in _ (fun j => (Fin (newest_dev w a j * newest_dev w b j), Fin (newest_dev w b j ^ 2)))).
  2:{ intros j Hj. apply in_seq in Hj. apply x_beta_dev; try easy; lia. }
  unfold beta_win.
  assert (G : forall l s t, fold_left (fun '(sc, sv) '(c, v) => (fadd sc c, fadd sv v))
     (map (fun j => (Fin (newest_dev w a j * newest_dev w b j), Fin (newest_dev w b j ^ 2))) l) (Fin s, Fin t) =
     (Fin (s + Rsum (map (fun j => newest_dev w a j * newest_dev w b j) l)), Fin (t + Rsum (map (fun j => newest_dev w b j ^ 2) l)))).
  { induction l as [|j l IH]; intros s t; cbn [map fold_left]; [rewrite !Rsum_nil, !Rplus_0_r; easy|].
    rewrite !x_add, IH, !Rsum_cons. f_equal; f_equal; ring. }
  rewrite x_lit, G, !Rplus_0_l, x_nat, !x_div by (apply INR_neq0; lia). reflexivity.
Qed.
(** A series against itself: 1, unless its changes never deviate (NaN then). *)
Theorem beta_self a w : (0 < w)%nat -> (forall x, In x a -> x <> 0) ->
  exists o, beta (map Fin a) (map Fin a) w = Ok o /\
  aligned o (length a) (2 * w - 1) NaN (fun i =>
    if Req (Rsum (map (fun j => newest_dev w a j ^ 2) (seq (i - w) w))) 0 then NaN else Fin 1).
Proof.
  intros Hw Na. destruct (beta_real a a w Hw Na Na) as (o & E & A). exists o. split; [easy|].
  unfold bars2 in A. rewrite Nat.min_id in A. revert A. apply aligned_ext. intros i Hi.
  rewrite (map_ext (fun j => newest_dev w a j * newest_dev w a j) (fun j => newest_dev w a j ^ 2)) by (intros; ring).
  set (Q := Rsum _). pose proof (INR_pos w Hw) as P. rcase.
  - rewrite E0. unfold Rdiv. rewrite Rmult_0_l. apply quot_0_0.
  - assert (Q / INR w <> 0). { unfold Rdiv. apply Rmult_integral_contrapositive. split; [easy|apply Rinv_neq_0_compat; lra]. }
    rewrite quot_ok by easy. f_equal. field. lra.
Qed.

(** ** perf *)
Theorem perf_real a b w : (0 < w)%nat ->
  exists o, perf (map Fin a) (map Fin b) w = Ok o /\ length o = bars2 a b /\
  (forall i, (i < w - 1)%nat -> (i < bars2 a b)%nat -> nth_error o i = Some NaN) /\
  (forall i, (w - 1 <= i < bars2 a b)%nat -> nth i b 0 <> 0 -> mean (win w a i) <> 0 ->
    nth_error o i = Some (Fin (nth i a 0 / nth i b 0 * (mean (win w b i) / mean (win w a i))))).
Proof.
  intros Hw. destruct (perf_values (map Fin a) (map Fin b) w Hw) as (ma & mb & o & Ea & Eb & E & L & V).
  destruct (sma_real a w Hw) as (ma' & Ea' & La & Wa & Va). rewrite Ea in Ea'. injection Ea' as <-.
  destruct (sma_real b w Hw) as (mb' & Eb' & Lb & Wb & Vb). rewrite Eb in Eb'. injection Eb' as <-.
  exists o. split; [easy|]. unfold bars2 in *. rewrite !map_length in L. split; [easy|].
  assert (N : forall l i, (i < length l)%nat -> nth_error (map Fin l) i = Some (Fin (nth i l 0))).
  { intros l i Hi. rewrite nth_error_map', (nth_error_nth' l 0) by easy. reflexivity. }
  split.
  - intros i Hi Hn. rewrite (V i (Fin (nth i a 0)) (Fin (nth i b 0)) NaN NaN); try (apply N; lia); try (apply Wa || apply Wb; lia).
    f_equal. rewrite x_div_nan_l. apply x_mul_nan_r.
  - intros i Hi Hb Hm. rewrite (V i (Fin (nth i a 0)) (Fin (nth i b 0)) (Fin (mean (win w a i))) (Fin (mean (win w b i))));
      try (apply N; lia); try (apply Va || apply Vb; lia).
    rewrite !x_div, x_mul by easy. reflexivity.
Qed.
