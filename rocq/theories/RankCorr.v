(** * Rank correlations (correlation.rs [srcc], [krcc], [hoeffd]). *)

From Coq Require Import Permutation Sorted.
From Verif Require Export CorrReal Rank.
Local Unset Implicit Arguments.

(** ** A sort that satisfies the contract exists *)
Section StableSort.
  Context {F : Type} {O : FOps F}.
  Lemma insert_idx_perm (data : list F) i l : Permutation (i :: l) (insert_idx data i l).
  Proof.
    induction l as [|j l IH]; cbn; [easy|]. destruct (fltb _ _); [easy|].
    rewrite perm_swap. now rewrite <- IH.
  Qed.
  Let up (data : list F) i j : Prop := fltb (at_ data j) (at_ data i) = false.
  Lemma insert_idx_sorted (data : list F) i l : comparable data -> i < length data ->
    (forall j, In j l -> j < length data) -> StronglySorted (up data) l -> StronglySorted (up data) (insert_idx data i l).
  Proof.
    intros C Hi. assert (I : forall k, k < length data -> In (at_ data k) data) by (intros; now apply nth_In).
    destruct C as (_ & Asy & NT & _).
    induction l as [|j l IH]; intros Hl Sl; cbn [insert_idx]; [repeat constructor|].
    apply StronglySorted_inv in Sl. destruct Sl as [Sl Fl]. rewrite Forall_forall in Fl.
    assert (Hj : j < length data) by (apply Hl; now left).
    destruct (fltb (at_ data i) (at_ data j)) eqn:E.
    - constructor; [constructor; [easy|now apply Forall_forall]|].
      apply Forall_forall. intros k [<-|Hk]; unfold up.
      + apply Asy; auto.
      + apply (NT (at_ data i) (at_ data j) (at_ data k)); auto. apply I, Hl. now right. now apply Fl.
    - constructor; [apply IH; [intros; apply Hl; now right|easy]|].
      apply Forall_forall. intros k Hk. eapply Permutation_in in Hk; [|symmetry; apply insert_idx_perm].
      destruct Hk as [<-|Hk]; [exact E|now apply Fl].
  Qed.
  Theorem stable_argsort_sorts (data : list F) : comparable data -> sorts (stable_argsort data) data.
  Proof.
    intros C. unfold stable_argsort.
    assert (G : forall k acc, (forall j, In j k -> j < length data) -> (forall j, In j acc -> j < length data) ->
      StronglySorted (up data) acc ->
      Permutation (acc ++ k) (fold_left (fun l i => insert_idx data i l) k acc) /\
      StronglySorted (up data) (fold_left (fun l i => insert_idx data i l) k acc)).
    { induction k as [|i k IH]; intros acc Hk Ha Sa; cbn [fold_left]; [now rewrite app_nil_r|].
      assert (Hi : i < length data) by (apply Hk; now left).
      destruct (IH (insert_idx data i acc)) as [P Sr].
      - intros; apply Hk; now right.
      - intros j Hj. eapply Permutation_in in Hj; [|symmetry; apply insert_idx_perm]. destruct Hj as [<-|Hj]; auto.
      - now apply insert_idx_sorted.
      - split; [|easy]. rewrite <- P. rewrite <- insert_idx_perm. symmetry. apply Permutation_middle. }
    destruct (G (seq 0 (length data)) []) as [P Sr].
    - intros j Hj. apply in_seq in Hj. lia.
    - easy.
    - constructor.
    - split; [exact P|]. clear G. intros p q i j x y Hpq Hi Hj Hx Hy.
      assert (U : up data i j).
      { clear P Hx Hy C. revert p q Hpq Hi Hj. induction Sr as [|a l Sl IH Fl]; intros [|p] [|q] Hpq Hi Hj; cbn in *; try easy; try lia.
        - injection Hi as ->. rewrite Forall_forall in Fl. apply Fl. eapply nth_error_In; eauto.
        - apply (IH p q); try easy. lia. }
      unfold up, at_ in U. rewrite (nth_error_nth _ _ fnan Hx), (nth_error_nth _ _ fnan Hy) in U. exact U.
  Qed.
End StableSort.

(** Real numbers are comparable. *)
Lemma comparable_R (l : list R) : comparable (map Fin l).
Proof.
  assert (I : forall x, In x (map Fin l) -> exists r, x = Fin r) by (intros x Hx; apply in_map_iff in Hx as (r & <- & _); eauto).
  split; [|split; [|split]].
  - intros x Hx. now destruct (I x Hx) as [r ->].
  - intros x y Hx Hy. destruct (I x Hx) as [r ->], (I y Hy) as [s ->]. rewrite !x_ltb. intros H.
    apply Rltb_true in H. apply Rltb_false. lra.
  - intros x y z Hx Hy Hz. destruct (I x Hx) as [r ->], (I y Hy) as [s ->], (I z Hz) as [t ->]. rewrite !x_ltb.
    rewrite !Rltb_false. lra.
  - intros x y Hx Hy. destruct (I x Hx) as [r ->], (I y Hy) as [s ->]. rewrite !x_ltb, x_eqb. rcase; cbn; lra || easy.
Qed.

Local Open Scope R_scope.

(** ** Spearman *)

(** One more than the number of smaller items. *)
Definition min_rank (l : list R) (y : R) : R := INR (1 + count (fun x => Rltb x y) l).
Definition min_ranks (l : list R) : list R := map (min_rank l) l.

Lemma count_map {A B} (p : B -> bool) (g : A -> B) l : count p (map g l) = count (fun x => p (g x)) l.
Proof. unfold count. induction l as [|x l IH]; cbn; [easy|]. destruct (p (g x)); cbn; now rewrite IH. Qed.

Lemma x_rank_min srt l : sorts (srt (map Fin l)) (map Fin l) -> l <> [] ->
  rank srt (map Fin l) None = Ok (map Fin (min_ranks l)).
Proof.
  intros Sr Hn. destruct (rank_min srt (map Fin l) (comparable_R l) Sr) as [E1 E2]; [destruct l; easy|].
  rewrite E2, E1. f_equal. unfold min_ranks. rewrite !map_map. apply map_ext. intros y.
  rewrite x_nat, count_map. reflexivity.
Qed.

Lemma x_cov_stdev a b n : length a = n -> length b = n -> (2 <= n)%nat ->
  cov_stdev (map Fin a) (map Fin b) =
  Ok (Fin (INR n / INR (n - 1) * cov a b), Fin (sqrt (INR n / INR (n - 1) * var a)), Fin (sqrt (INR n / INR (n - 1) * var b))).
Proof.
  intros La Lb Hn. unfold cov_stdev. rewrite !map_length, La, Lb.
  assert (S : forall l : list R, length l = n -> fdiv (fold_left (fun acc v => fadd acc v) (map Fin l) (flit 0 1)) (fofnat n) = Fin (mean l)).
  { intros l Ll. rewrite x_lit. change (fun acc v : xr => fadd acc v) with (@fadd xr XR).
    change (Fin 0) with (@fsum0 xr XR). fold (fsum (map Fin l)). rewrite x_fsum, x_nat, x_div by (apply INR_neq0; lia).
    unfold mean. now rewrite Ll. }
  rewrite !S by easy. unfold usub. destruct (Nat.leb_spec 1 n); [|lia]. cbn [bind].
  assert (P : 0 < INR (n - 1)) by (apply INR_pos; lia). assert (Q : 0 < INR n) by (apply INR_pos; lia).
  rewrite !x_sum_dev2, !x_nat, !x_div by lra.
  assert (D : forall l : list R, length l = n -> Rsum (map (fun x => (x - mean l) ^ 2) l) / INR (n - 1) = INR n / INR (n - 1) * var l).
  { intros l Ll. rewrite var_dev. unfold dev. rewrite Ll. field. lra. }
  rewrite !D by easy. rewrite !x_sqrt by (apply Rmult_le_pos; [apply Rlt_le, Rdiv_lt_0_compat; easy|apply var_nonneg]).
  rewrite combine_map, fold_left_map. rewrite x_lit.
  rewrite (x_fold_add (fun p => fmul (fsub (Fin (fst p)) (Fin (mean a))) (fsub (Fin (snd p)) (Fin (mean b))))
             (fun p => (fst p - mean a) * (snd p - mean b))) by (intros; xr; reflexivity).
  rewrite x_div by lra. rewrite Rplus_0_l.
  replace (INR n / INR (n - 1) * cov a b) with (Rsum (map (fun p => (fst p - mean a) * (snd p - mean b)) (combine a b)) / INR (n - 1)); [reflexivity|].
  unfold cov. set (l := map _ _).
  assert (Ll : length l = n) by (unfold l; rewrite map_length, combine_length, La, Lb, Nat.min_id; easy).
  unfold mean. rewrite Ll. field. lra.
Qed.

(** The sample normalisations cancel. *)
Lemma sample_pearson k c va vb : 0 < k -> 0 <= va -> 0 <= vb -> (va = 0 \/ vb = 0 -> c = 0) ->
  quot (k * c) (sqrt (k * va) * sqrt (k * vb)) = if Req (va * vb) 0 then NaN else Fin (c / (sqrt va * sqrt vb)).
Proof.
  intros Hk Ha Hb Hc. rewrite !sqrt_mult by lra. pose proof (sqrt_sqrt k ltac:(lra)) as Sk.
  destruct (Req (va * vb) 0) eqn:Z.
  - apply Req_true in Z. apply Rmult_integral in Z. rewrite Hc by easy.
    replace (sqrt k * sqrt va * (sqrt k * sqrt vb)) with 0; [rewrite Rmult_0_r; apply quot_0_0|].
    destruct Z as [-> | ->]; rewrite sqrt_0; ring.
  - apply Req_false in Z. assert (va <> 0 /\ vb <> 0) as [Za Zb] by (split; intros E0; apply Z; rewrite E0; ring).
    pose proof (sqrt_lt_R0 va ltac:(lra)). pose proof (sqrt_lt_R0 vb ltac:(lra)). pose proof (sqrt_lt_R0 k Hk).
    rewrite quot_ok; [|assert (0 < sqrt k * sqrt va) by nra; assert (0 < sqrt k * sqrt vb) by nra; nra].
    f_equal. rewrite <- Sk at 1. field. lra.
Qed.

(** [srcc] is Pearson's coefficient of the [Min] ranks inside the two windows;
    NaN when all items of one window are equal; the same for every sort. *)
Theorem srcc_real srt a b w : (2 <= w)%nat ->
  (forall l : list R, sorts (srt (map Fin l)) (map Fin l)) ->
  exists o, srcc srt (map Fin a) (map Fin b) w = Ok o /\
  aligned o (bars2 a b) (w - 1) NaN (fun i =>
    let ra := min_ranks (win w a i) in let rb := min_ranks (win w b i) in
    if Req (var ra * var rb) 0 then NaN else Fin (pearson ra rb)).
Proof.
  intros Hw Sr. unfold srcc. zap. rewrite zip_windows_val by lia. cbn [bind].
  set (f := fun p : list R * list R => let ra := min_ranks (fst p) in let rb := min_ranks (snd p) in
                if Req (var ra * var rb) 0 then NaN else Fin (pearson ra rb)).
  assert (E : rmap (srcc_win srt) (combine (windows w (map Fin a)) (windows w (map Fin b))) =
    Ok (map f (combine (windows w a) (windows w b)))).
  { rewrite !windows_map, combine_map.
    assert (L : forall p, In p (combine (windows w a) (windows w b)) -> length (fst p) = w /\ length (snd p) = w).
    { intros [x y] Hp. split; eapply windows_length; try lia; [eapply in_combine_l|eapply in_combine_r]; eauto. }
    revert L. generalize (combine (windows w a) (windows w b)). intros ps. induction ps as [|p ps IH]; intros L; [easy|].
    cbn [map rmap]. rewrite IH by (intros; apply L; now right). destruct (L p (or_introl eq_refl)) as [L1 L2].
    assert (V : srcc_win srt (map Fin (fst p), map Fin (snd p)) = Ok (f p)).
    { unfold srcc_win. cbn [fst snd].
      rewrite !x_rank_min by (try apply Sr; intros N; rewrite N in *; cbn in *; lia). cbn [bind].
      rewrite (x_cov_stdev _ _ w) by (try easy; unfold min_ranks; now rewrite map_length). cbn [bind].
      rewrite x_mul, x_quot. f_equal. unfold f. cbv zeta. apply sample_pearson; try apply var_nonneg.
      - apply Rdiv_lt_0_compat; apply INR_pos; lia.
      - apply cov_zero. unfold min_ranks. rewrite !map_length. lia. }
    rewrite V. reflexivity. }
  rewrite E. cbn [bind]. eexists; split; [reflexivity|]. change (@fnan xr XR) with NaN.
  change (aligned (pad (w - 1) NaN ++ map f (combine (windows w a) (windows w b))) (bars2 a b) (w - 1) NaN (fun i => f (win w a i, win w b i))).
  unfold bars2. apply aligned_pad_map.
  - rewrite combine_length, !length_windows. lia.
  - intros i Hi. exists (win w a i, win w b i). split; [|easy].
    rewrite nth_error_combine, !nth_error_windows_win by lia. reflexivity.
Qed.
Lemma length_min_ranks l : length (min_ranks l) = length l. Proof. apply map_length. Qed.
Theorem spearman_range a b : length a = length b -> -1 <= pearson (min_ranks a) (min_ranks b) <= 1.
Proof. intros L. apply pearson_range. now rewrite !length_min_ranks. Qed.
Theorem spearman_sym a b : pearson (min_ranks a) (min_ranks b) = pearson (min_ranks b) (min_ranks a).
Proof. apply pearson_sym. Qed.
(** Two windows ordered the same way have coefficient 1. *)
Lemma min_ranks_mono (f : R -> R) l : (forall x y, In x l -> In y l -> x < y <-> f x < f y) -> min_ranks (map f l) = min_ranks l.
Proof.
  intros H. unfold min_ranks. rewrite map_map. apply map_ext_in. intros y Hy. unfold min_rank. do 2 f_equal.
  rewrite count_map. unfold count. f_equal. apply filter_ext_in. intros x Hx. specialize (H x y Hx Hy).
  rcase; easy || (exfalso; lra) || tauto.
Qed.
Theorem spearman_monotone (f : R -> R) l : l <> [] -> var (min_ranks l) <> 0 ->
  (forall x y, In x l -> In y l -> x < y <-> f x < f y) -> pearson (min_ranks (map f l)) (min_ranks l) = 1.
Proof.
  intros Hn V H. rewrite min_ranks_mono by easy. rewrite <- (map_id (min_ranks l)) at 1.
  rewrite (map_ext (fun x => x) (fun x => 1 * x + 0)) by (intros; ring). apply pearson_self; try lra.
  intros E. apply Hn. destruct l; easy.
Qed.

(** ** Kendall *)

(** The unordered pairs of positions below [n]. *)
Definition pairs_below (n : nat) : list (nat * nat) :=
  filter (fun p => (fst p <? snd p)%nat) (list_prod (seq 0 n) (seq 0 n)).

Lemma filter_lt_seq i n : filter (fun j => i <? j)%nat (seq 0 n) = seq (i + 1) (n - (i + 1)).
Proof.
  destruct (le_lt_dec n (i + 1)) as [H|H].
  - replace (n - (i + 1))%nat with 0%nat by lia. cbn [seq]. rewrite (filter_ext_in _ (fun _ => false)).
    + induction (seq 0 n); easy.
    + intros j Hj. apply in_seq in Hj. apply Nat.ltb_ge. lia.
  - replace n with ((i + 1) + (n - (i + 1)))%nat at 1 by lia. rewrite seq_app, filter_app.
    rewrite (filter_ext_in _ (fun _ => false) (seq 0 (i + 1))).
    2:{ intros j Hj. apply in_seq in Hj. apply Nat.ltb_ge. lia. }
    rewrite (filter_ext_in _ (fun _ => true) (seq (0 + (i + 1)) _)).
    2:{ intros j Hj. apply in_seq in Hj. apply Nat.ltb_lt. lia. }
    assert (E1 : forall l : list nat, filter (fun _ => false) l = []) by (induction l; easy).
    assert (E2 : forall l : list nat, filter (fun _ => true) l = l) by (induction l as [|x l IH]; cbn; congruence).
    now rewrite E1, E2.
Qed.
Lemma krcc_pairs_spec n : krcc_pairs n = pairs_below n.
Proof.
  unfold krcc_pairs, pairs_below.
  assert (G : forall l, filter (fun p : nat * nat => (fst p <? snd p)%nat) (list_prod l (seq 0 n)) =
    flat_map (fun i => map (fun j => (i, j)) (seq (i + 1) (n - (i + 1)))) l).
  { induction l as [|i l IH]; [easy|]. cbn [list_prod flat_map]. rewrite filter_app, IH. f_equal.
    rewrite <- filter_lt_seq. generalize (seq 0 n). induction l0 as [|j k IHk]; [easy|]. cbn [map filter fst snd].
    destruct (i <? j)%nat; cbn [map]; now rewrite IHk. }
  rewrite G. destruct n as [|n]; [easy|]. replace (S n - 1)%nat with n by lia.
  rewrite seq_S, flat_map_app. cbn [flat_map Nat.add]. replace (S n - (n + 1))%nat with 0%nat by lia.
  cbn. now rewrite !app_nil_r.
Qed.
Lemma In_pairs n i j : In (i, j) (pairs_below n) <-> (i < j < n)%nat.
Proof.
  unfold pairs_below. rewrite filter_In, in_prod_iff, !in_seq. cbn [fst snd]. rewrite Nat.ltb_lt. lia.
Qed.
Lemma length_pairs_below n : (2 * length (pairs_below n) = n * (n - 1))%nat.
Proof.
  rewrite <- krcc_pairs_spec. unfold krcc_pairs.
  assert (G : forall m, (m <= n)%nat -> (2 * length (flat_map (fun i => map (fun j => (i, j)) (seq (i + 1) (n - (i + 1)))) (seq 0 m)) + m * (m + 1) = 2 * m * n)%nat).
  { induction m as [|m IH]; intros Hm; [easy|]. rewrite seq_S, flat_map_app, app_length. cbn [flat_map Nat.add].
    rewrite app_nil_r, map_length, seq_length. specialize (IH ltac:(lia)). nia. }
  specialize (G (n - 1)%nat ltac:(lia)). nia.
Qed.

(** Pairs the two series order the same way, opposite ways; tied pairs. *)
Definition concordant (x y : list R) (p : nat * nat) : bool :=
  Rltb 0 ((nth (fst p) x 0 - nth (snd p) x 0) * (nth (fst p) y 0 - nth (snd p) y 0)).
Definition discordant (x y : list R) (p : nat * nat) : bool :=
  Rltb ((nth (fst p) x 0 - nth (snd p) x 0) * (nth (fst p) y 0 - nth (snd p) y 0)) 0.
Definition tied (x : list R) (p : nat * nat) : bool := Req (nth (fst p) x 0) (nth (snd p) x 0).

(** Kendall's tau-b. *)
Definition tau_b (x y : list R) : R :=
  let P := pairs_below (length x) in
  (INR (count (concordant x y) P) - INR (count (discordant x y) P)) /
  sqrt ((INR (length P) - INR (count (tied x) P)) * (INR (length P) - INR (count (tied y) P))).
Definition tau_den (x y : list R) : R :=
  let P := pairs_below (length x) in
  (INR (length P) - INR (count (tied x) P)) * (INR (length P) - INR (count (tied y) P)).

(** What the code counts as concordant. *)
Definition conc_code (x y : list R) (p : nat * nat) : bool :=
  Bool.eqb (Rltb (nth (fst p) x 0 - nth (snd p) x 0) 0) (Rltb (nth (fst p) y 0 - nth (snd p) y 0) 0) &&
  negb (Req (nth (fst p) x 0) (nth (snd p) x 0)).

Lemma INR_count_cons {A} (p : A -> bool) a l : INR (count p (a :: l)) = (if p a then 1 else 0) + INR (count p l).
Proof. unfold count. cbn [filter]. destruct (p a); cbn [length]; rewrite ?S_INR; lra. Qed.

Lemma x_krcc_counts w x y : length x = w -> length y = w ->
  let P := pairs_below w in
  krcc_counts w (map Fin x) (map Fin y) =
  (Fin (INR (count (conc_code x y) P)), Fin (INR (count (fun p => tied x p && tied y p) P)),
   Fin (INR (count (tied x) P)), Fin (INR (count (tied y) P))).
Proof.
  intros Lx Ly P. unfold krcc_counts. rewrite krcc_pairs_spec. fold P.
  assert (B : forall i j, In (i, j) P -> (i < w /\ j < w)%nat) by (intros i j H; apply In_pairs in H; lia).
  assert (G : forall l a b c d, (forall i j, In (i, j) l -> (i < w /\ j < w)%nat) ->
    fold_left (fun '(nc, xyt, xt, yt) '(i, j) =>
                 let xi := at_ (map Fin x) i in let xj := at_ (map Fin x) j in
                 let yi := at_ (map Fin y) i in let yj := at_ (map Fin y) j in
                 (fadd nc (fbool (feqb (fsignum (fsub xi xj)) (fsignum (fsub yi yj)) && fneb xi xj)),
                  fadd xyt (fbool (feqb xi xj && feqb yi yj)), fadd xt (fbool (feqb xi xj)), fadd yt (fbool (feqb yi yj))))
       l (Fin a, Fin b, Fin c, Fin d) =
    (Fin (a + INR (count (conc_code x y) l)), Fin (b + INR (count (fun p => tied x p && tied y p) l)),
     Fin (c + INR (count (tied x) l)), Fin (d + INR (count (tied y) l)))).
  { induction l as [|[i j] l IH]; intros a b c d Hl; cbn [fold_left].
    - unfold count. cbn. now rewrite !Rplus_0_r.
    - destruct (Hl i j (or_introl eq_refl)) as [Hi Hj]. cbv zeta. rewrite !x_at by lia.
      rewrite !x_sub. unfold fneb. rewrite !x_eqb, !x_bool, !x_add.
      rewrite IH by (intros; apply Hl; now right). rewrite !INR_count_cons.
      assert (Sg : forall u v, feqb (fsignum (Fin u)) (fsignum (Fin v)) = Bool.eqb (Rltb u 0) (Rltb v 0)).
      { intros u v. unfold fsignum. cbn [fisnan fsignbit XR]. rewrite x_lit. destruct (Rltb u 0), (Rltb v 0); cbn; rcase; lra || easy. }
      rewrite Sg. do 3 (apply f_equal2; [|apply f_equal; unfold conc_code, tied; cbn [fst snd]; ring]). apply f_equal; unfold conc_code, tied; cbn [fst snd]; ring. }
  rewrite x_lit. rewrite G by easy. now rewrite !Rplus_0_l.
Qed.

(** What [krcc] computes, whatever the ties. *)
Definition krcc_formula (x y : list R) : xr :=
  let P := pairs_below (length x) in
  let nc := INR (count (conc_code x y) P) in
  let nd := INR (length P) - nc - INR (count (tied x) P) - INR (count (tied y) P) + INR (count (fun p => tied x p && tied y p) P) in
  quot (nc - nd) (sqrt (tau_den x y)).

Lemma count_le_len {A} (p : A -> bool) l : INR (count p l) <= INR (length l).
Proof. apply le_INR, count_le. Qed.
Lemma tau_den_nonneg x y : 0 <= tau_den x y.
Proof.
  unfold tau_den. apply Rmult_le_pos.
  - pose proof (count_le_len (tied x) (pairs_below (length x))). lra.
  - pose proof (count_le_len (tied y) (pairs_below (length x))). lra.
Qed.

Lemma x_krcc_win w x y : length x = w -> length y = w -> (N.of_nat w <= 2 ^ 32)%N ->
  krcc_win w (map Fin x, map Fin y) = Ok (krcc_formula x y).
Proof.
  intros Lx Ly Hw. destruct (krcc_win w (map Fin x, map Fin y)) as [v|] eqn:E.
  2:{ apply krcc_win_panic in E. lia. }
  rewrite <- E. revert E. unfold krcc_win. cbn [fst snd]. rewrite x_krcc_counts by easy. cbv zeta.
  unfold umul. destruct (N.ltb _ _); [|easy]. cbn [bind]. intros _. f_equal.
  assert (T : fmul (@fofN xr XR (N.of_nat w * N.of_nat (w - 1))) (flit 5 10) = Fin (INR (length (pairs_below w)))).
  { rewrite x_ofN, x_frac, x_mul. f_equal. rewrite <- Nnat.Nat2N.inj_mul, IZR_N.
    rewrite <- length_pairs_below, mult_INR. cbn [INR]. lra. }
  rewrite T, !x_sub, x_add, x_sub, x_mul. unfold krcc_formula. rewrite Lx.
  assert (D := tau_den_nonneg x y). unfold tau_den in *. rewrite Lx in *.
  rewrite x_sqrt by easy. rewrite x_quot. reflexivity.
Qed.
Theorem krcc_real_formula a b w : (0 < w)%nat -> (N.of_nat w <= 2 ^ 32)%N ->
  exists o, krcc (map Fin a) (map Fin b) w = Ok o /\
  aligned o (bars2 a b) (w - 1) NaN (fun i => krcc_formula (win w a i) (win w b i)).
Proof.
  intros Hw Hb. unfold krcc. zap. rewrite zip_windows_val by lia. cbn [bind].
  set (f := fun p : list R * list R => krcc_formula (fst p) (snd p)).
  assert (E : rmap (krcc_win w) (combine (windows w (map Fin a)) (windows w (map Fin b))) = Ok (map f (combine (windows w a) (windows w b)))).
  { rewrite !windows_map, combine_map.
    assert (L : forall p, In p (combine (windows w a) (windows w b)) -> length (fst p) = w /\ length (snd p) = w).
    { intros [x y] Hp. split; eapply windows_length; try lia; [eapply in_combine_l|eapply in_combine_r]; eauto. }
    revert L. generalize (combine (windows w a) (windows w b)). intros ps. induction ps as [|p ps IH]; intros L; [easy|].
    cbn [map rmap]. rewrite IH by (intros; apply L; now right). destruct (L p (or_introl eq_refl)) as [L1 L2].
    rewrite x_krcc_win by easy. reflexivity. }
  rewrite E. cbn [bind]. eexists; split; [reflexivity|]. change (@fnan xr XR) with NaN.
  change (aligned (pad (w - 1) NaN ++ map f (combine (windows w a) (windows w b))) (bars2 a b) (w - 1) NaN (fun i => f (win w a i, win w b i))).
  unfold bars2. apply aligned_pad_map.
  - rewrite combine_length, !length_windows. lia.
  - intros i Hi. exists (win w a i, win w b i). split; [|easy].
    rewrite nth_error_combine, !nth_error_windows_win by lia. reflexivity.
Qed.

(** Counting pairs by kind. *)
Lemma kinds x y l : INR (length l) =
  INR (count (concordant x y) l) + INR (count (discordant x y) l) +
  (INR (count (tied x) l) + INR (count (tied y) l) - INR (count (fun p => tied x p && tied y p) l)).
Proof.
  induction l as [|p l IH]; [unfold count; cbn; lra|]. rewrite !INR_count_cons. cbn [length]. rewrite S_INR, IH.
  assert (K : 1 = (if concordant x y p then 1 else 0) + (if discordant x y p then 1 else 0) +
     ((if tied x p then 1 else 0) + (if tied y p then 1 else 0) - (if tied x p && tied y p then 1 else 0))).
  { unfold concordant, discordant, tied. rcase; cbn; try lra; exfalso; nra. }
  rewrite K at 1. lra.
Qed.
(** When the second series ties only where the first does (in particular when it
    has no ties), the output is Kendall's tau-b. *)
Lemma krcc_formula_tau x y :
  (forall i j, (i < j < length x)%nat -> nth i y 0 = nth j y 0 -> nth i x 0 = nth j x 0) ->
  krcc_formula x y = if Req (tau_den x y) 0 then NaN else Fin (tau_b x y).
Proof.
  intros H. unfold krcc_formula. set (P := pairs_below (length x)).
  assert (C : count (conc_code x y) P = count (concordant x y) P).
  { unfold count. f_equal. apply filter_ext_in. intros [i j] Hp. apply In_pairs in Hp.
    specialize (H i j Hp). unfold conc_code, concordant. cbn [fst snd]. rcase; cbn; try easy; exfalso; try nra.
    all: try (assert (nth i y 0 = nth j y 0) by nra; specialize (H ltac:(easy)); lra). }
  rewrite C. pose proof (kinds x y P) as K.
  replace (INR (length P) - _ - _ - _ + _) with (INR (count (discordant x y) P)) by lra.
  pose proof (tau_den_nonneg x y) as D. destruct (Req (tau_den x y) 0) eqn:Z.
  - apply Req_true in Z. rewrite Z, sqrt_0.
    replace (INR (count (concordant x y) P) - INR (count (discordant x y) P)) with 0; [apply quot_0_0|].
    assert (Hc : forall q, 0 <= INR (count q P)) by (intros; apply pos_INR).
    assert (X1 : INR (count (concordant x y) P) + INR (count (discordant x y) P) <= INR (length P) - INR (count (tied x) P)).
    { assert (INR (count (fun p => tied x p && tied y p) P) <= INR (count (tied y) P)); [|lra].
      apply le_INR. unfold count. clear. induction P as [|p P IH]; [easy|]. cbn. destruct (tied x p), (tied y p); cbn; lia. }
    assert (X2 : INR (count (concordant x y) P) + INR (count (discordant x y) P) <= INR (length P) - INR (count (tied y) P)).
    { assert (INR (count (fun p => tied x p && tied y p) P) <= INR (count (tied x) P)); [|lra].
      apply le_INR. unfold count. clear. induction P as [|p P IH]; [easy|]. cbn. destruct (tied x p), (tied y p); cbn; lia. }
    pose proof (Hc (concordant x y)). pose proof (Hc (discordant x y)). unfold tau_den in Z. fold P in Z.
    apply Rmult_integral in Z. destruct Z; lra.
  - apply Req_false in Z. rewrite quot_ok; [reflexivity|]. apply Rgt_not_eq, sqrt_lt_R0. lra.
Qed.
Theorem krcc_real a b w : (0 < w)%nat -> (N.of_nat w <= 2 ^ 32)%N ->
  (forall i j, (i < j < length b)%nat -> nth i b 0 = nth j b 0 -> nth i a 0 = nth j a 0) -> length a = length b ->
  exists o, krcc (map Fin a) (map Fin b) w = Ok o /\
  aligned o (bars2 a b) (w - 1) NaN (fun i => if Req (tau_den (win w a i) (win w b i)) 0 then NaN
                                              else Fin (tau_b (win w a i) (win w b i))).
Proof.
  intros Hw Hb T L. destruct (krcc_real_formula a b w Hw Hb) as (o & E & A). exists o. split; [easy|].
  revert A. apply aligned_ext. intros i Hi. unfold bars2 in Hi. apply krcc_formula_tau. intros p q Hp.
  rewrite length_win in Hp by lia.
  assert (N : forall (l : list R) j, (i < length l)%nat -> (j < w)%nat -> nth j (win w l i) 0 = nth (i + 1 - w + j) l 0).
  { intros l j Hl Hj. assert (Hx : (i + 1 - w + j < length l)%nat) by lia. apply nth_error_nth. rewrite nth_error_win by easy. now apply nth_error_nth'. }
  rewrite !N by lia. apply T. lia.
Qed.
(** Tau-b lies in [-1, 1], is symmetric, and is 1 on windows ordered alike. *)
Lemma kind_bounds x y P : INR (count (concordant x y) P) + INR (count (discordant x y) P) <= INR (length P) - INR (count (tied x) P) /\
  INR (count (concordant x y) P) + INR (count (discordant x y) P) <= INR (length P) - INR (count (tied y) P).
Proof.
  pose proof (kinds x y P).
  assert (INR (count (fun p => tied x p && tied y p) P) <= INR (count (tied y) P)).
  { apply le_INR. unfold count. clear. induction P as [|p P IH]; [easy|]. cbn. destruct (tied x p), (tied y p); cbn; lia. }
  assert (INR (count (fun p => tied x p && tied y p) P) <= INR (count (tied x) P)).
  { apply le_INR. unfold count. clear. induction P as [|p P IH]; [easy|]. cbn. destruct (tied x p), (tied y p); cbn; lia. }
  lra.
Qed.
Theorem tau_b_range x y : -1 <= tau_b x y <= 1.
Proof.
  unfold tau_b. set (P := pairs_below (length x)). destruct (kind_bounds x y P) as [B1 B2].
  pose proof (pos_INR (count (concordant x y) P)). pose proof (pos_INR (count (discordant x y) P)).
  set (c := INR (count (concordant x y) P)) in *. set (d := INR (count (discordant x y) P)) in *.
  set (u := INR (length P) - INR (count (tied x) P)) in *. set (v := INR (length P) - INR (count (tied y) P)) in *.
  assert (G : Rabs ((c - d) / sqrt (u * v)) <= 1); [|revert G; unfold Rabs; destruct (Rcase_abs _); lra].
  assert (S : Rabs (c - d) <= sqrt (u * v)).
  { rewrite <- sqrt_Rsqr_abs. apply sqrt_le_1_alt. unfold Rsqr. apply Rle_trans with ((c + d) * (c + d)); [nra|].
    apply Rmult_le_compat; lra. }
  destruct (Req_dec (sqrt (u * v)) 0) as [Z|NZ].
  - rewrite Z. unfold Rdiv. rewrite Rinv_0, Rmult_0_r, Rabs_R0. lra.
  - pose proof (sqrt_pos (u * v)). unfold Rdiv. rewrite Rabs_mult, Rabs_inv, (Rabs_pos_eq (sqrt _)) by easy.
    apply Rmult_le_reg_r with (sqrt (u * v)); [lra|]. rewrite Rmult_assoc, Rinv_l by easy. lra.
Qed.
Theorem tau_b_sym x y : length x = length y -> tau_b x y = tau_b y x.
Proof.
  intros L. unfold tau_b. rewrite <- L. set (P := pairs_below (length x)).
  assert (E1 : count (concordant x y) P = count (concordant y x) P).
  { unfold count, concordant. f_equal. apply filter_ext. intros p. now rewrite Rmult_comm. }
  assert (E2 : count (discordant x y) P = count (discordant y x) P).
  { unfold count, discordant. f_equal. apply filter_ext. intros p. now rewrite Rmult_comm. }
  rewrite E1, E2. do 2 f_equal. apply Rmult_comm.
Qed.
Theorem tau_b_monotone x y : (2 <= length x)%nat ->
  (forall i j, (i < j < length x)%nat -> (nth i x 0 < nth j x 0 /\ nth i y 0 < nth j y 0) \/ (nth j x 0 < nth i x 0 /\ nth j y 0 < nth i y 0)) ->
  tau_b x y = 1.
Proof.
  intros Hn H. unfold tau_b. set (P := pairs_below (length x)).
  assert (C : count (concordant x y) P = length P).
  { apply count_all. intros [i j] Hp. apply In_pairs in Hp. unfold concordant. cbn [fst snd]. apply Rltb_true.
    specialize (H i j Hp). nra. }
  assert (D : count (discordant x y) P = 0%nat).
  { apply count_none. intros [i j] Hp. apply In_pairs in Hp. unfold discordant. cbn [fst snd]. apply Rltb_false.
    specialize (H i j Hp). nra. }
  assert (Tx : count (tied x) P = 0%nat).
  { apply count_none. intros [i j] Hp. apply In_pairs in Hp. unfold tied. cbn [fst snd]. apply Req_false.
    specialize (H i j Hp). lra. }
  assert (Ty : count (tied y) P = 0%nat).
  { apply count_none. intros [i j] Hp. apply In_pairs in Hp. unfold tied. cbn [fst snd]. apply Req_false.
    specialize (H i j Hp). lra. }
  rewrite C, D, Tx, Ty. cbn [INR]. rewrite !Rminus_0_r.
  assert (0 < length P)%nat. { pose proof (length_pairs_below (length x)). fold P in H0. nia. }
  rewrite sqrt_square by apply pos_INR. field. now apply INR_neq0.
Qed.

(** With ties in the second series only, the range is violated and the arguments
    are not interchangeable. *)
Theorem krcc_range_refuted : exists a b o r, krcc (map Fin a) (map Fin b) 3 = Ok o /\ nth_error o 2 = Some (Fin r) /\ 1 < r.
Proof.
  destruct (krcc_real_formula [3; 2; 1] [2; 1; 1] 3) as (o & E & L & W & V); [lia|easy|].
  specialize (V 2%nat). unfold bars2 in V. cbn [length Nat.min Nat.sub] in V. specialize (V ltac:(lia)).
  exists [3; 2; 1], [2; 1; 1], o, (4 / sqrt 6). split; [easy|]. rewrite V.
  unfold krcc_formula, tau_den, win, count, conc_code, tied, pairs_below. cbn [firstn skipn Nat.add Nat.sub length list_prod seq app map filter fst snd Nat.ltb Nat.leb nth].
  assert (T : forall a b : R, a <> b -> Req a b = false) by (intros; now apply Req_false).
  assert (T2 : forall a : R, Req a a = true) by (intros; now apply Req_true).
  assert (U : forall a b : R, b <= a -> Rltb a b = false) by (intros; now apply Rltb_false).
  rewrite !U by lra. rewrite !T2, !T by lra. cbn [Bool.eqb andb negb length INR].
  assert (S6 : 0 < sqrt 6) by (apply sqrt_lt_R0; lra).
  replace ((1 + 1 + 1 - 0) * (1 + 1 + 1 - 1)) with 6 by ring. rewrite quot_ok by lra. split.
  - do 2 f_equal. field. lra.
  - apply Rmult_lt_reg_r with (sqrt 6); [easy|]. unfold Rdiv. rewrite Rmult_assoc, Rinv_l by lra.
    assert (sqrt 6 < 4); [|lra]. replace 4 with (sqrt (4 * 4)) by (apply sqrt_square; lra). apply sqrt_lt_1_alt. lra.
Qed.

(** ** Hoeffding *)

(** Mean of the least and the greatest position an item can take when sorting. *)
Definition avg_rank (l : list R) (y : R) : R :=
  (1 + INR (count (fun x => Rltb x y) l) + INR (count (fun x => negb (Rltb y x)) l)) / 2.
Definition avg_ranks (l : list R) : list R := map (avg_rank l) l.

(** Bivariate rank of position [i]: one, plus the positions below in both, with
    ties counted by a quarter (both tied) or a half (one tied). *)
Definition half_step (a b : R) : R := if Rltb a b then 1 else if Req a b then / 2 else 0.
Definition joint_rank (r s : list R) (i : nat) : R :=
  1 + Rsum (map (fun j => if (j =? i)%nat then 0
                          else half_step (nth j r 0) (nth i r 0) * half_step (nth j s 0) (nth i s 0)) (seq 0 (length r))).

Definition hoeffding_d (x y : list R) : R :=
  let n := INR (length x) in
  let r := avg_ranks x in let s := avg_ranks y in
  let ix := seq 0 (length x) in
  let q := joint_rank r s in
  let d1 := Rsum (map (fun i => (q i - 1) * (q i - 2)) ix) in
  let d2 := Rsum (map (fun i => (nth i r 0 - 1) * (nth i r 0 - 2) * (nth i s 0 - 1) * (nth i s 0 - 2)) ix) in
  let d3 := Rsum (map (fun i => (nth i r 0 - 2) * (nth i s 0 - 2) * (q i - 1)) ix) in
  30 * ((n - 2) * (n - 3) * d1 + d2 - 2 * (n - 2) * d3) / (n * (n - 1) * (n - 2) * (n - 3) * (n - 4)).

Lemma x_rank_avg srt l : sorts (srt (map Fin l)) (map Fin l) -> l <> [] ->
  rank srt (map Fin l) (Some RAverage) = Ok (map Fin (avg_ranks l)).
Proof.
  intros Sr Hn. rewrite (rank_average srt (map Fin l) (comparable_R l) Sr) by (destruct l; easy).
  f_equal. unfold avg_ranks. rewrite !map_map. apply map_ext. intros y.
  rewrite x_nat, x_lit, x_div by lra. f_equal. unfold avg_rank. rewrite !count_map, !plus_INR. cbn [INR].
  change (fun x => fltb (Fin x) (Fin y)) with (fun x => Rltb x y).
  change (fun x => negb (fltb (Fin y) (Fin x))) with (fun x => negb (Rltb y x)). lra.
Qed.

Lemma combine_seq (r s : list R) n : length r = n -> length s = n ->
  combine r s = map (fun i => (nth i r 0, nth i s 0)) (seq 0 n).
Proof.
  intros Lr Ls. apply nth_error_ext. intros i. rewrite nth_error_combine, nth_error_map'.
  destruct (le_lt_dec n i) as [H|H].
  - rewrite !(proj2 (nth_error_None _ i)); [easy| |]; rewrite ?seq_length; lia.
  - rewrite nth_error_seq, !(nth_error_nth' _ 0) by lia. reflexivity.
Qed.
Lemma Rsum_remove (f : nat -> R) n i : (i < n)%nat ->
  Rsum (map f (seq 0 n)) = f i + Rsum (map (fun j => if (j =? i)%nat then 0 else f j) (seq 0 n)).
Proof.
  intros Hi. assert (G : forall a m, (a <= i < a + m)%nat ->
    Rsum (map f (seq a m)) = f i + Rsum (map (fun j => if (j =? i)%nat then 0 else f j) (seq a m))).
  { clear Hi. intros a m. revert a. induction m as [|m IH]; intros a H; [lia|]. cbn [seq map]. rewrite !Rsum_cons.
    destruct (Nat.eqb_spec a i) as [->|N].
    - rewrite (map_ext_in (fun j => if (j =? i)%nat then 0 else f j) f); [lra|].
      intros j Hj. apply in_seq in Hj. destruct (Nat.eqb_spec j i); [lia|easy].
    - rewrite IH by lia. lra. }
  apply G. lia.
Qed.
Lemma x_hoeffd_q r s n i : length r = n -> length s = n -> (i < n)%nat ->
  hoeffd_q (map Fin r) (map Fin s) i = Fin (joint_rank r s i).
Proof.
  intros Lr Ls Hi. unfold hoeffd_q. rewrite !x_at by lia. rewrite combine_map, (combine_seq r s n) by easy.
  rewrite map_map, fold_left_map. cbn [fst snd]. set (ri := nth i r 0). set (si := nth i s 0).
  assert (G : forall l a, fold_left (fun q j =>
       fadd (fadd (fadd q (fbool (fltb (Fin (nth j r 0)) (Fin ri) && fltb (Fin (nth j s 0)) (Fin si))))
         (fmul (flit 25 100) (fbool (feqb (Fin (nth j r 0)) (Fin ri) && feqb (Fin (nth j s 0)) (Fin si)))))
         (fmul (flit 5 10) (fbool ((feqb (Fin (nth j r 0)) (Fin ri) && fltb (Fin (nth j s 0)) (Fin si)) ||
                                    (fltb (Fin (nth j r 0)) (Fin ri) && feqb (Fin (nth j s 0)) (Fin si)))))) l (Fin a)
     = Fin (a + Rsum (map (fun j => half_step (nth j r 0) ri * half_step (nth j s 0) si) l))).
  { induction l as [|j l IH]; intros a; cbn [fold_left map]; [rewrite Rsum_nil; f_equal; lra|].
    rewrite !x_bool, !x_frac, !x_mul, !x_add, IH, Rsum_cons, !x_ltb, !x_eqb. f_equal. unfold half_step.
    rcase; cbn [andb orb]; lra. }
  rewrite x_lit. refine (eq_trans (f_equal (fun z => fsub z _) (G (seq 0 n) 1)) _).
  rewrite x_frac, x_sub. f_equal. unfold joint_rank. rewrite Lr.
  rewrite (Rsum_remove (fun j => half_step (nth j r 0) ri * half_step (nth j s 0) si) n i Hi). cbv beta.
  fold ri si. assert (H : forall a, half_step a a = / 2).
  { intros a. unfold half_step. rewrite (proj2 (Rltb_false a a)) by lra. rewrite (proj2 (Req_true a a)) by easy. easy. }
  rewrite !H. lra.
Qed.

Lemma product5 w : (5 <= w)%nat -> (N.of_nat w * N.of_nat (w - 1) * N.of_nat (w - 2) * N.of_nat (w - 3) * N.of_nat (w - 4) < two64)%N ->
  let W := N.of_nat w in
  (W * (W - 1) < two64 /\ W * (W - 1) * (W - 2) < two64 /\ W * (W - 1) * (W - 2) * (W - 3) < two64 /\   W * (W - 1) * (W - 2) * (W - 3) * (W - 4) < two64 /\ (W - 2) * (W - 3) < two64)%N.
Proof.
  intros Hw H W. replace (N.of_nat (w - 1)) with (W - 1)%N in H by lia.
  replace (N.of_nat (w - 2)) with (W - 2)%N in H by lia. replace (N.of_nat (w - 3)) with (W - 3)%N in H by lia.
  replace (N.of_nat (w - 4)) with (W - 4)%N in H by lia. fold W in H. assert (W5 : (5 <= W)%N) by lia. clearbody W. clear Hw w.
  generalize dependent two64. intros T H.
  assert (M : forall a b, (1 <= b)%N -> (a * b < T)%N -> (a < T)%N) by (intros; nia).
  assert (P1 : (W * (W - 1) * (W - 2) * (W - 3) < T)%N) by (apply (M _ (W - 4)%N); [lia|easy]).
  assert (P2 : (W * (W - 1) * (W - 2) < T)%N) by (apply (M _ (W - 3)%N); [lia|easy]).
  assert (P3 : (W * (W - 1) < T)%N) by (apply (M _ (W - 2)%N); [lia|easy]).
  refine (conj P3 (conj P2 (conj P1 (conj H _)))). apply N.le_lt_trans with (W * (W - 1))%N; [|exact P3]. apply N.mul_le_mono; lia.
Qed.

Lemma x_hoeffd_win srt w x y : length x = w -> length y = w -> (5 <= w)%nat ->
  (N.of_nat w * N.of_nat (w - 1) * N.of_nat (w - 2) * N.of_nat (w - 3) * N.of_nat (w - 4) < two64)%N ->
  (forall l : list R, sorts (srt (map Fin l)) (map Fin l)) ->
  hoeffd_win srt w (map Fin x, map Fin y) = Ok (Fin (hoeffding_d x y)).
Proof.
  intros Lx Ly Hw Hb Sr. unfold hoeffd_win. cbn [fst snd].
  rewrite !x_rank_avg by (try apply Sr; intros N; rewrite N in *; cbn in *; lia). cbn [bind].
  set (r := avg_ranks x). set (s := avg_ranks y).
  assert (Lr : length r = w) by (unfold r, avg_ranks; now rewrite map_length).
  assert (Ls : length s = w) by (unfold s, avg_ranks; now rewrite map_length).
  rewrite (map_ext_in _ (fun i => Fin (joint_rank r s i))) by (intros i Hi; apply in_seq in Hi; apply (x_hoeffd_q r s w); lia).
  unfold hoeffd_sums. rewrite !x_lit.
  rewrite fold_left_map, (x_fold_add _ (fun i => (joint_rank r s i - 1) * (joint_rank r s i - 2))) by (intros; xr; reflexivity).
  rewrite combine_map, (combine_seq r s w), map_map, fold_left_map by easy. cbn [fst snd].
  rewrite (x_fold_add _ (fun i => (nth i r 0 - 1) * (nth i r 0 - 2) * (nth i s 0 - 1) * (nth i s 0 - 2))) by (intros; xr; reflexivity).
  assert (Z : zip3 (map (fun i => Fin (joint_rank r s i)) (seq 0 w)) (map Fin r) (map Fin s) =
    map (fun i => (Fin (joint_rank r s i), Fin (nth i r 0), Fin (nth i s 0))) (seq 0 w)).
  { unfold zip3. apply nth_error_ext. intros i. rewrite !nth_error_combine, !nth_error_map'.
    destruct (le_lt_dec w i) as [H|H].
    - rewrite (proj2 (nth_error_None (seq 0 w) i)); [easy|]; rewrite seq_length; lia.
    - rewrite nth_error_seq, !(nth_error_nth' _ 0) by lia. reflexivity. }
  rewrite Z, fold_left_map.
  rewrite (x_fold_add _ (fun i => (nth i r 0 - 2) * (nth i s 0 - 2) * (joint_rank r s i - 1))) by (intros; xr; reflexivity).
  destruct (product5 w Hw Hb) as (P1 & P2 & P3 & P4 & P5).
  unfold usubN, umul. destruct (N.leb_spec 1 (N.of_nat w)); [|lia]. destruct (N.leb_spec 2 (N.of_nat w)); [|lia].
  destruct (N.leb_spec 3 (N.of_nat w)); [|lia]. destruct (N.leb_spec 4 (N.of_nat w)); [|lia]. cbn [bind].
  rewrite (proj2 (N.ltb_lt _ _) P5). cbn [bind]. rewrite (proj2 (N.ltb_lt _ _) P1). cbn [bind].
  rewrite (proj2 (N.ltb_lt _ _) P2). cbn [bind]. rewrite (proj2 (N.ltb_lt _ _) P3). cbn [bind].
  rewrite (proj2 (N.ltb_lt _ _) P4). cbn [bind]. clear P1 P2 P3 P4 P5 Hb.
  rewrite !x_ofN, !N2Z.inj_mul, !mult_IZR.
  change 1%N with (N.of_nat 1). change 2%N with (N.of_nat 2). change 3%N with (N.of_nat 3). change 4%N with (N.of_nat 4).
  rewrite !IZR_N_sub, !IZR_N by lia. cbn [INR].
  replace (1 + 1 + 1 + 1) with 4 by lra. replace (1 + 1 + 1) with 3 by lra. replace (1 + 1) with 2 by lra.
  assert (I : 5 <= INR w) by (replace 5 with (INR 5) by (cbn; lra); now apply le_INR).
  rewrite !Rplus_0_l, !x_mul, !x_add, x_sub, x_mul.
  rewrite x_div by (repeat apply Rmult_integral_contrapositive_currified; lra).
  do 2 f_equal. unfold hoeffding_d. fold r s. rewrite Lx. reflexivity.
Qed.

(** [hoeffd] is Hoeffding's D of the average ranks, from window 5 up to the
    window where the five-fold integer product overflows. *)
Theorem hoeffd_real srt a b w : (5 <= w)%nat ->
  (N.of_nat w * N.of_nat (w - 1) * N.of_nat (w - 2) * N.of_nat (w - 3) * N.of_nat (w - 4) < two64)%N ->
  (forall l : list R, sorts (srt (map Fin l)) (map Fin l)) ->
  exists o, hoeffd srt (map Fin a) (map Fin b) w = Ok o /\
  aligned o (bars2 a b) (w - 1) NaN (fun i => Fin (hoeffding_d (win w a i) (win w b i))).
Proof.
  intros Hw Hb Sr. unfold hoeffd. zap. rewrite zip_windows_val by lia. cbn [bind].
  set (f := fun p : list R * list R => Fin (hoeffding_d (fst p) (snd p))).
  assert (E : rmap (hoeffd_win srt w) (combine (windows w (map Fin a)) (windows w (map Fin b))) = Ok (map f (combine (windows w a) (windows w b)))).
  { rewrite !windows_map, combine_map.
    assert (L : forall p, In p (combine (windows w a) (windows w b)) -> length (fst p) = w /\ length (snd p) = w).
    { intros [x y] Hp. split; eapply windows_length; try lia; [eapply in_combine_l|eapply in_combine_r]; eauto. }
    revert L. generalize (combine (windows w a) (windows w b)). intros ps. induction ps as [|p ps IH]; intros L; [easy|].
    cbn [map rmap]. rewrite IH by (intros; apply L; now right). destruct (L p (or_introl eq_refl)) as [L1 L2].
    rewrite x_hoeffd_win by easy. reflexivity. }
  rewrite E. cbn [bind]. eexists; split; [reflexivity|]. change (@fnan xr XR) with NaN.
  change (aligned (pad (w - 1) NaN ++ map f (combine (windows w a) (windows w b))) (bars2 a b) (w - 1) NaN (fun i => f (win w a i, win w b i))).
  unfold bars2. apply aligned_pad_map.
  - rewrite combine_length, !length_windows. lia.
  - intros i Hi. exists (win w a i, win w b i). split; [|easy].
    rewrite nth_error_combine, !nth_error_windows_win by lia. reflexivity.
Qed.

(** ** Panic domains on comparable data, for every arithmetic *)
Section Panics.
  Context {F : Type} {O : FOps F}.
  Local Open Scope nat_scope.
  Variable srt : sort_oracle F.
  Hypothesis Sr : forall l : list F, comparable l -> sorts (srt l) l.

  Lemma comparable_incl (l m : list F) : comparable l -> (forall x, In x m -> In x l) -> comparable m.
  Proof.
    intros (A & B & C & D) I. split; [|split; [|split]]; intros; [apply A|apply B|apply (C x y z)|apply D]; auto.
  Qed.
  Lemma comparable_window (l m : list F) w : comparable l -> In m (windows w l) -> comparable m.
  Proof.
    intros C Hm. apply (comparable_incl l); [easy|]. intros x Hx. apply In_windows in Hm as (i & _ & ->).
    rewrite <- (firstn_skipn i l). apply in_or_app. right.
    rewrite <- (firstn_skipn w (skipn i l)). apply in_or_app. now left.
  Qed.

  Theorem srcc_outcome (a b : list F) w : comparable a -> comparable b ->
    outcome (srcc srt a b w) (w = 0) (Nat.max (w - 1) (Nat.min (length a) (length b))).
  Proof.
    intros Ca Cb. unfold srcc. zap; [|fin]. rewrite zip_windows_val by lia. cbn [bind].
    destruct (@rmap_no_panic _ _ (srcc_win srt) (combine (windows w a) (windows w b))) as [vs E].
    { intros [x y] Hp P. assert (Hx : In x (windows w a)) by (eapply in_combine_l; eauto).
      assert (Hy : In y (windows w b)) by (eapply in_combine_r; eauto).
      pose proof (comparable_window a x w Ca Hx) as Cx. pose proof (comparable_window b y w Cb Hy) as Cy.
      assert (Lx : length x = w) by (apply windows_length in Hx; [easy|lia]).
      assert (Ly : length y = w) by (apply windows_length in Hy; [easy|lia]).
      revert P. unfold srcc_win. cbn [fst snd].
      assert (Nx : x <> []) by (intros ->; cbn in *; lia). assert (Ny : y <> []) by (intros ->; cbn in *; lia).
      destruct (rank_min srt x Cx (Sr x Cx) Nx) as [E1 ->]. rewrite E1. cbn [bind].
      destruct (rank_min srt y Cy (Sr y Cy) Ny) as [E2 ->]. rewrite E2. cbn [bind].
      unfold cov_stdev. rewrite !map_length, Lx, Ly. unfold usub. destruct (Nat.leb_spec 1 w); [|lia]. easy. }
    rewrite E. cbn [bind]. pose proof (length_rmap E) as Lv. rewrite combine_length, !length_windows in Lv. right.
    split; [lia|]. eexists. split; [reflexivity|]. rewrite app_length, length_pad. lia.
  Qed.

  Lemma hoeffd_win_panic w x y : comparable x -> comparable y -> length x = w -> length y = w -> 0 < w ->
    (hoeffd_win srt w (x, y) = Panic <->
     w < 4 \/ (two64 <= N.of_nat w * N.of_nat (w - 1) * N.of_nat (w - 2) * N.of_nat (w - 3) * N.of_nat (w - 4))%N).
  Proof.
    intros Cx Cy Lx Ly Hw. unfold hoeffd_win. cbn [fst snd].
    assert (Nx : x <> []) by (intros ->; cbn in *; lia). assert (Ny : y <> []) by (intros ->; cbn in *; lia).
    rewrite (rank_average srt x Cx (Sr x Cx) Nx). cbn [bind]. rewrite (rank_average srt y Cy (Sr y Cy) Ny). cbn [bind].
    destruct (hoeffd_sums _ _ _) as [[d1 d2] d3].
    replace (N.of_nat (w - 1)) with (N.of_nat w - 1)%N by lia. replace (N.of_nat (w - 2)) with (N.of_nat w - 2)%N by lia.
    replace (N.of_nat (w - 3)) with (N.of_nat w - 3)%N by lia. replace (N.of_nat (w - 4)) with (N.of_nat w - 4)%N by lia.
    assert (E : w < 4 <-> (N.of_nat w < 4)%N) by lia. rewrite E. clear E. assert (W1 : (1 <= N.of_nat w)%N) by lia.
    generalize dependent (N.of_nat w). intros W W1. unfold usubN, umul.
    destruct (N.leb_spec 1 W); [|lia]. cbn [bind]. destruct (N.leb_spec 2 W); cbn [bind]; [|split; [left; lia|easy]].
    destruct (N.leb_spec 3 W); cbn [bind]; [|split; [left; lia|easy]].
    assert (B4 : (two64 <= (W - 2) * (W - 3) -> 5 <= W)%N).
    { intros B. destruct (N.le_gt_cases 5 W) as [|G]; [easy|]. exfalso.
      assert ((W - 2) * (W - 3) <= 2 * 2)%N by (apply N.mul_le_mono; lia). unfold two64 in B.
      apply N.lt_nge in B; [easy|]. eapply N.le_lt_trans; [eassumption|]. reflexivity. }
    assert (T4 : (4 * 3 * 2 < two64)%N) by reflexivity.
    revert B4 T4. generalize two64. intros T B4 T4.
    assert (M : forall a b, (1 <= b)%N -> (T <= a)%N -> (T <= a * b)%N) by (intros; nia).
    destruct (N.ltb_spec ((W - 2) * (W - 3)) T) as [P5|P5]; cbn [bind].
    2:{ split; [|easy]. intros _. right. specialize (B4 P5).
        assert (T <= W * (W - 1))%N by (apply N.le_trans with ((W - 2) * (W - 3))%N; [easy|apply N.mul_le_mono; lia]).
        apply M; [lia|]. apply M; [lia|]. apply M; [lia|easy]. }
    destruct (N.leb_spec 4 W) as [W4|W4]; cbn [bind]; [|split; [left; lia|easy]].
    destruct (N.eq_dec W 4) as [->|N4].
    { change (4 - 1)%N with 3%N. change (4 - 2)%N with 2%N. change (4 - 3)%N with 1%N. change (4 - 4)%N with 0%N.
      destruct (N.ltb_spec (4 * 3) T); cbn [bind]; [|lia]. destruct (N.ltb_spec (4 * 3 * 2) T); cbn [bind]; [|lia].
      destruct (N.ltb_spec (4 * 3 * 2 * 1) T); cbn [bind]; [|lia]. destruct (N.ltb_spec (4 * 3 * 2 * 1 * 0) T); cbn [bind]; [|lia].
      split; [easy|]. lia. }
    destruct (N.ltb_spec (W * (W - 1)) T) as [P1|P1]; cbn [bind].
    2:{ split; [|easy]. intros _. right. apply M; [lia|]. apply M; [lia|]. apply M; [lia|easy]. }
    destruct (N.ltb_spec (W * (W - 1) * (W - 2)) T) as [P2|P2]; cbn [bind].
    2:{ split; [|easy]. intros _. right. apply M; [lia|]. apply M; [lia|easy]. }
    destruct (N.ltb_spec (W * (W - 1) * (W - 2) * (W - 3)) T) as [P3|P3]; cbn [bind].
    2:{ split; [|easy]. intros _. right. apply M; [lia|easy]. }
    destruct (N.ltb_spec (W * (W - 1) * (W - 2) * (W - 3) * (W - 4)) T) as [P4|P4]; cbn [bind].
    2:{ split; [|easy]. intros _. now right. }
    split; [easy|]. intros [G|G]; [lia|]. apply N.lt_nge in P4. easy.
  Qed.
  (** [hoeffd] panics for windows below 4 and from the overflow on (as soon as a
      full window is there); at window 4 it divides by zero. *)
  Theorem hoeffd_outcome (a b : list F) w : comparable a -> comparable b ->
    outcome (hoeffd srt a b w)
      (w = 0 \/ (w <= Nat.min (length a) (length b) /\
        (w < 4 \/ (two64 <= N.of_nat w * N.of_nat (w - 1) * N.of_nat (w - 2) * N.of_nat (w - 3) * N.of_nat (w - 4))%N)))
      (Nat.max (w - 1) (Nat.min (length a) (length b))).
  Proof.
    intros Ca Cb. unfold hoeffd. zap; [|fin]. rewrite zip_windows_val by lia. cbn [bind].
    set (bad := w < 4 \/ _).
    assert (HW : forall p, In p (combine (windows w a) (windows w b)) -> (hoeffd_win srt w p = Panic <-> bad)).
    { intros [x y] Hp. assert (Hx : In x (windows w a)) by (eapply in_combine_l; eauto).
      assert (Hy : In y (windows w b)) by (eapply in_combine_r; eauto).
      apply hoeffd_win_panic; [now apply (comparable_window a x w)|now apply (comparable_window b y w)| | |lia].
      - apply windows_length in Hx; [easy|lia].
      - apply windows_length in Hy; [easy|lia]. }
    assert (R : outcome (rmap (hoeffd_win srt w) (combine (windows w a) (windows w b)))
       (w <= Nat.min (length a) (length b) /\ bad) (length (combine (windows w a) (windows w b)))).
    { apply rmap_outcome. split.
      - intros (p & Hp & P). apply HW in P; [|easy]. split; [|easy].
        assert (length (combine (windows w a) (windows w b)) <> 0) by (destruct (combine _ _); easy).
        rewrite combine_length, !length_windows in H0. lia.
      - intros (Hl & B). destruct (combine (windows w a) (windows w b)) as [|p l] eqn:E.
        + exfalso. assert (length (combine (windows w a) (windows w b)) = 0) by now rewrite E.
          rewrite combine_length, !length_windows in H0. lia.
        + exists p. split; [now left|]. apply HW; [now left|easy]. }
    destruct R as [[B ->]|[B (o & -> & L)]]; cbn [bind].
    - left. split; [|easy]. now right.
    - right. split; [intros [|]; [lia|easy]|]. eexists. split; [reflexivity|].
      rewrite app_length, length_pad, L, combine_length, !length_windows. lia.
  Qed.
End Panics.
