(** * Forecast error metrics in exact arithmetic (regression.rs). *)

From Verif Require Export DistReal.
Local Unset Implicit Arguments.

(** A [scan] that accumulates with [g] and prints [k state item]. *)
Lemma scan_acc {S A B} (g : S -> A -> S) (k : S -> A -> B) s l i x :
  nth_error l i = Some x ->
  nth_error (scan (fun st a => (g st a, k (g st a) a)) s l) i = Some (k (fold_left g (firstn (i + 1) l) s) x).
Proof.
  intros H. rewrite (nth_error_scan H). cbn [snd]. do 2 f_equal. unfold scan_state. cbn [fst].
  rewrite <- (firstn_skipn i (firstn (i + 1) l)), firstn_firstn, Nat.min_l by lia.
  rewrite fold_left_app. replace (skipn i (firstn (i + 1) l)) with [x]; [easy|].
  revert i H. induction l as [|a l IH]; intros [|i] H; cbn in *; try easy.
  - now injection H as ->.
  - now apply IH.
Qed.
Lemma nth_error_obs {F} {O : FOps F} (d e : list F) i x y : nth_error d i = Some x -> nth_error e i = Some y ->
  nth_error (obs_est d e) i = Some (i, x, y).
Proof.
  intros Hx Hy. unfold obs_est, enumerate. rewrite !nth_error_combine, Hx, Hy.
  rewrite nth_error_seq by (apply nth_error_Some; congruence). reflexivity.
Qed.
Lemma firstn_combine' {A B} n (a : list A) (b : list B) : firstn n (combine a b) = combine (firstn n a) (firstn n b).
Proof. revert a b. induction n; intros [|x a] [|y b]; cbn; try easy. now rewrite IHn. Qed.

(** Folds over [obs_est] that ignore the counter. *)
Lemma fold_obs {F S} {O : FOps F} (h : S -> F -> F -> S) (d e : list F) n s :
  fold_left (fun st '(_, x, y) => h st x y) (firstn n (obs_est d e)) s =
  fold_left (fun st '(x, y) => h st x y) (firstn n (combine d e)) s.
Proof.
  unfold obs_est, enumerate.
  assert (G : forall k n s, fold_left (fun st '(_, x, y) => h st x y)
    (firstn n (combine (combine (seq k (length d)) d) e)) s =
    fold_left (fun st '(x, y) => h st x y) (firstn n (combine d e)) s); [|apply G].
  revert e. induction d as [|x d IH]; intros [|y e] k m t; cbn; try (now destruct m).
  destruct m; cbn; [easy|]. apply IH.
Qed.

Local Open Scope R_scope.

(** The first [i+1] pairs (observed, estimated). *)
Definition seen (d e : list R) (i : nat) : list (R * R) := firstn (i + 1) (combine d e).

Definition sqe (p : R * R) : R := (fst p - snd p) ^ 2.
Definition abe (p : R * R) : R := Rabs (fst p - snd p).

Lemma combine_Fin (d e : list R) : combine (map Fin d) (map Fin e) = map (fun p => (Fin (fst p), Fin (snd p))) (combine d e).
Proof. revert e. induction d as [|x d IH]; intros [|y e]; cbn; try easy. now rewrite IH. Qed.
Lemma x_fold_pairs (h : xr -> xr -> xr) (f : R * R -> R) (d e : list R) n :
  (forall p, In p (firstn n (combine d e)) -> h (Fin (fst p)) (Fin (snd p)) = Fin (f p)) ->
  fold_left (fun st '(x, y) => fadd st (h x y)) (firstn n (combine (map Fin d) (map Fin e))) (flit 0 1) =
  Fin (Rsum (map f (firstn n (combine d e)))).
Proof.
  intros H. rewrite combine_Fin, firstn_map, fold_left_map, x_lit.
  rewrite (x_fold_add (fun p => h (Fin (fst p)) (Fin (snd p))) f) by easy. f_equal. lra.
Qed.
Lemma length_seen d e i : (i < Nat.min (length d) (length e))%nat -> length (seen d e i) = (i + 1)%nat.
Proof. intros H. unfold seen. rewrite firstn_length, combine_length. lia. Qed.
Lemma nth_Fin (l : list R) i : (i < length l)%nat -> nth_error (map Fin l) i = Some (Fin (nth i l 0)).
Proof. intros H. rewrite nth_error_map'. rewrite (nth_error_nth' l 0 H). reflexivity. Qed.

(** The shape of [mse], [rmse], [mae], [mape] and [smape]. *)
Lemma running_mean (h : xr -> xr -> xr) (f : R * R -> R) (k : xr -> xr) (d e : list R) i :
  (i < Nat.min (length d) (length e))%nat ->
  (forall p, In p (seen d e i) -> h (Fin (fst p)) (Fin (snd p)) = Fin (f p)) ->
  forall (c : xr -> xr),
  nth_error (scan (fun st '(cnt, o, es) =>
     let st' := fadd st (h o es) in (st', k (fdiv (c st') (fofnat (cnt + 1))))) (flit 0 1)
     (obs_est (map Fin d) (map Fin e))) i =
  Some (k (fdiv (c (Fin (Rsum (map f (seen d e i))))) (Fin (INR (i + 1))))).
Proof.
  intros Hi Hf c. set (g := fun (st : xr) (a : nat * xr * xr) => let '(cnt, o, es) := a in fadd st (h o es)).
  set (kk := fun (st : xr) (a : nat * xr * xr) => let '(cnt, o, es) := a in k (fdiv (c st) (fofnat (cnt + 1)))).
  assert (E : forall l s, scan (fun st '(cnt, o, es) =>
     let st' := fadd st (h o es) in (st', k (fdiv (c st') (fofnat (cnt + 1))))) s l =
     scan (fun st a => (g st a, kk (g st a) a)) s l).
  { induction l as [|[[cn o] es] l IH]; intros s; cbn [scan]; [easy|]. cbv zeta. unfold g at 2, kk at 1.
    cbn [g]. now rewrite IH. }
  rewrite E. erewrite scan_acc.
  2:{ apply nth_error_obs; apply nth_Fin; lia. }
  unfold kk. rewrite x_nat. do 4 f_equal. unfold g.
  rewrite (fold_obs (fun st x y => fadd st (h x y))). now rewrite (x_fold_pairs h f).
Qed.

Theorem mse_real d e i : (i < Nat.min (length d) (length e))%nat ->
  nth_error (mse (map Fin d) (map Fin e)) i = Some (Fin (mean (map sqe (seen d e i)))).
Proof.
  intros Hi. unfold mse.
  etransitivity; [apply (running_mean (fun o es => powi2 (fsub o es)) sqe (fun x => x) d e i Hi)
    with (c := fun x => x)|].
  - intros [x y] _. cbn [fst snd]. now xr.
  - rewrite x_div by (apply INR_neq0; lia). unfold mean. now rewrite map_length, length_seen.
Qed.
Theorem rmse_real d e i : (i < Nat.min (length d) (length e))%nat ->
  nth_error (rmse (map Fin d) (map Fin e)) i = Some (Fin (sqrt (mean (map sqe (seen d e i))))).
Proof.
  intros Hi. unfold rmse.
  etransitivity; [apply (running_mean (fun o es => powi2 (fsub o es)) sqe fsqrt d e i Hi)
    with (c := fun x => x)|].
  - intros [x y] _. cbn [fst snd]. now xr.
  - rewrite x_div by (apply INR_neq0; lia). rewrite x_sqrt.
    + unfold mean. now rewrite map_length, length_seen.
    + apply Rdiv_nonneg; [|apply pos_INR]. apply Rsum_nonneg. intros x Hx. apply in_map_iff in Hx.
      destruct Hx as (p & <- & _). apply pow2_ge_0.
Qed.
Theorem mae_real d e i : (i < Nat.min (length d) (length e))%nat ->
  nth_error (mae (map Fin d) (map Fin e)) i = Some (Fin (mean (map abe (seen d e i)))).
Proof.
  intros Hi. unfold mae.
  etransitivity; [apply (running_mean (fun o es => fabs (fsub o es)) abe (fun x => x) d e i Hi)
    with (c := fun x => x)|].
  - intros [x y] _. cbn [fst snd]. now xr.
  - rewrite x_div by (apply INR_neq0; lia). unfold mean. now rewrite map_length, length_seen.
Qed.
(** [mape], as long as no observed value is zero. *)
Theorem mape_real d e i : (i < Nat.min (length d) (length e))%nat ->
  (forall p, In p (seen d e i) -> fst p <> 0) ->
  nth_error (mape (map Fin d) (map Fin e)) i =
  Some (Fin (100 * mean (map (fun p => Rabs ((fst p - snd p) / fst p)) (seen d e i)))).
Proof.
  intros Hi H0. unfold mape.
  etransitivity; [apply (running_mean (fun o es => fabs (fdiv (fsub o es) o))
     (fun p => Rabs ((fst p - snd p) / fst p)) (fun x => x) d e i Hi)
    with (c := fun x => fmul (flit 100 1) x)|].
  - intros [x y] Hp. cbn [fst snd]. rewrite x_sub, x_div by (apply (H0 _ Hp)). now xr.
  - rewrite x_lit, x_mul, x_div by (apply INR_neq0; lia). unfold mean. rewrite map_length, length_seen by easy.
    do 2 f_equal. unfold Rdiv. ring.
Qed.

Lemma Rabs_eq_0 x : Rabs x = 0 -> x = 0.
Proof. intros H. unfold Rabs in H. destruct (Rcase_abs x); lra. Qed.

(** The symmetric relative error of a pair; 0 for two zeros. *)
Definition sym_err (p : R * R) : R :=
  if Req (Rabs (fst p) + Rabs (snd p)) 0 then 0
  else Rabs (fst p - snd p) / ((Rabs (fst p) + Rabs (snd p)) / 2).
Theorem smape_real d e i : (i < Nat.min (length d) (length e))%nat ->
  nth_error (smape (map Fin d) (map Fin e)) i = Some (Fin (100 * mean (map sym_err (seen d e i)))).
Proof.
  intros Hi. unfold smape.
  etransitivity; [apply (running_mean (fun o es => fmax (fdiv (fabs (fsub o es)) (fdiv (fadd (fabs o) (fabs es)) (flit 2 1))) (flit 0 1))
     sym_err (fun x => x) d e i Hi) with (c := fun x => fmul (flit 100 1) x)|].
  - intros [x y] Hp. unfold sym_err. cbn [fst snd]. rewrite x_sub, !x_abs, x_add, !x_lit, (x_div _ 2), x_quot by lra.
    pose proof (Rabs_pos x). pose proof (Rabs_pos y). rcase.
    + assert (x = 0) by (apply Rabs_eq_0; lra). assert (y = 0) by (apply Rabs_eq_0; lra). subst.
      replace (Rabs 0 + Rabs 0) with 0 by (rewrite Rabs_R0; lra).
      replace (0 - 0) with 0 by lra. rewrite Rabs_R0. replace (0 / 2) with 0 by lra. now rewrite quot_0_0.
    + rewrite quot_ok, x_max by lra. f_equal. rewrite Rmax_left; [easy|].
      apply Rdiv_nonneg; [apply Rabs_pos|lra].
  - rewrite x_lit, x_mul, x_div by (apply INR_neq0; lia). unfold mean. rewrite map_length, length_seen by easy.
    do 2 f_equal. unfold Rdiv. ring.
Qed.

(** ** Consequences *)

Lemma seen_nonempty d e i : (i < Nat.min (length d) (length e))%nat -> seen d e i <> [].
Proof. intros H E. pose proof (length_seen d e i H) as L. rewrite E in L. cbn in L. lia. Qed.
Lemma mean_nonneg l : (forall x, In x l -> 0 <= x) -> 0 <= mean l.
Proof. intros H. apply Rdiv_nonneg; [now apply Rsum_nonneg|apply pos_INR]. Qed.
Lemma mean_zero l : l <> [] -> (forall x, In x l -> 0 <= x) -> (mean l = 0 <-> forall x, In x l -> x = 0).
Proof.
  intros Hn H. pose proof (length_pos_INR l Hn) as P. split.
  - intros E. apply Rsum_zero; [easy|]. unfold mean in E.
    apply Rmult_eq_reg_r with (/ INR (length l)); [unfold Rdiv in E; lra|apply Rinv_neq_0_compat; lra].
  - intros E. now apply mean_const.
Qed.

(** [mse], [rmse] and [mae] are non-negative, and zero exactly while the
    forecast has been exact on every bar so far; [rmse] squared is [mse] and
    [mae] is at most [rmse]. *)
Theorem error_metrics d e i : (i < Nat.min (length d) (length e))%nat ->
  exists a b c,
    nth_error (mse (map Fin d) (map Fin e)) i = Some (Fin a) /\
    nth_error (rmse (map Fin d) (map Fin e)) i = Some (Fin b) /\
    nth_error (mae (map Fin d) (map Fin e)) i = Some (Fin c) /\
    0 <= a /\ 0 <= b /\ 0 <= c /\ b ^ 2 = a /\ c <= b /\
    (a = 0 <-> forall p, In p (seen d e i) -> fst p = snd p) /\
    (b = 0 <-> forall p, In p (seen d e i) -> fst p = snd p) /\
    (c = 0 <-> forall p, In p (seen d e i) -> fst p = snd p).
Proof.
  intros Hi. do 3 eexists. split; [now apply mse_real|split; [now apply rmse_real|split; [now apply mae_real|]]].
  pose proof (seen_nonempty d e i Hi) as Hn. set (ps := seen d e i) in *.
  assert (A0 : forall x, In x (map sqe ps) -> 0 <= x).
  { intros x Hx. apply in_map_iff in Hx. destruct Hx as (p & <- & _). apply pow2_ge_0. }
  assert (C0 : forall x, In x (map abe ps) -> 0 <= x).
  { intros x Hx. apply in_map_iff in Hx. destruct Hx as (p & <- & _). apply Rabs_pos. }
  pose proof (mean_nonneg _ A0) as A. pose proof (mean_nonneg _ C0) as C.
  assert (S2 : sqrt (mean (map sqe ps)) ^ 2 = mean (map sqe ps)) by now apply pow2_sqrt.
  assert (Z1 : mean (map sqe ps) = 0 <-> forall p, In p ps -> fst p = snd p).
  { rewrite mean_zero; [|destruct ps; easy|easy]. split.
    - intros H p Hp. assert (E : sqe p = 0) by (apply H, in_map_iff; eauto). apply pow2_eq0 in E. lra.
    - intros H x Hx. apply in_map_iff in Hx. destruct Hx as (p & <- & Hp). unfold sqe. rewrite (H p Hp). ring. }
  split; [easy|split; [apply sqrt_pos|split; [easy|split; [easy|split]]]].
  - rewrite <- (sqrt_pow2 (mean (map abe ps))) by easy. apply sqrt_le_1_alt.
    eapply Rle_trans; [apply mean_sq; destruct ps; easy|]. rewrite map_map. right. f_equal. apply map_ext.
    intros p. unfold abe, sqe. apply pow2_abs.
  - split; [easy|split].
    + rewrite <- Z1. split; [intros E; rewrite <- S2, E; ring | intros ->; apply sqrt_0].
    + rewrite mean_zero; [|destruct ps; easy|easy]. split.
      * intros H p Hp. assert (E : abe p = 0) by (apply H, in_map_iff; eauto). apply Rabs_eq_0 in E. lra.
      * intros H x Hx. apply in_map_iff in Hx. destruct Hx as (p & <- & Hp). unfold abe. rewrite (H p Hp).
        rewrite Rminus_diag_eq by easy. apply Rabs_R0.
Qed.

(** [smape] lies in [0, 200]. *)
Lemma sym_err_range p : 0 <= sym_err p <= 2.
Proof.
  unfold sym_err. destruct p as [x y]. cbn [fst snd]. pose proof (Rabs_pos x). pose proof (Rabs_pos y).
  rcase; [lra|]. split.
  - apply Rdiv_nonneg; [apply Rabs_pos|lra].
  - apply Rmult_le_reg_r with ((Rabs x + Rabs y) / 2); [lra|]. unfold Rdiv at 1.
    rewrite Rmult_assoc, Rinv_l, Rmult_1_r by lra.
    pose proof (Rabs_triang x (- y)) as T. rewrite Rabs_Ropp in T. unfold Rminus. lra.
Qed.
Theorem smape_range d e i : (i < Nat.min (length d) (length e))%nat ->
  exists v, nth_error (smape (map Fin d) (map Fin e)) i = Some (Fin v) /\ 0 <= v <= 200.
Proof.
  intros Hi. eexists. split; [now apply smape_real|].
  assert (0 <= mean (map sym_err (seen d e i)) <= 2); [|lra].
  apply mean_bounds.
  - pose proof (seen_nonempty d e i Hi). now destruct (seen d e i).
  - intros x Hx. apply in_map_iff in Hx. destruct Hx as (p & <- & _). apply sym_err_range.
Qed.
Theorem smape_symmetric d e : smape (map Fin d) (map Fin e) = smape (map Fin e) (map Fin d).
Proof.
  apply nth_error_ext. intros i. destruct (le_lt_dec (Nat.min (length d) (length e)) i) as [H|H].
  - assert (L := fun a b => proj2 (proj2 (proj2 (proj2 (@regression_lengths xr XR a b))))).
    rewrite !(proj2 (nth_error_None _ i)); [easy| |]; rewrite L, !map_length; lia.
  - rewrite !smape_real by lia. do 4 f_equal. unfold seen.
    assert (G : forall n, map sym_err (firstn n (combine d e)) = map sym_err (firstn n (combine e d))); [|apply G].
    clear. revert e. induction d as [|x d IH]; intros [|y e] [|n]; cbn; try easy. f_equal; [|apply IH].
    unfold sym_err. cbn [fst snd]. rewrite (Rplus_comm (Rabs y)), (Rabs_minus_sym y x). reflexivity.
Qed.
(** The documented range 0..100 is exceeded. *)
Theorem smape_range_refuted : exists d e v,
  nth_error (smape (map Fin d) (map Fin e)) 0 = Some (Fin v) /\ 100 < v.
Proof.
  exists [1], [-1]. eexists. split; [apply smape_real; cbn; lia|].
  unfold seen. cbn [combine firstn Nat.add map]. unfold mean, sym_err. cbn [fst snd length Rsum fold_right INR].
  rewrite (Rabs_left (-1)), (Rabs_right 1), (Rabs_right (1 - -1)) by lra. rcase; [lra|]. replace ((1 - -1) / ((1 + - (-1)) / 2)) with 2 by field. lra.
Qed.

(** ** mda *)

(** The direction of a move: an unchanged value counts as up. *)
Definition up (prev x : R) : bool := Rleb prev x.
Definition hits (l e : list R) : R :=
  Rsum (map (fun p => let '(prev, x, y) := p in if Bool.eqb (up prev x) (up prev y) then 1 else 0)
            (combine (combine l (skipn 1 l)) (skipn 1 e))).

Lemma x_signum x : fsignum (Fin x) = Fin (if Rltb x 0 then -1 else 1).
Proof. unfold fsignum. cbn [fisnan fsignbit XR]. destruct (Rltb x 0); cbn; f_equal; lra. Qed.
Lemma x_dir prev x y : fbool (feqb (fsignum (fsub (Fin x) (Fin prev))) (fsignum (fsub (Fin y) (Fin prev)))) =
  Fin (if Bool.eqb (up prev x) (up prev y) then 1 else 0).
Proof.
  rewrite !x_sub, !x_signum, x_eqb, x_bool. f_equal. unfold up. rcase; cbn [Bool.eqb]; try lra; easy.
Qed.
Theorem mda_real d e : d <> [] -> e <> [] ->
  exists o, mda (map Fin d) (map Fin e) = Ok o /\
  aligned o (Nat.min (length d) (length e)) 1 NaN
    (fun i => Fin (hits (firstn (i + 1) d) (firstn (i + 1) e) / INR i)).
Proof.
  intros Hd He. destruct d as [|d0 d]; [easy|]. destruct e as [|e0 e]; [easy|].
  unfold mda. cbn [map slice_from length Nat.leb bind skipn idx nth_error].
  eexists. split; [reflexivity|]. change (@fnan xr XR) with NaN.
  split; [|split].
  - cbn [length]. rewrite length_scan, length_obs_est, !map_length. lia.
  - intros [|i] H; [easy|lia].
  - intros [|i] Hi; [lia|]. cbn [nth_error]. cbn [length] in Hi.
    set (S0 := (flit 0 1, Fin d0)).
    assert (G : forall i c d0 a d e, (i < Nat.min (length d) (length e))%nat ->
      nth_error (scan (fun '(hits, prev) '(cnt, observe, est) =>
        let dir := fbool (fsignum (fsub observe prev) =? fsignum (fsub est prev))%F in
        (fadd hits dir, observe, fdiv (fadd hits dir) (fofnat (cnt + 1))))
        (Fin a, Fin d0) (combine (combine (seq c (length d)) (map Fin d)) (map Fin e))) i =
      Some (Fin ((a + hits (firstn (i + 2) (d0 :: d)) (firstn (i + 2) (0 :: e))) / INR (c + i + 1)))).
    { clear. induction i as [|i IH]; intros c d0 a [|x d] [|y e] H; cbn [length] in H; try lia.
      - cbn [map length seq combine scan nth_error]. rewrite x_dir, x_add, x_nat, x_div by (apply INR_neq0; lia).
        unfold hits. cbn [Nat.add firstn skipn combine map]. rewrite Rsum_cons, Rsum_nil, Nat.add_0_r, Rplus_0_r. reflexivity.
      - cbn [map length seq combine scan]. rewrite x_dir, x_add. cbn [nth_error].
        rewrite IH by (cbn; lia). do 2 f_equal. replace (c + S i + 1)%nat with (S c + i + 1)%nat by lia.
        f_equal. rewrite Rplus_assoc. f_equal. unfold hits.
        replace (S i + 2)%nat with (S (S (i + 1))) by lia. replace (i + 2)%nat with (S (i + 1)) by lia.
        cbn [firstn skipn combine map]. rewrite Rsum_cons. reflexivity. }
    unfold S0. rewrite x_lit. unfold obs_est, enumerate. rewrite map_length.
    refine (eq_trans (G i 0%nat d0 0 d e ltac:(lia)) _). do 3 f_equal.
    + rewrite Rplus_0_l. replace (S i + 1)%nat with (i + 2)%nat by lia. unfold hits.
      replace (i + 2)%nat with (S (i + 1)) by lia. reflexivity.
    + f_equal. lia.
Qed.
Theorem mda_range d e : d <> [] -> e <> [] ->
  exists o, mda (map Fin d) (map Fin e) = Ok o /\
  forall i, (1 <= i < Nat.min (length d) (length e))%nat ->
  exists v, nth_error o i = Some (Fin v) /\ 0 <= v <= 1.
Proof.
  intros Hd He. destruct (mda_real d e Hd He) as (o & E & A). exists o. split; [easy|].
  intros i Hi. eexists. split; [apply (proj2 (proj2 A)); lia|].
  assert (P : 0 < INR i) by (apply INR_pos; lia).
  assert (H : 0 <= hits (firstn (i + 1) d) (firstn (i + 1) e) <= INR i).
  { unfold hits. set (f := fun p => let '(prev, x, y) := p in if Bool.eqb (up prev x) (up prev y) then 1 else 0).
    split.
    - apply Rsum_nonneg. intros x Hx. apply in_map_iff in Hx. destruct Hx as ([[a b] c] & <- & _). unfold f.
      destruct (Bool.eqb _ _); lra.
    - eapply Rle_trans; [apply (Rsum_le f (fun _ => 1))|].
      + intros [[a b] c] _. unfold f. destruct (Bool.eqb _ _); lra.
      + rewrite Rsum_const, Rmult_1_r. apply le_INR. rewrite !combine_length, !skipn_length, !firstn_length. lia. }
  split; [apply Rdiv_nonneg; lra|]. apply Rmult_le_reg_r with (INR i); [easy|]. unfold Rdiv.
  rewrite Rmult_assoc, Rinv_l by lra. lra.
Qed.

(** ** mase and emae *)

(** [mase]: mean absolute error over the mean absolute step of the data. *)
Definition steps (l : list R) : list R := map (fun p => Rabs (snd p - fst p)) (combine l (skipn 1 l)).
Lemma x_windows2 (l : list R) : map (fun w => fabs (fsub (at_ w 1) (at_ w 0))) (windows 2 (map Fin l)) = map Fin (steps l).
Proof.
  apply nth_error_ext. intros i. unfold steps. rewrite !nth_error_map'.
  destruct (le_lt_dec (length l - 1) i) as [H|H].
  - rewrite (proj2 (nth_error_None (windows _ _) i)), (proj2 (nth_error_None (combine _ _) i)); [easy| |].
    + rewrite combine_length, skipn_length. lia.
    + rewrite length_windows, map_length. lia.
  - rewrite nth_error_windows by (rewrite map_length; lia).
    rewrite nth_error_combine, nth_error_skipn.
    rewrite (nth_error_nth' l 0) by lia. rewrite (nth_error_nth' l 0) by lia. cbn [fst snd].
    rewrite skipn_map, firstn_map, !x_at by (rewrite firstn_length, skipn_length; lia).
    rewrite x_sub, x_abs. do 4 f_equal.
    + assert (E : nth_error (firstn 2 (skipn i l)) 1 = Some (nth (1 + i) l 0)).
      { rewrite nth_error_firstn, nth_error_skipn by lia. rewrite (nth_error_nth' l 0) by lia. do 2 f_equal. lia. }
      now apply nth_error_nth.
    + assert (E : nth_error (firstn 2 (skipn i l)) 0 = Some (nth i l 0)).
      { rewrite nth_error_firstn, nth_error_skipn by lia. rewrite (nth_error_nth' l 0) by lia. do 2 f_equal. lia. }
      now apply nth_error_nth.
Qed.
Theorem mase_real d e : d <> [] -> e <> [] -> (N.of_nat (length d) < 2 ^ 31)%N ->
  exists o, mase (map Fin d) (map Fin e) = Ok o /\
  aligned o (Nat.min (length d) (length e)) 1 NaN
    (fun i => quot (mean (map abe (seen d e i))) (mean (steps (firstn (i + 1) d)))).
Proof.
  intros Hd He Hb. unfold mase, zip_i32.
  assert (Lm : length (mae (map Fin d) (map Fin e)) = Nat.min (length d) (length e)).
  { pose proof (proj1 (proj2 (proj2 (@regression_lengths xr XR (map Fin d) (map Fin e))))) as L. now rewrite L, !map_length. }
  assert (0 < length d)%nat by (destruct d; [easy|cbn; lia]).
  assert (0 < length e)%nat by (destruct e; [easy|cbn; lia]).
  set (zs := firstn _ (windows 2 (map Fin d))).
  assert (Lz : length zs = (Nat.min (length d) (length e) - 1)%nat).
  { unfold zs. rewrite firstn_length, skipn_length, Lm, length_windows, map_length. lia. }
  destruct (N.ltb_spec (N.of_nat (length zs)) (2 ^ 31 - 1)); [|lia]. clear Hb H1. cbn [bind].
  eexists. split; [reflexivity|]. change (@fnan xr XR) with NaN. split; [|split].
  - cbn [length]. rewrite map_length, combine_length, skipn_length, Lm, length_scan, combine_length, seq_length, Lz. lia.
  - intros [|i] Hi; [easy|lia].
  - intros [|i] Hi; [lia|]. cbn [nth_error]. rewrite nth_error_map', nth_error_combine, nth_error_skipn.
    cbn [Nat.add]. rewrite mae_real by lia.
    set (g := fun (st : xr) (a : list xr * nat) => let '(w, cnt) := a in fadd st (fabs (fsub (at_ w 1) (at_ w 0)))).
    set (k := fun (st : xr) (a : list xr * nat) => let '(w, cnt) := a in fdiv st (fofnat cnt)).
    assert (E : forall l s, scan (fun state '(w, cnt) =>
        let state' := fadd state (fabs (fsub (at_ w 1) (at_ w 0))) in (state', fdiv state' (fofnat cnt))) s l =
        scan (fun st a => (g st a, k (g st a) a)) s l).
    { induction l as [|[w c] l IH]; intros s; cbn [scan]; [easy|]. cbv zeta. unfold g at 2, k at 1. cbn [g]. now rewrite IH. }
    rewrite E. destruct (@nth_error_is_Some _ zs i ltac:(lia)) as [wi Ei].
    erewrite scan_acc by (rewrite nth_error_combine, Ei, nth_error_seq by lia; reflexivity).
    unfold k. rewrite x_nat.
    assert (Fg : fold_left g (firstn (i + 1) (combine zs (seq 1 (length zs)))) (flit 0 1) =
       Fin (Rsum (firstn (i + 1) (steps d)))).
    { assert (G : forall ws c s, length c = length ws ->
        fold_left g (combine ws c) s = fold_left fadd (map (fun w => fabs (fsub (at_ w 1) (at_ w 0))) ws) s).
      { induction ws as [|w ws IH]; intros [|c0 c] s L; cbn in *; try easy. apply IH. lia. }
      rewrite firstn_combine', G by (rewrite !firstn_length, seq_length; lia).
      unfold zs. rewrite firstn_firstn, skipn_length, Lm, Nat.min_l by lia.
      rewrite <- firstn_map, x_windows2, firstn_map, x_lit. apply x_fsum. }
    rewrite Fg. rewrite x_quot.
    assert (LS : firstn (i + 1) (steps d) = steps (firstn (S i + 1) d)).
    { unfold steps. rewrite firstn_map. f_equal. clear. replace (S i + 1)%nat with (S (i + 1)) by lia.
      destruct d as [|x d]; [cbn; now rewrite firstn_nil|]. cbn [firstn skipn].
      generalize (i + 1)%nat. intros n. revert x n. induction d as [|y d IH]; intros x [|n]; cbn [combine firstn]; try easy.
      f_equal. apply IH. }
    rewrite LS. unfold mean at 3. assert (L2 : length (steps (firstn (S i + 1) d)) = S i).
    { unfold steps. rewrite map_length, combine_length, skipn_length, firstn_length. lia. }
    change (S (i + 1)) with (S i + 1)%nat. rewrite L2. unfold quot at 1. rewrite (proj2 (Req_false (INR (1 + i)) 0)) by (apply INR_neq0; lia).
    reflexivity.
Qed.
