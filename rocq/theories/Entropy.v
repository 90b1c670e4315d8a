(** * Entropy: approximate and sample entropy (distribution.rs:189-272) compute the
    textbook quantities, in exact arithmetic. *)

From Coq Require Import Reals Lra Lia.
From Verif Require Import Spec BaseFacts Tac DistShape XReal RSpec XRFacts Convex Bars DistReal RankCorr Dcor Adaptive Warm Ranges VolatReal.
From Verif Require Import Distribution.
Local Unset Implicit Arguments.
Local Open Scope R_scope.

(** ** The specification *)

(** The runs of length [m] of [l] that start at [i] and at [j] agree to within [tol]. *)
Definition alike (tol : R) (l : list R) (m : nat) (p : nat * nat) : bool :=
  forallb (fun k => Rleb (Rabs (nth (fst p + k) l 0 - nth (snd p + k) l 0)) tol) (seq 0 m).
(** How many of the runs of length [m] agree with run [i] (itself included). *)
Definition alike_runs (tol : R) (l : list R) (m i : nat) : nat :=
  count (fun j => alike tol l m (i, j)) (seq 0 (length l + 1 - m)).
(** Pincus' phi: the mean logarithm of the share of runs that agree with a run. *)
Definition pincus_phi (tol : R) (l : list R) (m : nat) : R :=
  let runs := (length l + 1 - m)%nat in
  mean (map (fun i => ln (INR (alike_runs tol l m i) / INR runs)) (seq 0 runs)).
Definition apen (tol : R) (l : list R) (m : nat) : R := Rabs (pincus_phi tol l (m + 1) - pincus_phi tol l m).
(** The number of pairs of runs of length [m] that agree. *)
Definition alike_pairs (tol : R) (l : list R) (m : nat) : nat :=
  count (alike tol l m) (pairs_below (length l + 1 - m)).
(** [2 ^ -52] guards against taking the logarithm of 0. *)
Definition sampen (tol : R) (l : list R) (m : nat) : R :=
  let eps := / 2 ^ 52 in
  - ln ((2 * INR (alike_pairs tol l (m + 1)) + eps) / (2 * INR (alike_pairs tol l m) + eps)).
(** The default tolerance is a fifth of the standard deviation of the whole series. *)
Definition tolerance_of (l : list R) (tol : option R) : R := unwrap_or tol (sd l * (2 / 10)).

(** ** Proof *)
Lemma x_max_all q a t : fleb (fold_left fmax (map Fin q) (Fin a)) (Fin t) = Rleb a t && forallb (fun x => Rleb x t) q.
Proof.
  revert a; induction q as [|x q IH]; intros a; cbn [map fold_left forallb]; [rewrite x_leb; now rewrite Bool.andb_true_r|].
  rewrite x_max, IH, Bool.andb_assoc. f_equal. apply Bool.eq_iff_eq_true. rewrite Bool.andb_true_iff, !Rleb_true. unfold Rmax. destruct (Rle_dec a x); lra.
Qed.
Lemma run_fin l m i : (i + m <= length l)%nat -> run (map Fin l) m i = map (fun k => Fin (nth (i + k) l 0)) (seq 0 m).
Proof.
  intros H. unfold run. apply nth_error_ext. intros k. destruct (le_lt_dec m k) as [K|K].
  - rewrite !(proj2 (nth_error_None _ _)); [easy| |]; rewrite ?map_length, ?seq_length, ?firstn_length; lia.
  - rewrite nth_error_firstn, nth_error_skipn, nth_error_map by easy. rewrite nth_error_map, nth_error_seq by easy. cbn [option_map]. 
    rewrite (nth_error_nth' l 0) by lia. reflexivity.
Qed.
Lemma x_run_match t l m i j : (0 < m)%nat -> (i + m <= length l)%nat -> (j + m <= length l)%nat ->
  run_match (Fin t) (run (map Fin l) m i) (run (map Fin l) m j) = alike t l m (i, j).
Proof.
  intros Hm Hi Hj. unfold run_match, alike. rewrite !run_fin by easy. rewrite combine_map_same, map_map. cbn [fst snd].
  rewrite (map_ext _ (fun k => Fin (Rabs (nth (i + k) l 0 - nth (j + k) l 0)))) by (intros k; now rewrite x_sub, x_abs).
  rewrite <- (map_map (fun k => Rabs (nth (i + k) l 0 - nth (j + k) l 0)) Fin).
  destruct m as [|m]; [lia|]. cbn [seq map fold_left forallb]. change (fmax fnan (Fin ?a)) with (Fin a). rewrite x_max_all. f_equal.
  generalize (seq 1 m). intros q. induction q as [|k q IH]; cbn [map forallb]; [easy|now rewrite IH].
Qed.

Lemma trues_count {A} (p : A -> bool) l : trues (map p l) = count p l.
Proof. unfold trues, count. induction l as [|x l IH]; [easy|]. cbn [map filter]. destruct (p x); cbn; now rewrite IH. Qed.
Lemma count_ext_in {A} (p q : A -> bool) l : (forall x, In x l -> p x = q x) -> count p l = count q l.
Proof. intros H. unfold count. f_equal. now apply filter_ext_in. Qed.
Lemma x_near t l m i : (0 < m <= length l)%nat -> (i + m <= length l)%nat -> near (Fin t) (map Fin l) m i = alike_runs t l m i.
Proof.
  intros Hm Hi. unfold near, alike_runs. rewrite map_length. replace (length l - m + 1)%nat with (length l + 1 - m)%nat by lia. rewrite trues_count.
  apply count_ext_in. intros j Hj. apply in_seq in Hj. apply x_run_match; lia.
Qed.
Lemma x_ofN n : fofN (N.of_nat n) = Fin (INR n).
Proof. rewrite INR_IZR_INZ, <- nat_N_Z. reflexivity. Qed.
Lemma alike_self t l m i : 0 <= t -> alike t l m (i, i) = true.
Proof. intros Ht. unfold alike. apply forallb_forall. intros k _. apply Rleb_true. cbn [fst snd]. rewrite Rminus_diag_eq, Rabs_R0 by easy. easy. Qed.
Lemma alike_runs_pos t l m i : 0 <= t -> (i + m <= length l)%nat -> (1 <= alike_runs t l m i)%nat.
Proof.
  intros Ht Hi. unfold alike_runs, count. assert (I : In i (filter (fun j => alike t l m (i, j)) (seq 0 (length l + 1 - m)))) by (apply filter_In; split; [apply in_seq; lia|now apply alike_self]).
  destruct (filter _ _); [easy|cbn; lia].
Qed.
Lemma x_phi t l m v : 0 <= t -> (0 < m <= length l)%nat -> phi (Fin t) (map Fin l) m = Ok v -> v = Fin (pincus_phi t l m).
Proof.
  intros Ht Hm H. unfold phi in H. rewrite map_length in H. unfold usub in H. rewrite (proj2 (Nat.leb_le m (length l))) in H by lia. cbn [bind] in H.
  replace (length l - m + 1)%nat with (length l + 1 - m)%nat in H by lia. set (n := (length l + 1 - m)%nat) in *.
  destruct (rmap _ (seq 0 n)) as [cs|] eqn:E; [|easy]. cbn [bind] in H. apply Ok_inj in H. subst v.
  assert (C : cs = map (fun i => N.of_nat (alike_runs t l m i)) (seq 0 n)).
  { assert (G : forall i, In i (seq 0 n) -> (i + m <= length l)%nat) by (intros i Hi; apply in_seq in Hi; lia).
    assert (G2 : forall q cs, (forall i, In i q -> (i + m <= length l)%nat) ->
      rmap (fun i => u8_count (map (fun j => run_match (Fin t) (run (map Fin l) m i) (run (map Fin l) m j)) (seq 0 n)) 0) q = Ok cs ->
      cs = map (fun i => N.of_nat (alike_runs t l m i)) q).
    { induction q as [|i q IH]; intros cs' Hq E'; cbn [rmap map] in *; [apply Ok_inj in E'; now subst|].
      rewrite u8_count_spec in E' by lia.
      assert (N1 : trues (map (fun j => run_match (Fin t) (run (map Fin l) m i) (run (map Fin l) m j)) (seq 0 n)) = alike_runs t l m i).
      { rewrite <- x_near by (try lia; apply Hq; now left). unfold near. rewrite map_length. do 3 f_equal. lia. }
      rewrite N1 in E'. destruct (N.ltb_spec (0 + N.of_nat (alike_runs t l m i)) 256); [|easy]. cbn [bind] in E'.
      destruct (rmap _ q) as [r|] eqn:R; [|easy]. cbn [bind] in E'. apply Ok_inj in E'. subst cs'. f_equal. apply IH; [|easy]. intros; apply Hq; now right. }
    now apply (G2 (seq 0 n)). }
  subst cs. rewrite x_nat. unfold pincus_phi. fold n.
  rewrite x_lit.
  rewrite (x_fold_add (fun c => fln (fdiv (fofN c) (Fin (INR n)))) (fun c => ln (INR (N.to_nat c) / INR n))).
  2:{ intros c Hc. apply in_map_iff in Hc as (i & <- & Hi). apply in_seq in Hi. rewrite x_ofN, Nat2N.id, x_div by (apply not_0_INR; lia). apply x_ln.
      pose proof (alike_runs_pos t l m i Ht ltac:(lia)). apply Rmult_lt_0_compat; [apply lt_0_INR; lia|apply Rinv_0_lt_compat, lt_0_INR; lia]. }
  rewrite x_div by (apply not_0_INR; lia). f_equal. unfold mean. rewrite !map_map, map_length, seq_length. f_equal. 
  rewrite (map_ext _ (fun i => ln (INR (alike_runs t l m i) / INR n))) by (intros i; now rewrite Nat2N.id). lra.
Qed.

Lemma upper_pairs_spec n : upper_pairs n = pairs_below n.
Proof.
  unfold upper_pairs, pairs_below.
  assert (G : forall l, flat_map (fun i => map (fun j => (i, j)) (seq (i + 1) (n - (i + 1)))) l =
    filter (fun p : nat * nat => (fst p <? snd p)%nat) (list_prod l (seq 0 n))); [|apply G].
  induction l as [|i l IH]; [easy|]. cbn [list_prod flat_map]. rewrite filter_app, <- IH. f_equal.
  rewrite <- filter_lt_seq. generalize (seq 0 n). induction l0 as [|j k IHk]; [easy|]. cbn [map filter fst snd]. destruct (i <? j)%nat; cbn [map]; now rewrite IHk.
Qed.
Lemma x_matches t l m v : (0 < m <= length l)%nat -> matches (Fin t) (map Fin l) m = Ok v -> v = Fin (2 * INR (alike_pairs t l m) + / 2 ^ 52).
Proof.
  intros Hm H. unfold matches in H. rewrite map_length in H. unfold usub in H. rewrite (proj2 (Nat.leb_le m (length l))) in H by lia. cbn [bind] in H.
  replace (length l - m + 1)%nat with (length l + 1 - m)%nat in H by lia. rewrite upper_pairs_spec in H.
  rewrite u8_count_spec in H by lia.
  assert (N1 : trues (map (fun '(i, j) => run_match (Fin t) (run (map Fin l) m i) (run (map Fin l) m j)) (pairs_below (length l + 1 - m))) = alike_pairs t l m).
  { unfold alike_pairs. rewrite trues_count. apply count_ext_in. intros [i j] Hp. apply In_pairs in Hp. apply x_run_match; lia. }
  rewrite N1 in H. destruct (N.ltb_spec (0 + N.of_nat (alike_pairs t l m)) 256); [|easy]. cbn [bind] in H. apply Ok_inj in H. subst v.
  rewrite N.add_0_l, x_ofN, x_lit, x_mul. change feps with (Fin (/ IZR (2 ^ 52))). rewrite x_add. do 3 f_equal. lra.
Qed.
Lemma x_entropy_tol l tol t : entropy_tol (map Fin l) (option_map Fin tol) = Ok t -> t = Fin (tolerance_of l tol).
Proof.
  unfold entropy_tol, tolerance_of. destruct tol as [r|]; cbn [option_map unwrap_or]; [intros H; now apply Ok_inj in H|].
  unfold std_dev_raw, rwindows. rewrite map_length. destruct (Nat.eqb_spec (length l) 0) as [Z|Z]; [easy|]. cbn [bind].
  rewrite windows_whole by apply map_length. cbn [map length Nat.sub idx nth_error bind]. unfold std_dev_win. rewrite x_sd by lia.
  intros H. apply Ok_inj in H. subst t. now rewrite x_frac, x_mul.
Qed.
Lemma rmap_windows_aligned {B} (g : list xr -> result B) (f : list R -> B) (l : list R) w na vs : (0 < w)%nat ->
  (forall x v, length x = w -> g (map Fin x) = Ok v -> v = f x) -> rmap g (windows w (map Fin l)) = Ok vs ->
  aligned (pad (w - 1) na ++ vs) (length l) (w - 1) na (fun i => f (win w l i)).
Proof.
  intros Hw Hg R. split; [|split].
  - rewrite app_length, length_pad, (length_rmap R), length_windows, map_length. lia.
  - intros i Hi. rewrite nth_error_app1 by (rewrite length_pad; lia). now apply nth_error_pad.
  - intros i Hi. rewrite nth_error_app2 by (rewrite length_pad; lia). rewrite length_pad.
    destruct (rmap_nth R (nth_error_windows_win Hw ltac:(rewrite map_length; exact Hi))) as (y & Y & ->).
    rewrite win_map in Y. f_equal. apply Hg; [|easy]. apply length_win; lia.
Qed.

(** Whenever [approx_entropy] returns, it is the approximate entropy of each window. *)
Theorem approx_entropy_real l w rl tol o :
  (0 < unwrap_or rl 2%nat)%nat -> 0 <= tolerance_of l tol ->
  approx_entropy (map Fin l) w rl (option_map Fin tol) = Ok o ->
  aligned o (length l) (w - 1) NaN (fun i => Fin (apen (tolerance_of l tol) (win w l i) (unwrap_or rl 2%nat))).
Proof.
  intros Hr Ht H. unfold approx_entropy in H. set (m := unwrap_or rl 2%nat) in *.
  destruct (entropy_tol _ _) as [t|] eqn:T; [|easy]. cbn [bind] in H. apply x_entropy_tol in T. subst t.
  unfold usub in H. destruct (Nat.leb_spec 1 w) as [Hw|]; [|easy]. cbn [bind] in H.
  unfold rwindows in H. destruct (Nat.eqb_spec w 0) as [|_]; [lia|]. cbn [bind] in H.
  destruct (rmap _ _) as [vs|] eqn:R; [|easy]. cbn [bind] in H. apply Ok_inj in H. subst o.
  refine (rmap_windows_aligned _ (fun x => Fin (apen (tolerance_of l tol) x m)) l w NaN vs Hw _ R).
  intros x v Lx E. cbn beta in E. destruct (phi _ _ (m + 1)) as [a|] eqn:A; [|easy]. destruct (phi _ _ m) as [b|] eqn:B; [|easy]. cbn [bind] in E. apply Ok_inj in E. subst v.
  assert (m + 1 <= length x)%nat. { destruct (le_lt_dec (m + 1) (length x)); [easy|]. assert (P : phi (Fin (tolerance_of l tol)) (map Fin x) (m + 1) = Panic) by (apply phi_panic; left; rewrite map_length; lia). congruence. }
  apply x_phi in A, B; try easy; try lia. subst a b. now rewrite x_sub, x_abs.
Qed.
Theorem sample_entropy_real l w rl tol o :
  (0 < unwrap_or rl 2%nat)%nat ->
  sample_entropy (map Fin l) w rl (option_map Fin tol) = Ok o ->
  aligned o (length l) (w - 1) NaN (fun i => Fin (sampen (tolerance_of l tol) (win w l i) (unwrap_or rl 2%nat))).
Proof.
  intros Hr H. unfold sample_entropy in H. set (m := unwrap_or rl 2%nat) in *.
  destruct (entropy_tol _ _) as [t|] eqn:T; [|easy]. cbn [bind] in H. apply x_entropy_tol in T. subst t.
  unfold usub in H. destruct (Nat.leb_spec 1 w) as [Hw|]; [|easy]. cbn [bind] in H.
  unfold rwindows in H. destruct (Nat.eqb_spec w 0) as [|_]; [lia|]. cbn [bind] in H.
  destruct (rmap _ _) as [vs|] eqn:R; [|easy]. cbn [bind] in H. apply Ok_inj in H. subst o.
  refine (rmap_windows_aligned _ (fun x => Fin (sampen (tolerance_of l tol) x m)) l w NaN vs Hw _ R).
  intros x v Lx E. cbn beta in E. destruct (matches _ _ (m + 1)) as [a|] eqn:A; [|easy]. destruct (matches _ _ m) as [b|] eqn:B; [|easy]. cbn [bind] in E. apply Ok_inj in E. subst v.
  assert (m + 1 <= length x)%nat. { destruct (le_lt_dec (m + 1) (length x)); [easy|]. assert (P : matches (Fin (tolerance_of l tol)) (map Fin x) (m + 1) = Panic) by (apply matches_panic; left; rewrite map_length; lia). congruence. }
  apply x_matches in A, B; try easy; try lia. subst a b.
  assert (Q : forall k, 0 < 2 * INR k + / 2 ^ 52) by (intros k; pose proof (pos_INR k); assert (0 < / 2 ^ 52) by (apply Rinv_0_lt_compat, pow_lt; lra); lra).
  rewrite x_div by (apply Rgt_not_eq, Q). rewrite x_ln by (apply Rdiv_lt_0_compat; apply Q). reflexivity.
Qed.

(** A window of 20 with runs of 2 is in the domain, whatever the data. *)
Example approx_entropy_domain l : l <> [] -> exists o, approx_entropy (map Fin l) 20 None None = Ok o.
Proof.
  intros Hl. destruct (approx_entropy_small (map Fin l) 20 None None) as [[[] _]|[_ (o & E & _)]]; [now destruct l|cbn; lia|cbn; lia|eauto].
Qed.
Example sample_entropy_domain l : l <> [] -> exists o, sample_entropy (map Fin l) 20 None None = Ok o.
Proof.
  intros Hl. destruct (sample_entropy_small (map Fin l) 20 None None) as [[[] _]|[_ (o & E & _)]]; [now destruct l|cbn; lia|cbn; lia|eauto].
Qed.
