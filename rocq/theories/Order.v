(** * Order: the order of the bars inside a window (C91).

    A statistic of a window is a function of the set of prices, or of the set of pairs
    of prices, in it: bring the bars of the window into another order and, in exact
    arithmetic, the function prints the same value.  In binary64 even the plain mean
    depends on the order. *)

From Coq Require Import Reals Lra Lia List Permutation Sorted.
From Flocq Require Import Core IEEE754.BinarySingleNaN.
From Verif Require Import Spec BaseFacts Tac XReal RSpec XRFacts Bars B64 SmoothReal DistReal OrderStat Count Mic CorrReal RankCorr Dcor RegReal.
From Verif Require Import Smooth Distribution Correlation Regression Volume VolumeReal.
Import ListNotations.
Local Unset Implicit Arguments.
Local Open Scope R_scope.

(** ** Specification *)
(** Wherever the last [w] bars of two series are the same up to order, [fn] prints the
    same value. *)
Definition order_free (w : nat) (fn : list R -> result (list xr)) : Prop :=
  forall l l' i j, (w - 1 <= i < length l)%nat -> (w - 1 <= j < length l')%nat -> Permutation (win w l i) (win w l' j) ->
  exists o o' x, fn l = Ok o /\ fn l' = Ok o' /\ nth_error o i = Some x /\ nth_error o' j = Some x.
(** The same for two series whose bars are moved together. *)
Definition pair_order_free (w : nat) (fn : list R -> list R -> result (list xr)) : Prop :=
  forall a b a' b' i j, (w - 1 <= i < bars2 a b)%nat -> (w - 1 <= j < bars2 a' b')%nat ->
  Permutation (combine (win w a i) (win w b i)) (combine (win w a' j) (win w b' j)) ->
  exists o o' x, fn a b = Ok o /\ fn a' b' = Ok o' /\ nth_error o i = Some x /\ nth_error o' j = Some x.

Lemma free_by w fn g : (forall l, exists o, fn l = Ok o /\ aligned o (length l) (w - 1) NaN (fun i => g (win w l i))) ->
  (forall m m', Permutation m m' -> g m = g m') -> order_free w fn.
Proof.
  intros H G l l' i j Hi Hj P. destruct (H l) as (o & E & _ & _ & A), (H l') as (o' & E' & _ & _ & A').
  exists o, o', (g (win w l i)). split; [exact E|split; [exact E'|split]]. - apply A. lia. - rewrite (G _ _ P). apply A'. lia.
Qed.
Lemma pair_free_by w fn g : (0 < w)%nat -> (forall a b, exists o, fn a b = Ok o /\ aligned o (bars2 a b) (w - 1) NaN (fun i => g (win w a i) (win w b i))) ->
  (forall x y x' y', length x = w -> length y = w -> length x' = w -> length y' = w -> Permutation (combine x y) (combine x' y') -> g x y = g x' y') -> pair_order_free w fn.
Proof.
  intros Hw H G a b a' b' i j Hi Hj P. destruct (H a b) as (o & E & _ & _ & A), (H a' b') as (o' & E' & _ & _ & A').
  exists o, o', (g (win w a i) (win w b i)). unfold bars2 in *. split; [exact E|split; [exact E'|split]].
  - apply A. lia.
  - rewrite (G _ _ (win w a' j) (win w b' j)); try easy; try (apply length_win; lia). apply A'. lia.
Qed.

(** ** Sums over a permutation *)
Lemma mean_permute l m : Permutation l m -> mean l = mean m.
Proof. intros P. unfold mean. now rewrite (Rsum_permute _ _ P), (Permutation_length P). Qed.
Lemma mean_map_permute {A} (f : A -> R) l m : Permutation l m -> mean (map f l) = mean (map f m).
Proof. intros P. apply mean_permute. now apply Permutation_map. Qed.
Lemma var_permute l m : Permutation l m -> var l = var m.
Proof. intros P. unfold var. rewrite (mean_permute _ _ P). now apply mean_map_permute. Qed.
Lemma dev_permute p l m : Permutation l m -> dev p l = dev p m.
Proof. intros P. unfold dev. rewrite (mean_permute _ _ P). apply Rsum_permute. now apply Permutation_map. Qed.

Theorem sma_order_free w : (0 < w)%nat -> order_free w (fun l => sma (map Fin l) w).
Proof. intros Hw. apply (free_by w _ (fun m => Fin (mean m))); [intros l; now apply sma_real|]. intros m m' P. now rewrite (mean_permute _ _ P). Qed.
Theorem variance_order_free w : (0 < w)%nat -> order_free w (fun l => variance (map Fin l) w).
Proof. intros Hw. apply (free_by w _ (fun m => Fin (var m))); [intros l; now apply variance_real|]. intros m m' P. now rewrite (var_permute _ _ P). Qed.
Theorem std_dev_order_free w : (0 < w)%nat -> order_free w (fun l => std_dev (map Fin l) w).
Proof. intros Hw. apply (free_by w _ (fun m => Fin (sqrt (var m)))); [intros l; now apply std_dev_real|]. intros m m' P. now rewrite (var_permute _ _ P). Qed.
Theorem mad_order_free w : (0 < w)%nat -> order_free w (fun l => mad (map Fin l) w).
Proof.
  intros Hw. apply (free_by w _ (fun m => Fin (mean_abs_dev m))); [intros l; now apply mad_real|]. intros m m' P. unfold mean_abs_dev.
  rewrite (mean_permute _ _ P). f_equal. now apply mean_map_permute.
Qed.
Theorem cv_order_free w : (0 < w)%nat -> order_free w (fun l => cv (map Fin l) w).
Proof. intros Hw. apply (free_by w _ (fun m => quot (sqrt (var m)) (mean m))); [intros l; now apply cv_real|]. intros m m' P. now rewrite (var_permute _ _ P), (mean_permute _ _ P). Qed.
Theorem skew_order_free w : (3 <= w)%nat -> (N.of_nat w * (N.of_nat w - 1) < 2 ^ 64)%N -> order_free w (fun l => skew (map Fin l) w).
Proof.
  intros Hw Hb. apply (free_by w _ (fun m => if Req (var m) 0 then NaN else Fin (adjusted_skew m))); [intros l; now apply skew_real|]. clear Hb. intros m m' P.
  unfold adjusted_skew. now rewrite (var_permute _ _ P), (dev_permute _ _ _ P), (Permutation_length P).
Qed.
Theorem kurtosis_order_free w : (4 <= w)%nat -> (N.of_nat w < 2642246)%N -> order_free w (fun l => kurtosis (map Fin l) w).
Proof.
  intros Hw Hb. apply (free_by w _ (fun m => if Req (var m) 0 then NaN else Fin (excess_kurtosis m))); [intros l; now apply kurtosis_real|]. clear Hb. intros m m' P.
  unfold excess_kurtosis. now rewrite (var_permute _ _ P), !(dev_permute _ _ _ P), (Permutation_length P).
Qed.
Theorem median_order_free w : (0 < w)%nat -> (Z.of_nat w <= 2 ^ 64)%Z -> order_free w (fun l => median (map Fin l) w).
Proof.
  intros Hw Hb l l' i j Hi Hj P. destruct (median_real l w Hw Hb) as (o & E & _ & _ & A), (median_real l' w Hw Hb) as (o' & E' & _ & _ & A').
  set (s := Rsort (win w l i)). exists o, o'. eexists. split; [exact E|split; [exact E'|split]].
  - apply (A i s); [lia|apply Rsort_perm|apply Rsort_sorted].
  - apply (A' j s); [lia|etransitivity; [symmetry; exact P|apply Rsort_perm]|apply Rsort_sorted].
Qed.
Theorem quantile_order_free w q : (0 < w)%nat -> (Z.of_nat w <= 2 ^ 64)%Z -> order_free w (fun l => quantile (map Fin l) w (Fin q)).
Proof.
  intros Hw Hb l l' i j Hi Hj P. destruct (quantile_real l w q Hw Hb) as (o & E & _ & _ & A), (quantile_real l' w q Hw Hb) as (o' & E' & _ & _ & A').
  set (s := Rsort (win w l i)). exists o, o'. eexists. split; [exact E|split; [exact E'|split]].
  - apply (A i s); [lia|apply Rsort_perm|apply Rsort_sorted].
  - apply (A' j s); [lia|etransitivity; [symmetry; exact P|apply Rsort_perm]|apply Rsort_sorted].
Qed.

(** ** Pairs of series *)
Lemma fst_combine {A B} (x : list A) : forall y : list B, length x = length y -> map fst (combine x y) = x.
Proof. induction x as [|a x IH]; intros [|b y] L; try easy. cbn. f_equal. apply IH. now injection L. Qed.
Lemma snd_combine {A B} (x : list A) : forall y : list B, length x = length y -> map snd (combine x y) = y.
Proof. induction x as [|a x IH]; intros [|b y] L; try easy. cbn. f_equal. apply IH. now injection L. Qed.
Lemma perm_fst {A B} (x x' : list A) (y y' : list B) : length x = length y -> length x' = length y' -> Permutation (combine x y) (combine x' y') -> Permutation x x'.
Proof. intros L L' P. apply (Permutation_map fst) in P. now rewrite !fst_combine in P. Qed.
Lemma perm_snd {A B} (x x' : list A) (y y' : list B) : length x = length y -> length x' = length y' -> Permutation (combine x y) (combine x' y') -> Permutation y y'.
Proof. intros L L' P. apply (Permutation_map snd) in P. now rewrite !snd_combine in P. Qed.
Lemma cov_permute x y x' y' : length x = length y -> length x' = length y' -> Permutation (combine x y) (combine x' y') -> cov x y = cov x' y'.
Proof.
  intros L L' P. unfold cov. rewrite (mean_permute _ _ (perm_fst _ _ _ _ L L' P)), (mean_permute _ _ (perm_snd _ _ _ _ L L' P)). now apply mean_map_permute.
Qed.
Lemma pearson_permute x y x' y' : length x = length y -> length x' = length y' -> Permutation (combine x y) (combine x' y') ->
  (if Req (var x * var y) 0 then NaN else Fin (pearson x y)) = (if Req (var x' * var y') 0 then NaN else Fin (pearson x' y')).
Proof.
  intros L L' P. unfold pearson. now rewrite (var_permute _ _ (perm_fst _ _ _ _ L L' P)), (var_permute _ _ (perm_snd _ _ _ _ L L' P)), (cov_permute _ _ _ _ L L' P).
Qed.
Theorem pcc_order_free w : (0 < w)%nat -> pair_order_free w (fun a b => pcc (map Fin a) (map Fin b) w).
Proof.
  intros Hw. apply (pair_free_by w _ (fun x y => if Req (var x * var y) 0 then NaN else Fin (pearson x y))); [exact Hw|intros a b; now apply pcc_real|].
  intros x y x' y' Lx Ly Lx' Ly' P. apply pearson_permute; congruence.
Qed.
Lemma min_rank_permute l m y : Permutation l m -> min_rank l y = min_rank m y.
Proof. intros P. unfold min_rank. now rewrite (count_perm _ _ _ P). Qed.
Lemma combine_map2 {A B C D} (f : A -> C) (g : B -> D) x : forall y, combine (map f x) (map g y) = map (fun p => (f (fst p), g (snd p))) (combine x y).
Proof. induction x as [|a x IH]; intros [|b y]; try easy. cbn. f_equal. apply IH. Qed.
Theorem srcc_order_free srt w : (2 <= w)%nat -> (forall l : list R, sorts (srt (map Fin l)) (map Fin l)) -> pair_order_free w (fun a b => srcc srt (map Fin a) (map Fin b) w).
Proof.
  intros Hw Sr. apply (pair_free_by w _ (fun x y => let ra := min_ranks x in let rb := min_ranks y in if Req (var ra * var rb) 0 then NaN else Fin (pearson ra rb))); [lia|intros a b; now apply srcc_real|].
  intros x y x' y' Lx Ly Lx' Ly' P. cbv zeta. apply pearson_permute; unfold min_ranks; rewrite ?map_length; try congruence.
  rewrite !combine_map2. pose proof (perm_fst _ _ _ _ (eq_trans Lx (eq_sym Ly)) (eq_trans Lx' (eq_sym Ly')) P) as P1. pose proof (perm_snd _ _ _ _ (eq_trans Lx (eq_sym Ly)) (eq_trans Lx' (eq_sym Ly')) P) as P2.
  rewrite (map_ext _ (fun p => (min_rank x' (fst p), min_rank y' (snd p)))) by (intros p; now rewrite (min_rank_permute _ _ _ P1), (min_rank_permute _ _ _ P2)).
  now apply Permutation_map.
Qed.

(** *** Functions of the distances and of the joint ranks: sums over positions *)
Lemma map_nth_seq {A} (d : A) q : map (fun i => nth i q d) (seq 0 (length q)) = q.
Proof.
  apply nth_error_ext. intros i. rewrite nth_error_map'. destruct (le_lt_dec (length q) i) as [H|H].
  - now rewrite !(proj2 (nth_error_None _ _)) by (rewrite ?seq_length; lia).
  - rewrite nth_error_seq by easy. cbn. symmetry. now apply nth_error_nth'.
Qed.
(** The positions of the second window are those of the first, shuffled. *)
Lemma shuffle x y x' y' : length x = length y -> length x' = length y' -> Permutation (combine x y) (combine x' y') ->
  exists p : nat -> nat, Permutation (map p (seq 0 (length x))) (seq 0 (length x)) /\ length x' = length x /\
  forall i, (i < length x)%nat -> nth i x' 0 = nth (p i) x 0 /\ nth i y' 0 = nth (p i) y 0.
Proof.
  intros L L' P. set (n := length x). assert (Ln : length x' = n) by (symmetry; apply (Permutation_length (perm_fst _ _ _ _ L L' P))).
  set (at2 := fun i => (nth i x 0, nth i y 0)).
  assert (E : combine x y = map at2 (seq 0 n)).
  { apply nth_error_ext. intros i. rewrite nth_error_combine, nth_error_map'. destruct (le_lt_dec n i) as [H|H].
    - rewrite !(proj2 (nth_error_None _ _)); [easy| |]; rewrite ?seq_length; unfold n in *; lia.
    - rewrite nth_error_seq by easy. rewrite (nth_error_nth' x 0), (nth_error_nth' y 0) by (unfold n in *; lia). reflexivity. }
  rewrite E in P. apply Permutation_sym, Permutation_map_inv in P as (q & Q & P).
  assert (Lq : length q = n) by (rewrite <- (Permutation_length P); apply seq_length).
  exists (fun i => nth i q 0%nat). split; [|split; [exact Ln|]].
  - replace (map (fun i => nth i q 0%nat) (seq 0 n)) with q; [now apply Permutation_sym|]. rewrite <- Lq. symmetry. apply map_nth_seq.
  - intros i Hi. assert (N : nth_error (combine x' y') i = nth_error (map at2 q) i) by now rewrite Q.
    rewrite nth_error_combine, nth_error_map', (nth_error_nth' x' 0), (nth_error_nth' y' 0), (nth_error_nth' q 0%nat) in N by (unfold n in *; lia).
    cbn in N. injection N as N1 N2. easy.
Qed.
Lemma shuffle_in n (p : nat -> nat) i : Permutation (map p (seq 0 n)) (seq 0 n) -> (i < n)%nat -> (p i < n)%nat.
Proof. intros P Hi. assert (I : In (p i) (seq 0 n)) by (apply (Permutation_in _ P), in_map, in_seq; lia). apply in_seq in I. lia. Qed.
Lemma shuffle_inj n (p : nat -> nat) i j : Permutation (map p (seq 0 n)) (seq 0 n) -> (i < n)%nat -> (j < n)%nat -> p i = p j -> i = j.
Proof.
  intros P Hi Hj E. assert (N : NoDup (map p (seq 0 n))) by (eapply Permutation_NoDup; [symmetry; exact P|apply seq_NoDup]).
  assert (Ni : nth_error (map p (seq 0 n)) i = Some (p i)) by (rewrite nth_error_map', nth_error_seq by easy; easy).
  assert (Nj : nth_error (map p (seq 0 n)) j = Some (p j)) by (rewrite nth_error_map', nth_error_seq by easy; easy).
  apply (proj1 (NoDup_nth_error _) N); [rewrite map_length, seq_length; lia|congruence].
Qed.
Lemma sum_shuffle n (p : nat -> nat) f : Permutation (map p (seq 0 n)) (seq 0 n) -> sum n (fun i => f (p i)) = sum n f.
Proof. intros P. unfold sum. rewrite <- (map_map p f). apply Rsum_permute. now apply Permutation_map. Qed.
Lemma sum2_shuffle n (p : nat -> nat) f : Permutation (map p (seq 0 n)) (seq 0 n) -> sum2 n (fun i j => f (p i) (p j)) = sum2 n f.
Proof.
  intros P. unfold sum2. rewrite (sum_ext n _ (fun i => sum n (f (p i)))) by (intros i Hi; apply (sum_shuffle n p (f (p i)) P)). apply (sum_shuffle n p (fun i => sum n (f i)) P).
Qed.
Lemma centre_shuffle n (p : nat -> nat) d e : Permutation (map p (seq 0 n)) (seq 0 n) -> (forall i j, (i < n)%nat -> (j < n)%nat -> e i j = d (p i) (p j)) ->
  forall i j, (i < n)%nat -> (j < n)%nat -> centre n e i j = centre n d (p i) (p j).
Proof.
  intros P H i j Hi Hj. rewrite (centre_ext n e (fun i j => d (p i) (p j)) H i j Hi Hj). unfold centre.
  now rewrite (sum_shuffle n p (d (p i)) P), (sum_shuffle n p (d (p j)) P), (sum2_shuffle n p d P).
Qed.
Lemma dcov2_permute x y x' y' : length x = length y -> length x' = length y' -> Permutation (combine x y) (combine x' y') ->
  dcov2 x' y' = dcov2 x y /\ dcov2 x' x' = dcov2 x x /\ dcov2 y' y' = dcov2 y y.
Proof.
  intros L L' P. destruct (shuffle x y x' y' L L' P) as (p & Q & Ln & H). set (n := length x) in *.
  assert (G : forall i j, (i < n)%nat -> (j < n)%nat -> gap x' i j = gap x (p i) (p j) /\ gap y' i j = gap y (p i) (p j)).
  { intros i j Hi Hj. unfold gap. destruct (H i Hi) as [-> ->], (H j Hj) as [-> ->]. easy. }
  assert (Cx := centre_shuffle n p (gap x) (gap x') Q (fun i j Hi Hj => proj1 (G i j Hi Hj))).
  assert (Cy := centre_shuffle n p (gap y) (gap y') Q (fun i j Hi Hj => proj2 (G i j Hi Hj))).
  assert (Ly : length y = n) by (symmetry; exact L). assert (Ly' : length y' = n) by (rewrite <- L'; exact Ln).
  unfold dcov2. rewrite Ln, Ly', Ly. fold n.
  split; [|split]; f_equal.
  - rewrite (sum2_ext n _ (fun i j => centre n (gap x) (p i) (p j) * centre n (gap y) (p i) (p j))) by (intros i j Hi Hj; now rewrite Cx, Cy).
    apply (sum2_shuffle n p (fun i j => centre n (gap x) i j * centre n (gap y) i j) Q).
  - rewrite (sum2_ext n _ (fun i j => centre n (gap x) (p i) (p j) * centre n (gap x) (p i) (p j))) by (intros i j Hi Hj; now rewrite Cx).
    apply (sum2_shuffle n p (fun i j => centre n (gap x) i j * centre n (gap x) i j) Q).
  - rewrite (sum2_ext n _ (fun i j => centre n (gap y) (p i) (p j) * centre n (gap y) (p i) (p j))) by (intros i j Hi Hj; now rewrite Cy).
    apply (sum2_shuffle n p (fun i j => centre n (gap y) i j * centre n (gap y) i j) Q).
Qed.
Theorem dcor_order_free w : (0 < w)%nat -> pair_order_free w (fun a b => dcor (map Fin a) (map Fin b) w).
Proof.
  intros Hw. apply (pair_free_by w _ (fun x y => if Req (dcov2 x x * dcov2 y y) 0 then NaN else Fin (dist_corr x y))); [exact Hw|intros a b; now apply dcor_real|].
  intros x y x' y' Lx Ly Lx' Ly' P. destruct (dcov2_permute x y x' y' ltac:(congruence) ltac:(congruence) P) as (E1 & E2 & E3).
  unfold dist_corr. now rewrite E1, E2, E3.
Qed.

Lemma avg_rank_permute l m y : Permutation l m -> avg_rank l y = avg_rank m y.
Proof. intros P. unfold avg_rank. now rewrite !(count_perm _ _ _ P). Qed.
Lemma nth_avg_ranks l i : (i < length l)%nat -> nth i (avg_ranks l) 0 = avg_rank l (nth i l 0).
Proof. intros Hi. unfold avg_ranks. rewrite (nth_indep _ 0 (avg_rank l 0)) by (rewrite map_length; lia). apply (map_nth (avg_rank l)). Qed.
Lemma hoeffding_permute x y x' y' : length x = length y -> length x' = length y' -> Permutation (combine x y) (combine x' y') -> hoeffding_d x' y' = hoeffding_d x y.
Proof.
  intros L L' P. destruct (shuffle x y x' y' L L' P) as (p & Q & Ln & H).
  pose proof (perm_fst _ _ _ _ L L' P) as Px. pose proof (perm_snd _ _ _ _ L L' P) as Py. clear P.
  unfold hoeffding_d. rewrite Ln. set (n := length x) in *.
  assert (Ly : length y = n) by (symmetry; exact L). assert (Ly' : length y' = n) by (rewrite <- L'; exact Ln).
  set (r := avg_ranks x). set (s := avg_ranks y). set (r' := avg_ranks x'). set (s' := avg_ranks y').
  assert (Rr : forall i, (i < n)%nat -> nth i r' 0 = nth (p i) r 0 /\ nth i s' 0 = nth (p i) s 0).
  { intros i Hi. pose proof (shuffle_in n p i Q Hi) as Hp. unfold r, s, r', s'. rewrite !nth_avg_ranks by (unfold n in *; lia).
    destruct (H i Hi) as [-> ->]. now rewrite (avg_rank_permute _ _ _ Px), (avg_rank_permute _ _ _ Py). }
  assert (Lr : length r = n) by (unfold r, avg_ranks; apply map_length). assert (Lr' : length r' = n) by (unfold r', avg_ranks; now rewrite map_length).
  assert (J : forall i, (i < n)%nat -> joint_rank r' s' i = joint_rank r s (p i)).
  { intros i Hi. unfold joint_rank. rewrite Lr, Lr'. f_equal.
    set (g := fun k => if (k =? p i)%nat then 0 else half_step (nth k r 0) (nth (p i) r 0) * half_step (nth k s 0) (nth (p i) s 0)).
    transitivity (sum n (fun j => g (p j))); [|apply (sum_shuffle n p g Q)]. apply sum_ext. intros j Hj. unfold g.
    destruct (Rr i Hi) as [-> ->], (Rr j Hj) as [-> ->].
    destruct (Nat.eqb_spec j i) as [->|N]; [now rewrite Nat.eqb_refl|]. destruct (Nat.eqb_spec (p j) (p i)) as [E|]; [|easy].
    exfalso. apply N. now apply (shuffle_inj n p j i Q). }
  set (q := joint_rank r s) in *. set (q' := joint_rank r' s') in *.
  assert (D1 : sum n (fun i => (q' i - 1) * (q' i - 2)) = sum n (fun i => (q i - 1) * (q i - 2))).
  { rewrite (sum_ext n _ (fun i => (q (p i) - 1) * (q (p i) - 2))) by (intros i Hi; now rewrite (J i Hi)). apply (sum_shuffle n p (fun i => (q i - 1) * (q i - 2)) Q). }
  assert (D2 : sum n (fun i => (nth i r' 0 - 1) * (nth i r' 0 - 2) * (nth i s' 0 - 1) * (nth i s' 0 - 2)) = sum n (fun i => (nth i r 0 - 1) * (nth i r 0 - 2) * (nth i s 0 - 1) * (nth i s 0 - 2))).
  { rewrite (sum_ext n _ (fun i => (nth (p i) r 0 - 1) * (nth (p i) r 0 - 2) * (nth (p i) s 0 - 1) * (nth (p i) s 0 - 2))) by (intros i Hi; destruct (Rr i Hi) as [-> ->]; easy).
    apply (sum_shuffle n p (fun i => (nth i r 0 - 1) * (nth i r 0 - 2) * (nth i s 0 - 1) * (nth i s 0 - 2)) Q). }
  assert (D3 : sum n (fun i => (nth i r' 0 - 2) * (nth i s' 0 - 2) * (q' i - 1)) = sum n (fun i => (nth i r 0 - 2) * (nth i s 0 - 2) * (q i - 1))).
  { rewrite (sum_ext n _ (fun i => (nth (p i) r 0 - 2) * (nth (p i) s 0 - 2) * (q (p i) - 1))) by (intros i Hi; rewrite (J i Hi); destruct (Rr i Hi) as [-> ->]; easy).
    apply (sum_shuffle n p (fun i => (nth i r 0 - 2) * (nth i s 0 - 2) * (q i - 1)) Q). }
  unfold sum in D1, D2, D3. now rewrite D1, D2, D3.
Qed.
Theorem hoeffd_order_free srt w : (5 <= w)%nat -> (N.of_nat w * N.of_nat (w - 1) * N.of_nat (w - 2) * N.of_nat (w - 3) * N.of_nat (w - 4) < two64)%N ->
  (forall l : list R, sorts (srt (map Fin l)) (map Fin l)) -> pair_order_free w (fun a b => hoeffd srt (map Fin a) (map Fin b) w).
Proof.
  intros Hw Hb Sr. apply (pair_free_by w _ (fun x y => Fin (hoeffding_d x y))); [lia|intros a b; now apply hoeffd_real|].
  intros x y x' y' Lx Ly Lx' Ly' P. f_equal. symmetry. apply hoeffding_permute; congruence.
Qed.

(** *** Kendall: counts over unordered pairs *)
Lemma count_pairs n q : INR (count q (pairs_below n)) = sum2 n (fun i j => if (i <? j)%nat then if q (i, j) then 1 else 0 else 0).
Proof.
  unfold pairs_below, sum2, sum. generalize (seq 0 n) at 1 4. intros l. generalize (seq 0 n). intros m. induction l as [|i l IH]; cbn [list_prod map]; [reflexivity|].
  rewrite filter_app, Rsum_cons, <- IH. unfold count. rewrite filter_app, app_length, plus_INR. f_equal. clear IH.
  induction m as [|j m IHm]; cbn [map filter]; [reflexivity|]. rewrite Rsum_cons, <- IHm. cbn [fst snd]. destruct (i <? j)%nat; cbn [filter]; [|lra].
  destruct (q (i, j)); cbn [length]; rewrite ?S_INR; lra.
Qed.
Lemma count_both n q : (forall i j, q (i, j) = q (j, i)) ->
  2 * INR (count q (pairs_below n)) = sum2 n (fun i j => if (i =? j)%nat then 0 else if q (i, j) then 1 else 0).
Proof.
  intros S. rewrite count_pairs. set (u := fun i j => if (i <? j)%nat then if q (i, j) then 1 else 0 else 0).
  assert (E : sum2 n u = sum2 n (fun i j => u j i)) by (unfold sum2, sum; apply Rsum_swap).
  replace (2 * sum2 n u) with (sum2 n u + sum2 n (fun i j => u j i)) by lra. rewrite <- sum2_add. apply sum2_ext. intros i j _ _. unfold u. rewrite (S j i).
  destruct (Nat.ltb_spec i j), (Nat.ltb_spec j i), (Nat.eqb_spec i j); try lia; lra.
Qed.
Lemma count_shuffle n p q q' : Permutation (map p (seq 0 n)) (seq 0 n) -> (forall i j, q (i, j) = q (j, i)) -> (forall i j, q' (i, j) = q' (j, i)) ->
  (forall i j, (i < n)%nat -> (j < n)%nat -> q' (i, j) = q (p i, p j)) -> INR (count q' (pairs_below n)) = INR (count q (pairs_below n)).
Proof.
  intros P S S' H. assert (2 * INR (count q' (pairs_below n)) = 2 * INR (count q (pairs_below n))); [|lra]. rewrite !count_both by easy.
  rewrite <- (sum2_shuffle n p (fun i j => if (i =? j)%nat then 0 else if q (i, j) then 1 else 0) P). apply sum2_ext. intros i j Hi Hj. rewrite (H i j Hi Hj).
  destruct (Nat.eqb_spec i j) as [->|N]; [now rewrite Nat.eqb_refl|]. destruct (Nat.eqb_spec (p i) (p j)) as [E|]; [|easy]. exfalso. apply N. now apply (shuffle_inj n p i j P).
Qed.
Lemma tau_permute x y x' y' : length x = length y -> length x' = length y' -> Permutation (combine x y) (combine x' y') -> tau_b x' y' = tau_b x y /\ tau_den x' y' = tau_den x y.
Proof.
  intros L L' P. destruct (shuffle x y x' y' L L' P) as (p & Q & Ln & H). unfold tau_b, tau_den. rewrite Ln. set (n := length x) in *.
  assert (E1 : INR (count (concordant x' y') (pairs_below n)) = INR (count (concordant x y) (pairs_below n))).
  { apply (count_shuffle n p _ _ Q); [intros i j; unfold concordant; cbn [fst snd]; f_equal; ring|intros i j; unfold concordant; cbn [fst snd]; f_equal; ring|].
    intros i j Hi Hj. unfold concordant. cbn [fst snd]. destruct (H i Hi) as [-> ->], (H j Hj) as [-> ->]. easy. }
  assert (E2 : INR (count (discordant x' y') (pairs_below n)) = INR (count (discordant x y) (pairs_below n))).
  { apply (count_shuffle n p _ _ Q); [intros i j; unfold discordant; cbn [fst snd]; f_equal; ring|intros i j; unfold discordant; cbn [fst snd]; f_equal; ring|].
    intros i j Hi Hj. unfold discordant. cbn [fst snd]. destruct (H i Hi) as [-> ->], (H j Hj) as [-> ->]. easy. }
  assert (RS : forall u v : R, Req u v = Req v u) by (intros u v; unfold Req; destruct (Req_EM_T u v), (Req_EM_T v u); congruence).
  assert (E3 : INR (count (tied x') (pairs_below n)) = INR (count (tied x) (pairs_below n))).
  { apply (count_shuffle n p _ _ Q); [intros i j; apply RS|intros i j; apply RS|].
    intros i j Hi Hj. unfold tied. cbn [fst snd]. destruct (H i Hi) as [-> _], (H j Hj) as [-> _]. easy. }
  assert (E4 : INR (count (tied y') (pairs_below n)) = INR (count (tied y) (pairs_below n))).
  { apply (count_shuffle n p _ _ Q); [intros i j; apply RS|intros i j; apply RS|].
    intros i j Hi Hj. unfold tied. cbn [fst snd]. destruct (H i Hi) as [_ ->], (H j Hj) as [_ ->]. easy. }
  now rewrite E1, E2, E3, E4.
Qed.
(** [krcc]: for series without ties of the second price alone. *)
Definition ties_shared (a b : list R) : Prop := length a = length b /\ forall i j, (i < j < length b)%nat -> nth i b 0 = nth j b 0 -> nth i a 0 = nth j a 0.
Theorem krcc_order_free a b a' b' w i j : (0 < w)%nat -> (N.of_nat w <= 2 ^ 32)%N -> ties_shared a b -> ties_shared a' b' ->
  (w - 1 <= i < bars2 a b)%nat -> (w - 1 <= j < bars2 a' b')%nat ->
  Permutation (combine (win w a i) (win w b i)) (combine (win w a' j) (win w b' j)) ->
  exists o o' x, krcc (map Fin a) (map Fin b) w = Ok o /\ krcc (map Fin a') (map Fin b') w = Ok o' /\ nth_error o i = Some x /\ nth_error o' j = Some x.
Proof.
  intros Hw Hb [T1 T2] [T1' T2'] Hi Hj P.
  destruct (krcc_real a b w Hw Hb T2 T1) as (o & E & _ & _ & A), (krcc_real a' b' w Hw Hb T2' T1') as (o' & E' & _ & _ & A'). clear Hb.
  unfold bars2 in *. destruct (tau_permute (win w a i) (win w b i) (win w a' j) (win w b' j)) as [U V]; [rewrite !length_win; lia|rewrite !length_win; lia|exact P|].
  exists o, o'. eexists. split; [exact E|split; [exact E'|split]].
  - apply A. lia.
  - rewrite A' by lia. now rewrite U, V.
Qed.
(** With a tie of the second price alone, the order of the bars matters: what is printed
    for three bars doubles when they are turned round. *)
Theorem krcc_order_refuted : exists a b a' b' o o', Permutation (combine a b) (combine a' b') /\
  krcc (map Fin a) (map Fin b) 3 = Ok o /\ krcc (map Fin a') (map Fin b') 3 = Ok o' /\ nth_error o 2 = Some (Fin (4 / sqrt 6)) /\ nth_error o' 2 = Some (Fin (2 / sqrt 6)).
Proof.
  destruct (krcc_real_formula [3; 2; 1] [2; 1; 1] 3) as (o & E & _ & _ & V); [lia|easy|].
  destruct (krcc_real_formula [1; 2; 3] [1; 1; 2] 3) as (o' & E' & _ & _ & V'); [lia|easy|].
  specialize (V 2%nat). specialize (V' 2%nat). unfold bars2 in V, V'. cbn [length Nat.min Nat.sub] in V, V'. specialize (V ltac:(lia)). specialize (V' ltac:(lia)).
  exists [3; 2; 1], [2; 1; 1], [1; 2; 3], [1; 1; 2], o, o'. split.
  { apply (Permutation_rev (combine [3; 2; 1] [2; 1; 1])). }
  split; [easy|]. split; [easy|]. rewrite V, V'. clear V V'.
  unfold krcc_formula, tau_den, win, count, conc_code, tied, pairs_below. cbn [firstn skipn Nat.add Nat.sub length list_prod seq app map filter fst snd Nat.ltb Nat.leb nth].
  assert (T : forall a b : R, a <> b -> Req a b = false) by (intros; now apply Req_false).
  assert (T2 : forall a : R, Req a a = true) by (intros; now apply Req_true).
  assert (U : forall a b : R, b <= a -> Rltb a b = false) by (intros; now apply Rltb_false).
  assert (U2 : forall a b : R, a < b -> Rltb a b = true) by (intros; now apply Rltb_true).
  assert (S6 : 0 < sqrt 6) by (apply sqrt_lt_R0; lra).
  rewrite !(U (3 - 2)), !(U (3 - 1)), !(U (2 - 1)), !(U (1 - 1)), !(U2 (1 - 2)), !(U2 (1 - 3)), !(U2 (2 - 3)) by lra. rewrite !T2, !T by lra. cbn [Bool.eqb andb negb length INR].
  replace ((1 + 1 + 1 - 0) * (1 + 1 + 1 - 1)) with 6 by ring. rewrite !quot_ok by lra. split; do 2 f_equal; field; lra.
Qed.

(** *** The information of a grid *)
Lemma max_permute l m : l <> [] -> Permutation l m -> Rmax_list l = Rmax_list m.
Proof.
  intros N P. assert (N' : m <> []) by (intros ->; now apply Permutation_sym, Permutation_nil in P).
  destruct (Rmax_list_spec l) as [I M]; [easy|]. destruct (Rmax_list_spec m) as [I' M']; [easy|].
  apply Rle_antisym; [apply M', (Permutation_in _ P I)|apply M, (Permutation_in _ (Permutation_sym P) I')].
Qed.
Lemma min_permute l m : l <> [] -> Permutation l m -> Rmin_list l = Rmin_list m.
Proof.
  intros N P. assert (N' : m <> []) by (intros ->; now apply Permutation_sym, Permutation_nil in P).
  destruct (Rmin_list_spec l) as [I M]; [easy|]. destruct (Rmin_list_spec m) as [I' M']; [easy|].
  apply Rle_antisym; [apply M, (Permutation_in _ (Permutation_sym P) I')|apply M', (Permutation_in _ P I)].
Qed.
Lemma freq_permute {A} (dec : forall x y : A, {x = y} + {x <> y}) t l m : Permutation l m -> freq dec t l = freq dec t m.
Proof. intros P. unfold freq. now rewrite (proj1 (Permutation_count_occ dec l m) P t), (Permutation_length P). Qed.
Lemma mutual_permute l m : Permutation l m -> mutual l = mutual m.
Proof.
  intros P. unfold mutual.
  rewrite (map_ext (fun t => log2 (freq pair_dec t l / (freq N.eq_dec (fst t) (map fst l) * freq N.eq_dec (snd t) (map snd l))))
    (fun t => log2 (freq pair_dec t m / (freq N.eq_dec (fst t) (map fst m) * freq N.eq_dec (snd t) (map snd m))))).
  - now apply mean_map_permute.
  - intros t. now rewrite (freq_permute _ _ _ _ P), (freq_permute N.eq_dec _ _ _ (Permutation_map fst P)), (freq_permute N.eq_dec _ _ _ (Permutation_map snd P)).
Qed.
Lemma mic_permute k x y x' y' : x <> [] -> length x = length y -> length x' = length y' -> Permutation (combine x y) (combine x' y') -> mic_score k x y = mic_score k x' y'.
Proof.
  intros N L L' P. pose proof (perm_fst _ _ _ _ L L' P) as Px. pose proof (perm_snd _ _ _ _ L L' P) as Py.
  unfold mic_score. f_equal. apply map_ext. intros ij. unfold grid_score. f_equal.
  assert (Ny : y <> []) by (destruct x, y; easy).
  rewrite <- (max_permute _ _ N Px), <- (min_permute _ _ N Px), <- (max_permute _ _ Ny Py), <- (min_permute _ _ Ny Py), !combine_map2. apply mutual_permute. now apply Permutation_map.
Qed.
Theorem mic_order_free ord a b a' b' w i j : visits_all ord -> (7 <= w)%nat -> (N.of_nat w < two64)%N ->
  (forall v, In v a \/ In v b \/ In v a' \/ In v b' -> - f64_max <= v <= f64_max) ->
  (w - 1 <= i < bars2 a b)%nat -> (w - 1 <= j < bars2 a' b')%nat ->
  Permutation (combine (win w a i) (win w b i)) (combine (win w a' j) (win w b' j)) ->
  exists o o' x, mic ord (map Fin a) (map Fin b) w = Ok o /\ mic ord (map Fin a') (map Fin b') w = Ok o' /\ nth_error o i = Some x /\ nth_error o' j = Some x.
Proof.
  intros Ho Hw Hb B Hi Hj P.
  destruct (mic_real ord a b w Ho Hw Hb) as (o & E & _ & _ & A); [intros; apply B; tauto|intros; apply B; tauto|].
  destruct (mic_real ord a' b' w Ho Hw Hb) as (o' & E' & _ & _ & A'); [intros; apply B; tauto|intros; apply B; tauto|]. clear Hb.
  unfold bars2 in *. exists o, o'. eexists. split; [exact E|split; [exact E'|split]].
  - apply A. lia.
  - rewrite A' by lia. do 2 f_equal. symmetry. apply mic_permute; [|rewrite !length_win; lia|rewrite !length_win; lia|exact P].
    intros Z. assert (Lz : length (win w a i) = w) by (rewrite length_win; lia). rewrite Z in Lz. cbn in Lz. lia.
Qed.

(** *** The error measures: every bar so far *)
(** Wherever the bars up to [i] and the bars up to [j] of two pairs of series are the same
    up to order, [fn] prints the same value. *)
Definition history_order_free (fn : list R -> list R -> list xr) : Prop :=
  forall a b a' b' i j, (i < bars2 a b)%nat -> (j < bars2 a' b')%nat ->
  Permutation (combine (firstn (i + 1) a) (firstn (i + 1) b)) (combine (firstn (j + 1) a') (firstn (j + 1) b')) ->
  exists x, nth_error (fn a b) i = Some x /\ nth_error (fn a' b') j = Some x.
Lemma history_by fn (g : list (R * R) -> xr) : (forall a b i, (i < Nat.min (length a) (length b))%nat -> nth_error (fn a b) i = Some (g (seen a b i))) ->
  (forall l m, Permutation l m -> g l = g m) -> history_order_free fn.
Proof.
  intros H G a b a' b' i j Hi Hj P. unfold bars2 in *. exists (g (seen a b i)). split; [now apply H|].
  rewrite H by easy. f_equal. apply G. unfold seen. rewrite !combine_firstn. now apply Permutation_sym.
Qed.
Theorem mse_order_free : history_order_free (fun a b => mse (map Fin a) (map Fin b)).
Proof. apply (history_by _ (fun s => Fin (mean (map sqe s)))); [exact mse_real|]. intros. f_equal. now apply mean_map_permute. Qed.
Theorem rmse_order_free : history_order_free (fun a b => rmse (map Fin a) (map Fin b)).
Proof. apply (history_by _ (fun s => Fin (sqrt (mean (map sqe s))))); [exact rmse_real|]. intros. do 2 f_equal. now apply mean_map_permute. Qed.
Theorem mae_order_free : history_order_free (fun a b => mae (map Fin a) (map Fin b)).
Proof. apply (history_by _ (fun s => Fin (mean (map abe s)))); [exact mae_real|]. intros. f_equal. now apply mean_map_permute. Qed.
Theorem smape_order_free : history_order_free (fun a b => smape (map Fin a) (map Fin b)).
Proof. apply (history_by _ (fun s => Fin (100 * mean (map sym_err s)))); [exact smape_real|]. intros. do 2 f_equal. now apply mean_map_permute. Qed.
Theorem mape_order_free a b a' b' i j : (i < bars2 a b)%nat -> (j < bars2 a' b')%nat -> ~ In 0 (firstn (i + 1) a) ->
  Permutation (combine (firstn (i + 1) a) (firstn (i + 1) b)) (combine (firstn (j + 1) a') (firstn (j + 1) b')) ->
  exists x, nth_error (mape (map Fin a) (map Fin b)) i = Some x /\ nth_error (mape (map Fin a') (map Fin b')) j = Some x.
Proof.
  intros Hi Hj H0 P. unfold bars2 in *.
  assert (N : forall p, In p (seen a b i) -> fst p <> 0).
  { intros [x y] I Z. cbn in Z. subst x. apply H0. unfold seen in I. rewrite combine_firstn in I. apply (in_combine_l _ _ _ _ I). }
  eexists. split; [now apply mape_real|]. rewrite mape_real; [|easy|].
  - do 3 f_equal. apply mean_map_permute. unfold seen. rewrite !combine_firstn. now apply Permutation_sym.
  - intros p I. apply N. unfold seen in *. rewrite combine_firstn in *. exact (Permutation_in _ (Permutation_sym P) I).
Qed.

(** *** Volume weighted mean *)
Theorem vwma_order_free d v d' v' n n' w i j : (0 < w)%nat ->
  (forall k, (w - 1 <= k < n)%nat -> Rsum (last_bars w v k) <> 0) -> (forall k, (w - 1 <= k < n')%nat -> Rsum (last_bars w v' k) <> 0) ->
  (w - 1 <= i < n)%nat -> (w - 1 <= j < n')%nat ->
  Permutation (combine (last_bars w d i) (last_bars w v i)) (combine (last_bars w d' j) (last_bars w v' j)) ->
  exists o o' x, vwma (xseries d n) (xseries v n) w = Ok o /\ vwma (xseries d' n') (xseries v' n') w = Ok o' /\ nth_error o i = Some x /\ nth_error o' j = Some x.
Proof.
  intros Hw Z Z' Hi Hj P. destruct (vwma_real d v n w Hw Z) as (o & E & _ & _ & A). destruct (vwma_real d' v' n' w Hw Z') as (o' & E' & _ & _ & A').
  exists o, o'. eexists. split; [exact E|split; [exact E'|split; [now apply A|]]]. rewrite A' by easy. do 2 f_equal. unfold wmean.
  assert (L : forall (f : nat -> R) k, length (last_bars w f k) = w) by (intros; unfold last_bars; now rewrite map_length, seq_length).
  f_equal.
  - rewrite !combine_last_bars in P. unfold wsum. rewrite !combine_last_bars. apply Rsum_permute.
    unfold last_bars in *. apply Permutation_sym. apply (Permutation_map (fun p : R * R => snd p * fst p)) in P. now rewrite !map_map in *.
  - apply Rsum_permute. apply Permutation_sym. apply (perm_snd (last_bars w d i) (last_bars w d' j)); rewrite ?L; easy.
Qed.

(** *** Binary64 *)
(** The mean of a window depends on the order in binary64: 2^53, 1 and 1 give 2^53/3
    rounded one way and 1, 1 and 2^53 the other, whatever the sum of no floats is. *)
Theorem sma_f64_order_refuted : exists l l' : list f64, Permutation l l' /\ forall m, exists o o' x x',
  @sma f64 (B64 m) l 3 = Ok o /\ @sma f64 (B64 m) l' 3 = Ok o' /\ nth_error o 2 = Some x /\ nth_error o' 2 = Some x' /\ x <> x'.
Proof.
  set (b := b64_of_Z (2 ^ 53)). set (u := b64_of_Z 1).
  exists [b; u; u], [u; u; b]. split; [apply (Permutation_rev [b; u; u])|]. intros m.
  assert (T : match @sma f64 (B64 m) [b; u; u] 3, @sma f64 (B64 m) [u; u; b] 3 with
    | Ok o, Ok o' => match nth_error o 2, nth_error o' 2 with Some x, Some x' => Bcompare x x' = Some Lt | _, _ => False end
    | _, _ => False end) by (destruct m as [? ? ? ? ? ? ? []]; vm_compute; reflexivity).
  destruct (@sma f64 (B64 m) [b; u; u] 3) as [o|]; [|easy]. destruct (@sma f64 (B64 m) [u; u; b] 3) as [o'|]; [|easy].
  destruct (nth_error o 2) as [x|] eqn:X; [|easy]. destruct (nth_error o' 2) as [x'|] eqn:X'; [|easy].
  exists o, o', x, x'. split; [easy|]. split; [easy|]. split; [easy|]. split; [easy|]. intros <-.
  revert T. clear. destruct x as [[]|[]| |s k e ?]; cbn; try discriminate.
  rewrite Z.compare_refl, Pos.compare_refl. destruct s; discriminate.
Qed.
