(** * Distance correlation (correlation.rs [dcor]). *)

From Coq Require Import Permutation Sorted.
From Verif Require Export CorrReal OrderStat.
Local Unset Implicit Arguments.

(** Swapping the series changes no bit, if multiplication commutes. *)
Section Sym.
  Context {F : Type} {O : FOps F}.
  Theorem dcor_symmetric (a b : list F) w : (forall x y : F, fmul x y = fmul y x) -> dcor a b w = dcor b a w.
  Proof.
    intros Cm. unfold dcor, zip_windows. destruct (usub w 1); [|easy]. cbn [bind].
    unfold rwindows. destruct (w =? 0); [easy|]. cbn [bind]. do 2 f_equal.
    assert (S : forall x y, dcor_win w (x, y) = dcor_win w (y, x)).
    { intros x y. unfold dcor_win. cbn [fst snd]. f_equal; [|f_equal; apply Cm]. do 3 f_equal.
      rewrite (combine_swap (centred_matrix x)), map_map. apply map_ext. intros [u v]. cbn. apply Cm. }
    generalize (windows w a), (windows w b). intros l. induction l as [|x l IH]; intros [|y m]; cbn; try easy.
    now rewrite S, IH.
  Qed.
End Sym.

Local Open Scope R_scope.

(** ** Double sums *)
Definition sum (n : nat) (f : nat -> R) : R := Rsum (map f (seq 0 n)).
Definition sum2 (n : nat) (f : nat -> nat -> R) : R := sum n (fun i => sum n (fun j => f i j)).

Lemma sum_ext n f g : (forall i, (i < n)%nat -> f i = g i) -> sum n f = sum n g.
Proof. intros H. unfold sum. f_equal. apply map_ext_in. intros i Hi. apply in_seq in Hi. apply H. lia. Qed.
Lemma sum_add n f g : sum n (fun i => f i + g i) = sum n f + sum n g.
Proof. apply Rsum_map_add. Qed.
Lemma sum_scale n c f : sum n (fun i => c * f i) = c * sum n f.
Proof. apply Rsum_map_scale. Qed.
Lemma sum_const n c : sum n (fun _ => c) = INR n * c.
Proof. unfold sum. now rewrite Rsum_const, seq_length. Qed.
Lemma Rsum_swap {A B} (f : A -> B -> R) l m :
  Rsum (map (fun a => Rsum (map (fun b => f a b) m)) l) = Rsum (map (fun b => Rsum (map (fun a => f a b) l)) m).
Proof.
  induction l as [|a l IH]; cbn [map].
  - rewrite Rsum_nil. symmetry. rewrite Rsum_const. lra.
  - rewrite Rsum_cons, IH. rewrite <- Rsum_map_add. reflexivity.
Qed.
Lemma sum_nonneg n f : (forall i, (i < n)%nat -> 0 <= f i) -> 0 <= sum n f.
Proof.
  intros H. apply Rsum_nonneg. intros x Hx. apply in_map_iff in Hx as (i & <- & Hi). apply in_seq in Hi. apply H. lia.
Qed.
Lemma sum2_ext n f g : (forall i j, (i < n)%nat -> (j < n)%nat -> f i j = g i j) -> sum2 n f = sum2 n g.
Proof. intros H. apply sum_ext. intros i Hi. apply sum_ext. auto. Qed.
Lemma sum2_add n f g : sum2 n (fun i j => f i j + g i j) = sum2 n f + sum2 n g.
Proof. unfold sum2. rewrite <- sum_add. apply sum_ext. intros. apply sum_add. Qed.
Lemma sum2_scale n c f : sum2 n (fun i j => c * f i j) = c * sum2 n f.
Proof. unfold sum2. rewrite <- sum_scale. apply sum_ext. intros. apply sum_scale. Qed.
Lemma sum2_Rsum {K} n (f : K -> nat -> nat -> R) ks :
  sum2 n (fun i j => Rsum (map (fun k => f k i j) ks)) = Rsum (map (fun k => sum2 n (f k)) ks).
Proof.
  induction ks as [|k ks IH]; cbn [map].
  - rewrite Rsum_nil. unfold sum2. rewrite (sum_ext n _ (fun _ => 0)); [rewrite sum_const; lra|].
    intros i Hi. rewrite sum_const. lra.
  - rewrite Rsum_cons, <- IH, <- sum2_add. reflexivity.
Qed.
Lemma Rsum_flat {A B} (f : A -> B -> R) l m :
  Rsum (flat_map (fun a => map (f a) m) l) = Rsum (map (fun a => Rsum (map (f a) m)) l).
Proof. induction l as [|a l IH]; cbn [flat_map map]; [easy|]. rewrite Rsum_app, Rsum_cons, IH. reflexivity. Qed.

(** ** Specification *)

(** Distance matrix of the items of [x], and its double centring: subtract the
    mean of the row and of the column, add the mean of the matrix. *)
Definition gap (x : list R) (i j : nat) : R := Rabs (nth i x 0 - nth j x 0).
Definition centre (n : nat) (d : nat -> nat -> R) (i j : nat) : R :=
  d i j - sum n (d i) / INR n - sum n (d j) / INR n + sum2 n d / (INR n * INR n).

(** Squared distance covariance: the mean of the products of the entries. *)
Definition dcov2 (x y : list R) : R :=
  let n := length x in
  sum2 n (fun i j => centre n (gap x) i j * centre n (gap y) i j) / (INR n * INR n).
Definition dist_corr (x y : list R) : R := sqrt (dcov2 x y) / sqrt (sqrt (dcov2 x x) * sqrt (dcov2 y y)).

(** ** Positivity *)

Lemma centre_ext n d e : (forall i j, (i < n)%nat -> (j < n)%nat -> d i j = e i j) ->
  forall i j, (i < n)%nat -> (j < n)%nat -> centre n d i j = centre n e i j.
Proof.
  intros H i j Hi Hj. unfold centre. rewrite (H i j Hi Hj), (sum_ext n (d i) (e i)), (sum_ext n (d j) (e j)), (sum2_ext n d e); auto.
Qed.
Lemma centre_sum {K} n (c : K -> R) (e : K -> nat -> nat -> R) ks i j :
  centre n (fun i j => Rsum (map (fun k => c k * e k i j) ks)) i j = Rsum (map (fun k => c k * centre n (e k) i j) ks).
Proof.
  induction ks as [|k ks IH].
  - cbn [map]. unfold centre. rewrite Rsum_nil. unfold sum2. rewrite !(sum_const n 0), !Rmult_0_r.
    rewrite (sum_const n 0). unfold Rdiv. ring.
  - cbn [map]. rewrite Rsum_cons, <- IH. unfold centre.
    set (g := fun i0 j0 => Rsum (map (fun k0 => c k0 * e k0 i0 j0) ks)).
    assert (G : forall i0 j0, Rsum (c k * e k i0 j0 :: map (fun k0 => c k0 * e k0 i0 j0) ks) = c k * e k i0 j0 + g i0 j0)
      by (intros; now rewrite Rsum_cons).
    rewrite G.
    rewrite (sum_ext n (fun j0 => Rsum (c k * e k i j0 :: _)) (fun j0 => c k * e k i j0 + g i j0)) by (intros; apply G).
    rewrite (sum_ext n (fun j0 => Rsum (c k * e k j j0 :: _)) (fun j0 => c k * e k j j0 + g j j0)) by (intros; apply G).
    rewrite (sum2_ext n (fun i0 j0 => Rsum (c k * e k i0 j0 :: _)) (fun i0 j0 => c k * e k i0 j0 + g i0 j0)) by (intros; apply G).
    rewrite !sum_add, !sum_scale, sum2_add, sum2_scale. fold g. change (fun j0 => g i j0) with (g i). change (fun j0 => g j j0) with (g j).
    change (fun j0 => e k i j0) with (e k i). change (fun j0 => e k j j0) with (e k j).
    change (Rsum (map (fun k0 => c k0 * e k0 i j) ks)) with (g i j).
    change (fun j0 => Rsum (map (fun k0 => c k0 * e k0 i j0) ks)) with (g i).
    change (fun j0 => Rsum (map (fun k0 => c k0 * e k0 j j0) ks)) with (g j).
    unfold Rdiv. ring.
Qed.
(** Centring the squared differences of [f] leaves the product of the deviations. *)
Lemma centre_sq n (f : nat -> R) i j : (0 < n)%nat ->
  let m := sum n f / INR n in
  centre n (fun i j => (f i - f j) ^ 2) i j = - 2 * ((f i - m) * (f j - m)).
Proof.
  intros Hn m. assert (P := INR_neq0 n Hn). set (q := sum n (fun k => f k ^ 2)).
  assert (E : forall i, sum n (fun j => (f i - f j) ^ 2) = INR n * f i ^ 2 - 2 * f i * (INR n * m) + q).
  { intros k. rewrite (sum_ext n _ (fun l => (f k ^ 2 + (- 2 * f k) * f l) + f l ^ 2)) by (intros; ring).
    rewrite !sum_add, sum_const, sum_scale. fold q. unfold m. field. easy. }
  unfold centre, sum2. rewrite !E. rewrite (sum_ext n _ (fun i => (INR n * f i ^ 2 + (- 2 * (INR n * m)) * f i) + q)) by (intros; rewrite E; ring).
  rewrite !sum_add, sum_const, !sum_scale. fold q. replace (sum n f) with (INR n * m) by (unfold m; field; easy). field. easy.
Qed.

(** A distance is a sum of squared differences of step functions. *)
Fixpoint steps_of (v : R) (l : list R) : list (R * R) :=
  match l with [] => [] | u :: l' => (v, u - v) :: steps_of u l' end.
Definition below (p a : R) : R := if Rltb p a then 1 else 0.
Lemma steps_sum v l : StronglySorted Rle (v :: l) -> forall a, In a (v :: l) ->
  Rsum (map (fun s => snd s * below (fst s) a) (steps_of v l)) = a - v.
Proof.
  revert v. induction l as [|u l IH]; intros v S a Ha.
  - destruct Ha as [->|[]]. cbn. lra.
  - cbn [steps_of map fst snd]. rewrite Rsum_cons. apply StronglySorted_inv in S. destruct S as [S Fv]. rewrite Forall_forall in Fv.
    assert (Huv : v <= u) by (apply Fv; now left).
    destruct Ha as [<-|Ha].
    + assert (Z : forall v' l', v <= v' -> (forall x, In x l' -> v <= x) -> Rsum (map (fun s => snd s * below (fst s) v) (steps_of v' l')) = 0).
      { clear. intros v' l'. revert v'. induction l' as [|u l' IH]; intros v' H1 H2; cbn [steps_of map fst snd]; [easy|].
        rewrite Rsum_cons, IH; [|apply H2; now left|intros; apply H2; now right].
        unfold below. rewrite (proj2 (Rltb_false v' v)) by easy. lra. }
      rewrite Z; [|easy|intros; apply Fv; now right]. unfold below. rewrite (proj2 (Rltb_false v v)) by lra. lra.
    + rewrite (IH u S a Ha). unfold below. rcase; [lra|].
      assert (v <= a) by (apply Fv; easy). assert (a = v) by lra. subst a.
      assert (u <= v). { destruct Ha as [->|Ha]; [lra|]. apply StronglySorted_inv in S. destruct S as [_ Fu]. rewrite Forall_forall in Fu. now apply Fu. }
      lra.
Qed.
Lemma steps_nonneg v l : StronglySorted Rle (v :: l) -> forall s, In s (steps_of v l) -> 0 <= snd s.
Proof.
  revert v. induction l as [|u l IH]; intros v S s Hs; [easy|]. apply StronglySorted_inv in S. destruct S as [S Fv].
  rewrite Forall_forall in Fv. destruct Hs as [<-|Hs]; [|now apply (IH u)]. cbn. assert (v <= u) by (apply Fv; now left). lra.
Qed.
Lemma below_mono p a b : a <= b -> below p a <= below p b.
Proof. intros. unfold below. rcase; lra. Qed.
Lemma gap_steps v l a b : StronglySorted Rle (v :: l) -> In a (v :: l) -> In b (v :: l) ->
  Rabs (a - b) = Rsum (map (fun s => snd s * (below (fst s) a - below (fst s) b) ^ 2) (steps_of v l)).
Proof.
  intros S Ha Hb. assert (W : forall a b, a <= b -> In a (v :: l) -> In b (v :: l) ->
    b - a = Rsum (map (fun s => snd s * (below (fst s) a - below (fst s) b) ^ 2) (steps_of v l))).
  { clear a b Ha Hb. intros a b H Ha Hb. rewrite (map_ext _ (fun s => snd s * below (fst s) b - snd s * below (fst s) a)).
    - rewrite Rsum_map_sub, !(steps_sum v l S) by easy. lra.
    - intros s. assert (M := below_mono (fst s) a b H). revert M. unfold below. rcase; intros; nra. }
  destruct (Rle_dec a b).
  - rewrite Rabs_left1 by lra. rewrite <- W by easy. lra.
  - rewrite Rabs_pos_eq by lra. rewrite (map_ext _ (fun s => snd s * (below (fst s) b - below (fst s) a) ^ 2)) by (intros; ring).
    rewrite <- W by (easy || lra). lra.
Qed.
Lemma gap_decompose x : x <> [] -> exists (ks : list (R * (nat -> R))),
  (forall k, In k ks -> 0 <= fst k) /\
  forall i j, (i < length x)%nat -> (j < length x)%nat -> gap x i j = Rsum (map (fun k => fst k * (snd k i - snd k j) ^ 2) ks).
Proof.
  intros Hn. pose proof (Rsort_perm x) as P. pose proof (Rsort_sorted x) as S.
  destruct (Rsort x) as [|v l] eqn:E; [apply Permutation_length in P; destruct x; easy|].
  exists (map (fun s => (snd s, fun i => below (fst s) (nth i x 0))) (steps_of v l)). split.
  - intros k Hk. apply in_map_iff in Hk as (s & <- & Hs). cbn. now apply (steps_nonneg v l).
  - intros i j Hi Hj. rewrite map_map. cbn [fst snd]. unfold gap. apply gap_steps; [easy| |];
      (eapply Permutation_in; [exact P|apply nth_In; easy]).
Qed.

Lemma sum_mult n f g : sum n f * sum n g = sum2 n (fun i j => f i * g j).
Proof.
  unfold sum2. rewrite (sum_ext n (fun i => sum n (fun j => f i * g j)) (fun i => sum n g * f i)) by (intros; rewrite sum_scale; ring).
  rewrite sum_scale. ring.
Qed.
Theorem dcov2_nonneg x y : length x = length y -> 0 <= dcov2 x y.
Proof.
  intros L. unfold dcov2. set (n := length x).
  destruct x as [|x0 x']; [unfold sum2, sum; cbn; unfold Rdiv; lra|]. set (x := x0 :: x') in *. assert (Hn : (0 < n)%nat) by (cbn; lia).
  assert (Hy : y <> []) by (destruct y; easy).
  destruct (gap_decompose x ltac:(easy)) as (K & K0 & KE). destruct (gap_decompose y Hy) as (M & M0 & ME). rewrite <- L in ME. fold n in KE, ME.
  assert (P := INR_pos n Hn). apply Rdiv_nonneg; [|nra].
  set (dev := fun (f : nat -> R) i => f i - sum n f / INR n).
  assert (C : forall z ks, (forall i j, (i < n)%nat -> (j < n)%nat -> gap z i j = Rsum (map (fun k : R * (nat -> R) => fst k * (snd k i - snd k j) ^ 2) ks)) ->
    forall i j, (i < n)%nat -> (j < n)%nat ->
    centre n (gap z) i j = Rsum (map (fun k => -2 * fst k * (dev (snd k) i * dev (snd k) j)) ks)).
  { intros z ks E i j Hi Hj. rewrite (centre_ext n _ _ E i j Hi Hj), (centre_sum n fst (fun k i j => (snd k i - snd k j) ^ 2)).
    f_equal. apply map_ext. intros k. rewrite centre_sq by easy. unfold dev. ring. }
  rewrite (sum2_ext n _ (fun i j => Rsum (map (fun k => Rsum (map (fun m =>
     4 * fst k * fst m * ((dev (snd k) i * dev (snd m) i) * (dev (snd k) j * dev (snd m) j))) M)) K))).
  2:{ intros i j Hi Hj. rewrite (C x K KE), (C y M ME) by easy.
      rewrite (Rmult_comm (Rsum _)), <- Rsum_map_scale. f_equal. apply map_ext. intros k.
      rewrite Rmult_comm, <- Rsum_map_scale. f_equal. apply map_ext. intros m. ring. }
  rewrite sum2_Rsum. apply Rsum_nonneg. intros r Hr. apply in_map_iff in Hr as (k & <- & Hk).
  rewrite sum2_Rsum. apply Rsum_nonneg. intros r Hr. apply in_map_iff in Hr as (m & <- & Hm).
  rewrite sum2_scale, <- sum_mult. specialize (K0 k Hk). specialize (M0 m Hm).
  apply Rmult_le_pos; [|apply Rle_0_sqr]. apply Rmult_le_pos; [|easy]. lra.
Qed.

Lemma sum_S n f : sum (S n) f = sum n f + f n.
Proof. unfold sum. rewrite seq_S, map_app, Rsum_app. cbn [map plus]. rewrite Rsum_cons, Rsum_nil. ring. Qed.
Lemma upper_sum n d : (forall i j, d i j = d j i) ->
  2 * sum n (fun i => Rsum (map (d i) (seq i (n - i)))) - sum n (fun i => d i i) = sum2 n d.
Proof.
  intros Sy. induction n as [|n IH]; [unfold sum2, sum; cbn; lra|].
  rewrite !sum_S. unfold sum2 in *. rewrite sum_S. replace (S n - n)%nat with 1%nat by lia. cbn [seq map]. rewrite Rsum_cons, Rsum_nil.
  rewrite (sum_ext n (fun i => Rsum (map (d i) (seq i (S n - i)))) (fun i => Rsum (map (d i) (seq i (n - i))) + d n i)).
  2:{ intros i Hi. replace (S n - i)%nat with (S (n - i)) by lia. rewrite seq_S, map_app, Rsum_app. cbn [map].
      rewrite Rsum_cons, Rsum_nil, Rplus_0_r. replace (i + (n - i))%nat with n by lia. now rewrite (Sy i n). }
  rewrite (sum_ext n (fun i => sum (S n) (fun j => d i j)) (fun i => sum n (fun j => d i j) + d n i)) by (intros; rewrite sum_S; now rewrite (Sy i n)).
  rewrite !sum_add, sum_S. rewrite <- IH. change (fun j => d n j) with (d n). ring.
Qed.
Lemma gap_sym x i j : gap x i j = gap x j i.
Proof. apply Rabs_minus_sym. Qed.
Lemma x_dist x i j : (i < length x)%nat -> (j < length x)%nat -> dist (map Fin x) i j = Fin (gap x i j).
Proof.
  intros Hi Hj. unfold dist. rewrite !x_at by lia. rewrite x_sub, x_abs. f_equal.
  destruct (Nat.le_ge_cases i j); [rewrite Nat.min_l, Nat.max_r by easy; easy|].
  rewrite Nat.min_r, Nat.max_l by easy. apply gap_sym.
Qed.
Lemma x_row_mean x i : (i < length x)%nat ->
  row_mean (map Fin x) i = Fin (sum (length x) (gap x i) / INR (length x)).
Proof.
  intros Hi. unfold row_mean. rewrite map_length, (x_fsum_map _ (gap x i)).
  - rewrite x_nat, x_div by (apply INR_neq0; lia). reflexivity.
  - intros j Hj. apply in_seq in Hj. apply x_dist; lia.
Qed.
Lemma fold_left_pair (g : nat -> nat -> xr) l a :
  fold_left (fun acc '(i, j) => fadd acc (g i j)) l a = fold_left (fun acc ij => fadd acc (g (fst ij) (snd ij))) l a.
Proof. revert a. induction l as [|[i j] l IH]; intros a; cbn; [easy|apply IH]. Qed.
Lemma nth_map_seq {A} (f : nat -> A) n k d : (k < n)%nat -> nth k (map f (seq 0 n)) d = f k.
Proof. intros H. rewrite (nth_indep _ d (f 0%nat)) by now rewrite map_length, seq_length. now rewrite map_nth, seq_nth. Qed.
Lemma combine_map_same {A B C} (f : A -> B) (g : A -> C) l : combine (map f l) (map g l) = map (fun x => (f x, g x)) l.
Proof. induction l; cbn; congruence. Qed.
Lemma x_matrix_mean x : x <> [] ->
  matrix_mean (map Fin x) = Fin (sum2 (length x) (gap x) / (INR (length x) * INR (length x))).
Proof.
  intros Hx. assert (Hn : (0 < length x)%nat) by (destruct x; cbn; [easy|lia]).
  unfold matrix_mean. rewrite map_length. set (n := length x) in *. rewrite !x_lit.
  rewrite (fold_left_pair (fun i j => fmul (dist (map Fin x) i j) (Fin 2))).
  rewrite (x_fold_add _ (fun ij => 2 * gap x (fst ij) (snd ij))).
  2:{ intros [i j] Hij. apply in_flat_map in Hij as (i' & Hi & Hj). apply in_map_iff in Hj as (j' & Ej & Hj).
      injection Ej as -> ->. apply in_seq in Hi. apply in_seq in Hj. cbn [fst snd]. rewrite x_dist by (fold n; lia). rewrite x_mul. f_equal. ring. }
  rewrite (x_fold_add _ (fun i => gap x i i)).
  2:{ intros i Hi. apply in_seq in Hi. apply x_dist; fold n; lia. }
  rewrite x_sub, x_nat, mult_INR, x_div by (assert (P := INR_pos n Hn); nra). do 2 f_equal.
  rewrite <- upper_sum by apply gap_sym. rewrite !Rplus_0_l. fold (sum n (fun i => gap x i i)). f_equal.
  unfold sum. rewrite flat_map_concat_map, concat_map, map_map, <- flat_map_concat_map.
  rewrite (flat_map_ext _ (fun i => map (fun j => 2 * gap x i j) (seq i (n - i)))) by (intros; now rewrite map_map).
  rewrite <- Rsum_map_scale. induction (seq 0 n) as [|i l IH]; cbn [flat_map map]; [easy|].
  rewrite Rsum_app, Rsum_cons, IH, Rsum_map_scale. reflexivity.
Qed.
Lemma x_centred_matrix x : x <> [] -> centred_matrix (map Fin x) =
  map Fin (flat_map (fun i => map (centre (length x) (gap x) i) (seq 0 (length x))) (seq 0 (length x))).
Proof.
  intros Hx. unfold centred_matrix. rewrite map_length. set (n := length x).
  rewrite !flat_map_concat_map, concat_map, !map_map. f_equal. apply map_ext_in. intros i Hi. apply in_seq in Hi.
  rewrite map_map. apply map_ext_in. intros j Hj. apply in_seq in Hj. unfold centred.
  assert (R : forall k, (k < n)%nat -> at_ (map (row_mean (map Fin x)) (seq 0 n)) k = Fin (sum n (gap x k) / INR n)).
  { intros k Hk. rewrite (map_ext_in _ (fun k => Fin (sum n (gap x k) / INR n))).
    - unfold at_. rewrite nth_map_seq by easy. reflexivity.
    - intros m Hm. apply in_seq in Hm. apply x_row_mean. fold n. lia. }
  rewrite !R, x_dist, x_matrix_mean by (easy || fold n; lia). fold n. rewrite x_neg, x_sub, !x_add. f_equal.
  unfold centre. destruct (Nat.le_ge_cases i j); [rewrite Nat.min_l, Nat.max_r by easy; ring|].
  rewrite Nat.min_r, Nat.max_l by easy. rewrite (gap_sym x i j). ring.
Qed.

Definition grid (n : nat) := flat_map (fun i => map (fun j => (i, j)) (seq 0 n)) (seq 0 n).
Lemma sum2_grid n f : sum2 n f = Rsum (map (fun p => f (fst p) (snd p)) (grid n)).
Proof.
  unfold sum2, sum, grid. induction (seq 0 n) as [|i l IH] at 2 4; [easy|]. cbn [map flat_map].
  rewrite map_app, Rsum_app, Rsum_cons, map_map, IH. reflexivity.
Qed.
Lemma flat_grid {A} n (f : nat -> nat -> A) :
  flat_map (fun i => map (f i) (seq 0 n)) (seq 0 n) = map (fun p => f (fst p) (snd p)) (grid n).
Proof.
  unfold grid. induction (seq 0 n) as [|i l IH] at 2 4; [easy|]. cbn [map flat_map]. now rewrite map_app, map_map, IH.
Qed.
Lemma dcov2_cauchy x y : length x = length y -> x <> [] -> dcov2 x y ^ 2 <= dcov2 x x * dcov2 y y.
Proof.
  intros L Hx. unfold dcov2. rewrite <- L. set (n := length x). rewrite !sum2_grid.
  pose proof (cauchy_schwarz (fun p => centre n (gap x) (fst p) (snd p)) (fun p => centre n (gap y) (fst p) (snd p)) (grid n)) as CS.
  cbv beta in CS. assert (Hn : (0 < n)%nat) by (destruct x; cbn; [easy|lia]). assert (P := INR_pos n Hn).
  set (a := Rsum (map _ (grid n))) in CS at 1. fold a.
  rewrite (map_ext (fun p => centre n (gap x) (fst p) (snd p) * centre n (gap x) (fst p) (snd p)) (fun p => centre n (gap x) (fst p) (snd p) ^ 2)) by (intros; ring).
  rewrite (map_ext (fun p => centre n (gap y) (fst p) (snd p) * centre n (gap y) (fst p) (snd p)) (fun p => centre n (gap y) (fst p) (snd p) ^ 2)) by (intros; ring).
  set (b := Rsum (map (fun p => centre n (gap x) (fst p) (snd p) ^ 2) (grid n))) in *.
  set (c := Rsum (map (fun p => centre n (gap y) (fst p) (snd p) ^ 2) (grid n))) in *.
  unfold Rdiv. set (k := / (INR n * INR n)). assert (0 < k) by (apply Rinv_0_lt_compat; nra).
  replace ((a * k) ^ 2) with (a ^ 2 * (k * k)) by ring. replace (b * k * (c * k)) with (b * c * (k * k)) by ring.
  apply Rmult_le_compat_r; [nra|easy].
Qed.
Lemma dcov2_zero x y : length x = length y -> x <> [] -> dcov2 x x * dcov2 y y = 0 -> dcov2 x y = 0.
Proof. intros L Hx Z. pose proof (dcov2_cauchy x y L Hx). pose proof (dcov2_nonneg x y L). nra. Qed.

(** The coefficient lies in [0,1], is symmetric, and is 1 of a series with itself. *)
Theorem dist_corr_range x y : length x = length y -> x <> [] -> dcov2 x x * dcov2 y y <> 0 -> 0 <= dist_corr x y <= 1.
Proof.
  intros L Hx Z. pose proof (dcov2_nonneg x x eq_refl) as Vx. pose proof (dcov2_nonneg y y eq_refl) as Vy.
  assert (0 < dcov2 x x) by (destruct Vx as [|E]; [easy|rewrite <- E in Z; lra]).
  assert (0 < dcov2 y y) by (destruct Vy as [|E]; [easy|rewrite <- E in Z; lra]).
  pose proof (sqrt_lt_R0 _ H) as Sx. pose proof (sqrt_lt_R0 _ H0) as Sy.
  assert (Sxy : 0 < sqrt (dcov2 x x) * sqrt (dcov2 y y)) by nra. pose proof (sqrt_lt_R0 _ Sxy) as Q.
  unfold dist_corr. split; [apply Rdiv_nonneg; [apply sqrt_pos|lra]|].
  apply Rmult_le_reg_r with (1 := Q). unfold Rdiv. rewrite Rmult_assoc, Rinv_l, Rmult_1_r, Rmult_1_l by lra.
  apply sqrt_le_1_alt. rewrite <- sqrt_mult by lra. rewrite <- (sqrt_pow2 (dcov2 x y)) by now apply dcov2_nonneg.
  apply sqrt_le_1_alt. now apply dcov2_cauchy.
Qed.
Lemma dcov2_sym x y : length x = length y -> dcov2 x y = dcov2 y x.
Proof. intros L. unfold dcov2. rewrite L. f_equal. apply sum2_ext. intros. ring. Qed.
Theorem dist_corr_sym x y : length x = length y -> dist_corr x y = dist_corr y x.
Proof. intros L. unfold dist_corr. now rewrite dcov2_sym, (Rmult_comm (sqrt (dcov2 x x))). Qed.
Theorem dist_corr_self x : dcov2 x x <> 0 -> dist_corr x x = 1.
Proof.
  intros Z. unfold dist_corr. pose proof (dcov2_nonneg x x eq_refl). rewrite sqrt_square by apply sqrt_pos.
  apply Rinv_r. intros E. apply sqrt_eq_0 in E; easy.
Qed.

Lemma x_dcor_win w x y : length x = w -> length y = w -> (0 < w)%nat ->
  dcor_win w (map Fin x, map Fin y) = if Req (dcov2 x x * dcov2 y y) 0 then NaN else Fin (dist_corr x y).
Proof.
  intros Lx Ly Hw. assert (Hx : x <> []) by (intros ->; cbn in Lx; lia). assert (Hy : y <> []) by (intros ->; cbn in Ly; lia).
  unfold dcor_win. cbn [fst snd]. rewrite !x_centred_matrix by easy. rewrite Lx, Ly, !flat_grid.
  assert (E : forall a b, length a = w -> length b = w -> fdiv (fsum (map (fun '(u, v) => fmul u v)
       (combine (map Fin (map (fun p => centre w (gap a) (fst p) (snd p)) (grid w)))
                (map Fin (map (fun p => centre w (gap b) (fst p) (snd p)) (grid w)))))) (fofnat (w * w)) = Fin (dcov2 a b)).
  { intros a b La Lb. rewrite !map_map, combine_map_same, map_map.
    rewrite (x_fsum_map _ (fun p => centre w (gap a) (fst p) (snd p) * centre w (gap b) (fst p) (snd p))) by (intros; apply x_mul).
    rewrite x_nat, mult_INR, x_div by (assert (P := INR_pos w Hw); nra). unfold dcov2. rewrite La. now rewrite sum2_grid. }
  rewrite E by easy.
  assert (D : forall a, length a = w -> fdiv (fsum (map (fun u => fmul u u)
       (map Fin (map (fun p => centre w (gap a) (fst p) (snd p)) (grid w))))) (fofnat (w * w)) = Fin (dcov2 a a)).
  { intros a La. rewrite <- (E a a La La). do 2 f_equal. rewrite !map_map, combine_map_same, map_map. reflexivity. }
  rewrite !D by easy. pose proof (dcov2_nonneg x x eq_refl). pose proof (dcov2_nonneg y y eq_refl).
  rewrite !x_sqrt by (easy || apply dcov2_nonneg; lia). rewrite x_mul, x_sqrt by (apply Rmult_le_pos; apply sqrt_pos). rewrite x_quot.
  destruct (Req _ 0) eqn:Z.
  - apply Req_true in Z. rewrite (dcov2_zero x y) by (easy || lia). apply Rmult_integral in Z.
    replace (sqrt (dcov2 x x) * sqrt (dcov2 y y)) with 0; [rewrite sqrt_0; apply quot_0_0|].
    destruct Z as [-> | ->]; rewrite sqrt_0; ring.
  - apply Req_false in Z. rewrite quot_ok; [reflexivity|].
    intros E0. apply sqrt_eq_0 in E0; [|apply Rmult_le_pos; apply sqrt_pos]. apply Z.
    apply Rmult_integral in E0. destruct E0 as [E0|E0]; apply sqrt_eq_0 in E0; try easy; rewrite E0; ring.
Qed.

(** [dcor] is the distance correlation of the two windows, NaN exactly when one
    of them has distance variance 0. *)
Theorem dcor_real a b w : (0 < w)%nat ->
  exists o, dcor (map Fin a) (map Fin b) w = Ok o /\
  aligned o (bars2 a b) (w - 1) NaN (fun i => if Req (dcov2 (win w a i) (win w a i) * dcov2 (win w b i) (win w b i)) 0 then NaN
                                              else Fin (dist_corr (win w a i) (win w b i))).
Proof.
  intros Hw. unfold dcor. zap. rewrite zip_windows_val by lia. cbn [bind].
  eexists. split; [easy|].
  pose proof (@aligned_zip_windows xr xr NaN (dcor_win w) (map Fin a) (map Fin b) w Hw) as A.
  unfold bars2 in *. rewrite !map_length in A. revert A. apply aligned_ext. intros i Hi.
  rewrite !x_win. apply x_dcor_win; try lia; apply length_win; lia.
Qed.
