(** * Resume: error measures and the traded average over two stretches of time (C93).

    The error over a long history is the mean of the error over its first part and the
    error over the rest, weighted by the number of bars: whoever keeps the last value and
    the number of bars can go on from there, and what happened [p] bars ago weighs
    [p / (p + k)] after [k] more bars. *)

From Coq Require Import Reals Lra Lia List Sorted.
From Verif Require Import Base Num XReal Spec RSpec Bars BaseFacts RegReal Regression Volume VolumeReal Forget.
Import ListNotations.
Local Unset Implicit Arguments.
Local Open Scope R_scope.

(** ** Specification *)
(** [x] over [p] bars and [y] over [k] bars. *)
Definition pooled (p k : nat) (x y : R) : R := (INR p * x + INR k * y) / INR (p + k).
(** Whenever [fn] is run on the bars of [a] and [b] followed by those of [a'] and [b'], it
    prints for bar [i] of the second part the pool of its last value on the first part
    alone and its value for bar [i] on the second part alone.  [as_mean] turns a printed
    value into the mean it stands for. *)
Definition resumes_if (ok : R -> R -> Prop) (as_mean : R -> R) (fn : list R -> list R -> list xr) : Prop :=
  forall a b a' b' i, a <> [] -> length a = length b -> (i < bars2 a' b')%nat ->
  (forall x y, In (x, y) (combine a b) \/ In (x, y) (combine a' b') -> ok x y) ->
  exists x y z, nth_error (fn a b) (length a - 1) = Some (Fin x) /\ nth_error (fn a' b') i = Some (Fin y) /\
  nth_error (fn (a ++ a') (b ++ b')) (length a + i) = Some (Fin z) /\ as_mean z = pooled (length a) (i + 1) (as_mean x) (as_mean y).

(** ** Proofs *)
Lemma seen_all (a b : list R) : a <> [] -> length a = length b -> seen a b (length a - 1) = combine a b.
Proof.
  intros Ha L. unfold seen. assert (length a <> 0%nat) by (destruct a; [easy|cbn; lia]).
  apply firstn_all2. rewrite combine_length. lia.
Qed.
Lemma combine_app {A B} (a : list A) (b : list B) a' b' : length a = length b -> combine (a ++ a') (b ++ b') = combine a b ++ combine a' b'.
Proof. revert b. induction a as [|x a IH]; intros [|y b] L; cbn in *; try lia; [easy|]. rewrite IH by lia. reflexivity. Qed.
Lemma seen_app (a b a' b' : list R) i : length a = length b -> seen (a ++ a') (b ++ b') (length a + i) = combine a b ++ seen a' b' i.
Proof.
  intros L. unfold seen. rewrite combine_app by easy. rewrite firstn_app. assert (C : length (combine a b) = length a) by (rewrite combine_length; lia). rewrite C.
  rewrite firstn_all2 by lia. do 2 f_equal. lia.
Qed.
Lemma mean_pool l m : l <> [] -> m <> [] -> mean (l ++ m) = pooled (length l) (length m) (mean l) (mean m).
Proof.
  intros Hl Hm. unfold mean, pooled. rewrite Rsum_app, app_length, plus_INR.
  assert (0 < INR (length l)) by (apply lt_0_INR; destruct l; [easy|cbn; lia]). assert (0 < INR (length m)) by (apply lt_0_INR; destruct m; [easy|cbn; lia]). field. lra.
Qed.
Lemma resume_by (ok : R -> R -> Prop) as_mean fn (f : R * R -> R) (g : R -> R) :
  (forall a b i, (i < Nat.min (length a) (length b))%nat -> (forall p, In p (seen a b i) -> ok (fst p) (snd p)) -> nth_error (fn a b) i = Some (Fin (g (mean (map f (seen a b i)))))) ->
  (exists k, forall s, s <> [] -> as_mean (g (mean (map f s))) = k * mean (map f s)) ->
  resumes_if ok as_mean fn.
Proof.
  intros H G a b a' b' i Ha L Hi OK. unfold bars2 in Hi.
  assert (N : length a <> 0%nat) by (destruct a; [easy|cbn; lia]).
  assert (Ls : length (seen a' b' i) = (i + 1)%nat) by (unfold seen; rewrite firstn_length, combine_length; lia).
  assert (Lc : length (combine a b) = length a) by (rewrite combine_length; lia).
  assert (NS : seen a' b' i <> []) by (intros Z; rewrite Z in Ls; cbn in Ls; lia). assert (NC : combine a b <> []) by (intros Z; rewrite Z in Lc; cbn in Lc; lia).
  assert (IS : forall p, In p (seen a' b' i) -> In p (combine a' b')) by (intros p Hp; unfold seen in Hp; rewrite <- (firstn_skipn (i + 1) (combine a' b')); apply in_or_app; now left).
  exists (g (mean (map f (combine a b)))), (g (mean (map f (seen a' b' i)))), (g (mean (map f (combine a b ++ seen a' b' i)))).
  split; [|split; [|split]].
  - rewrite <- (seen_all a b Ha L). apply H; [lia|]. rewrite seen_all by easy. intros [x y] Hp. apply OK. now left.
  - apply H; [easy|]. intros [x y] Hp. apply OK. right. now apply IS.
  - rewrite <- seen_app by easy. apply H; [rewrite !app_length; lia|]. rewrite seen_app by easy. intros [x y] Hp. apply OK. apply in_app_or in Hp. destruct Hp as [Hp|Hp]; [now left|right; now apply IS].
  - destruct G as (k & K). rewrite !K by (try easy; intros Z; apply app_eq_nil in Z; tauto).
    rewrite map_app, mean_pool by (intros Z; apply map_eq_nil in Z; easy). rewrite !map_length, Lc, Ls. unfold pooled.
    assert (0 < INR (length a + (i + 1))) by (apply lt_0_INR; lia). field. lra.
Qed.
Definition any (_ _ : R) : Prop := True.
Theorem mse_resume : resumes_if any (fun x => x) (fun a b => mse (map Fin a) (map Fin b)).
Proof.
  apply (resume_by _ _ _ sqe (fun x => x)); [intros; now apply mse_real|]. exists 1. intros; lra.
Qed.
Theorem mae_resume : resumes_if any (fun x => x) (fun a b => mae (map Fin a) (map Fin b)).
Proof.
  apply (resume_by _ _ _ abe (fun x => x)); [intros; now apply mae_real|]. exists 1. intros; lra.
Qed.
Theorem smape_resume : resumes_if any (fun x => x) (fun a b => smape (map Fin a) (map Fin b)).
Proof.
  apply (resume_by _ _ _ sym_err (fun x => 100 * x)); [intros; now apply smape_real|]. exists 100. intros; lra.
Qed.
(** Percentages of the observed value, as long as no observed value is 0. *)
Theorem mape_resume : resumes_if (fun x _ => x <> 0) (fun x => x) (fun a b => mape (map Fin a) (map Fin b)).
Proof.
  apply (resume_by _ _ _ (fun p => Rabs ((fst p - snd p) / fst p)) (fun x => 100 * x)); [intros; now apply mape_real|]. exists 100. intros; lra.
Qed.
(** The square of the root mean square error. *)
Theorem rmse_resume : resumes_if any (fun x => x ^ 2) (fun a b => rmse (map Fin a) (map Fin b)).
Proof.
  apply (resume_by _ _ _ sqe sqrt); [intros; now apply rmse_real|].
  assert (Q : forall s, s <> [] -> sqrt (mean (map sqe s)) ^ 2 = 1 * mean (map sqe s)).
  { intros s Hs. rewrite pow2_sqrt, Rmult_1_l; [easy|]. unfold mean. apply Rdiv_nonneg; [|apply pos_INR]. apply Rsum_nonneg. intros x Hx. apply in_map_iff in Hx. destruct Hx as (p & <- & _). apply pow2_ge_0. }
  now exists 1.
Qed.
(** An error made long ago is not forgotten but diluted: two histories of [p] bars that
    disagree by [d] disagree by [p / (p + k) * d] after the same [k] bars. *)
Theorem pooled_dilutes p k x x' y : (0 < p)%nat -> pooled p k x y - pooled p k x' y = INR p / INR (p + k) * (x - x').
Proof. intros Hp. unfold pooled. assert (0 < INR (p + k)) by (apply lt_0_INR; lia). field. lra. Qed.

(** ** The volume weighted average price of one session *)
Lemma one_session n i : (i < n)%nat -> session [n] i = 0%nat.
Proof. intros Hi. unfold session. cbn [filter]. now rewrite (proj2 (Nat.leb_gt n i)) by easy. Qed.
Lemma sum_bars_split f p i : sum_bars f 0 (p + i) = Rsum (map f (seq 0 p)) + sum_bars (late p f) 0 i.
Proof.
  unfold sum_bars, late. rewrite !Nat.sub_0_r. replace (p + i + 1)%nat with (p + (i + 1))%nat by lia. rewrite seq_app, map_app, Rsum_app. f_equal. f_equal. cbn [plus].
  generalize (i + 1)%nat as k. intros k. rewrite <- (Nat.add_0_r p) at 1. generalize 0%nat as z. induction k as [|k IH]; intros z; [reflexivity|]. cbn [seq map]. rewrite <- IH. do 3 f_equal. lia.
Qed.
Lemma sum_bars_pos f i : (forall k, (k <= i)%nat -> 0 < f k) -> 0 < sum_bars f 0 i.
Proof.
  intros H. unfold sum_bars. rewrite Nat.sub_0_r. induction i as [|i IH].
  - cbn [seq map plus]. unfold Rsum. cbn [fold_right fold_left]. specialize (H 0%nat ltac:(lia)). lra.
  - replace (S i + 1)%nat with ((i + 1) + 1)%nat by lia. rewrite seq_app, map_app, Rsum_app. cbn [seq map]. assert (0 < Rsum (map f (seq 0 (i + 1)))) by (apply IH; intros; apply H; lia).
    rewrite Rsum_cons, Rsum_nil. specialize (H (0 + (i + 1))%nat ltac:(lia)). lra.
Qed.
Theorem vwap_resume h l c v n p i : (0 < p)%nat -> (p + i < n)%nat -> (forall k, (k < n)%nat -> 0 < v k) ->
  exists o o1 o2 x y z,
  vwap (xseries h n) (xseries l n) (xseries c n) (xseries v n) None = Ok o /\ vwap (xseries h p) (xseries l p) (xseries c p) (xseries v p) None = Ok o1 /\
  vwap (xseries (late p h) (n - p)) (xseries (late p l) (n - p)) (xseries (late p c) (n - p)) (xseries (late p v) (n - p)) None = Ok o2 /\
  nth_error o1 (p - 1) = Some (Fin x) /\ nth_error o2 i = Some (Fin y) /\ nth_error o (p + i) = Some (Fin z) /\
  let old := sum_bars v 0 (p - 1) in let new := sum_bars v p (p + i) in z = (old * x + new * y) / (old + new).
Proof.
  intros Hp Hi Hv. assert (SS : forall k, StronglySorted lt (unwrap_or (@None (list nat)) [k])) by (intros k; cbn; repeat constructor).
  destruct (vwap_real h l c v n None) as (o & E & A); [discriminate|apply SS|intros j Hj; cbn [unwrap_or]; rewrite one_session by easy; apply Rgt_not_eq, sum_bars_pos; intros; apply Hv; lia|].
  destruct (vwap_real h l c v p None) as (o1 & E1 & A1); [discriminate|apply SS|intros j Hj; cbn [unwrap_or]; rewrite one_session by easy; apply Rgt_not_eq, sum_bars_pos; intros; apply Hv; lia|].
  destruct (vwap_real (late p h) (late p l) (late p c) (late p v) (n - p) None) as (o2 & E2 & A2); [discriminate|apply SS|intros j Hj; cbn [unwrap_or]; rewrite one_session by easy; apply Rgt_not_eq, sum_bars_pos; intros; apply Hv; lia|].
  exists o, o1, o2. eexists _, _, _. split; [exact E|]. split; [exact E1|]. split; [exact E2|].
  split; [apply (aligned_at _ _ _ _ _ _ A1); lia|]. split; [apply (aligned_at _ _ _ _ _ _ A2); lia|]. split; [apply (aligned_at _ _ _ _ _ _ A); lia|].
  cbn [unwrap_or]. rewrite !one_session by lia. cbv zeta. set (t := fun k => typical_price h l c k * v k).
  change (fun k => typical_price (late p h) (late p l) (late p c) k * late p v k) with (late p t).
  assert (O : forall f, Rsum (map f (seq 0 p)) = sum_bars f 0 (p - 1)) by (intros f; unfold sum_bars; do 3 f_equal; lia).
  assert (W : sum_bars v p (p + i) = sum_bars (late p v) 0 i).
  { unfold sum_bars, late. rewrite Nat.sub_0_r. replace (p + i + 1 - p)%nat with (i + 1)%nat by lia. f_equal. generalize (i + 1)%nat as k. intros k. rewrite <- (Nat.add_0_r p) at 1. generalize 0%nat as z.
    induction k as [|k IH]; intros z; [reflexivity|]. cbn [seq map]. rewrite <- IH. do 3 f_equal. lia. }
  rewrite W, !sum_bars_split, !O. assert (0 < sum_bars v 0 (p - 1)) by (apply sum_bars_pos; intros; apply Hv; lia). assert (0 < sum_bars (late p v) 0 i) by (apply sum_bars_pos; intros; apply Hv; lia). field. lra.
Qed.
