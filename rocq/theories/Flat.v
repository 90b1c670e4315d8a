(** * Flat: what a stretch of unchanged prices does (C16, C22). *)

From Coq Require Import Lia.
From Verif Require Import Num Base Spec BaseFacts Tac Distribution DistShape.
Local Unset Implicit Arguments.

(** ** Entropies: the 8-bit counters *)
Section Entropy.
  Context {F : Type} {FO : FOps F}.
  Open Scope F_scope.

  Lemma fmax_same (z : F) : fmax z z = z.
  Proof. unfold fmax. now destruct (fisnan z), (z <? z). Qed.
  Lemma run_repeat (x : F) w m i : (i + m <= w)%nat -> run (repeat x w) m i = repeat x m.
  Proof.
    intros H. unfold run. replace w with (i + (m + (w - i - m)))%nat by lia. rewrite !repeat_app, skipn_app, skipn_all2 by (rewrite repeat_length; lia). rewrite repeat_length, Nat.sub_diag. cbn [skipn app].
    rewrite firstn_app, repeat_length, Nat.sub_diag. cbn [firstn]. rewrite app_nil_r. apply firstn_all2. rewrite repeat_length. lia.
  Qed.
  Lemma flat_match (t x : F) m : (0 < m)%nat -> fisnan (fnan : F) = true -> fabs (x - x) <=? t = true -> run_match t (repeat x m) (repeat x m) = true.
  Proof.
    intros Hm N H. unfold run_match. destruct m as [|m]; [lia|]. cbn [repeat combine map fold_left]. set (z := fabs (x - x)) in *. replace (fmax fnan z) with z by (unfold fmax; now rewrite N).
    enough (G : fold_left fmax (map (fun '(x, y) => fabs (x - y)) (combine (repeat x m) (repeat x m))) z = z) by (rewrite G; exact H).
    clear. subst z. induction m as [|m IH]; cbn [repeat combine map fold_left]; [easy|]. now rewrite fmax_same.
  Qed.
  Lemma trues_all l : (forall b, In b l -> b = true) -> trues l = length l.
  Proof. intros H. unfold trues. induction l as [|b l IH]; [easy|]. cbn. rewrite (H b) by now left. cbn. f_equal. apply IH. intros; apply H; now right. Qed.
  Lemma near_flat (t x : F) w m : (0 < m <= w)%nat -> fisnan (fnan : F) = true -> fabs (x - x) <=? t = true -> near t (repeat x w) m 0 = (w - m + 1)%nat.
  Proof.
    intros Hm N H. unfold near. rewrite repeat_length. rewrite trues_all; [now rewrite map_length, seq_length|]. intros b Hb. apply in_map_iff in Hb as (j & <- & Hj). apply in_seq in Hj. rewrite !run_repeat by lia. now apply flat_match.
  Qed.
  Lemma near_pairs_flat (t x : F) w m : (0 < m <= w)%nat -> fisnan (fnan : F) = true -> fabs (x - x) <=? t = true -> (2 * near_pairs t (repeat x w) m = (w - m + 1) * (w - m))%nat.
  Proof.
    intros Hm N H. unfold near_pairs. rewrite repeat_length. rewrite trues_all; [rewrite map_length, length_upper_pairs; now replace (w - m + 1 - 1)%nat with (w - m)%nat by lia|]. intros b Hb. apply in_map_iff in Hb as ((i & j) & <- & Hj). unfold upper_pairs in Hj. apply in_flat_map in Hj as (i' & Hi' & Hj). apply in_map_iff in Hj as (j' & [= <- <-] & Hj). apply in_seq in Hi', Hj. rewrite !run_repeat by lia. now apply flat_match.
  Qed.

  (** A window of [run_length + 255] unchanged bars overflows the counter of
      [approx_entropy]: the call panics.  (One bar less never does:
      [approx_entropy_small].) *)
  Theorem approx_entropy_flat (data : list F) w rl t i x :
    (0 < unwrap_or rl 2)%nat -> (unwrap_or rl 2 + 255 <= w)%nat -> (w - 1 <= i < length data)%nat -> win w data i = repeat x w ->
    fisnan (fnan : F) = true -> fabs (x - x) <=? t = true ->
    approx_entropy data w rl (Some t) = Panic.
  Proof.
    intros Hr Hw Hi E N H. apply approx_entropy_panic. right. right. split; [lia|]. right. exists t, i, 0%nat, (unwrap_or rl 2). split; [easy|]. split; [easy|]. split; [now left|]. split; [lia|]. rewrite E, near_flat; try easy; lia.
  Qed.
  (** For [sample_entropy] [run_length + 23] unchanged bars are enough: 25 with
      the default run length. *)
  Theorem sample_entropy_flat (data : list F) w rl t i x :
    (0 < unwrap_or rl 2)%nat -> (unwrap_or rl 2 + 23 <= w)%nat -> (w - 1 <= i < length data)%nat -> win w data i = repeat x w ->
    fisnan (fnan : F) = true -> fabs (x - x) <=? t = true ->
    sample_entropy data w rl (Some t) = Panic.
  Proof.
    intros Hr Hw Hi E N H. apply sample_entropy_panic. right. right. split; [lia|]. right. exists t, i, (unwrap_or rl 2). split; [easy|]. split; [easy|]. split; [now left|]. rewrite E. pose proof (near_pairs_flat t x w (unwrap_or rl 2) ltac:(lia) N H). nia.
  Qed.
End Entropy.
