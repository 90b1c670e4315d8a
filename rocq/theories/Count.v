(** * Counting the items that satisfy a test. *)

From Coq Require Import Permutation.
From Verif Require Export Select.
Local Unset Implicit Arguments.

Definition count {A} (p : A -> bool) (l : list A) : nat := length (filter p l).
Lemma count_perm {A} (p : A -> bool) l l' : Permutation l l' -> count p l = count p l'.
Proof.
  unfold count. induction 1; cbn; try easy.
  - destruct (p x); cbn; congruence.
  - destruct (p x), (p y); reflexivity.
  - congruence.
Qed.
Lemma count_app {A} (p : A -> bool) l l' : count p (l ++ l') = (count p l + count p l').
Proof. unfold count. now rewrite filter_app, app_length. Qed.
Lemma count_le {A} (p : A -> bool) l : count p l <= length l.
Proof. unfold count. induction l; cbn; [easy|]. destruct (p a); cbn; lia. Qed.
Lemma count_none {A} (p : A -> bool) l : (forall x, In x l -> p x = false) -> count p l = 0.
Proof.
  unfold count. induction l as [|a l IH]; intros H; [easy|]. cbn. rewrite (H a) by now left.
  apply IH. intros; apply H; now right.
Qed.
Lemma count_all {A} (p : A -> bool) l : (forall x, In x l -> p x = true) -> count p l = length l.
Proof.
  unfold count. induction l as [|a l IH]; intros H; [easy|]. cbn. rewrite (H a) by now left.
  cbn. f_equal. apply IH. intros; apply H; now right.
Qed.
Lemma count_pos {A} (p : A -> bool) l x : In x l -> p x = true -> 0 < count p l.
Proof.
  intros Hx Px. unfold count. assert (In x (filter p l)) by now apply filter_In.
  destruct (filter p l); [easy|cbn; lia].
Qed.
Lemma count_threshold {A} (p : A -> bool) l k : k <= length l ->
  (forall q x, q < k -> nth_error l q = Some x -> p x = true) ->
  (forall q x, k <= q -> nth_error l q = Some x -> p x = false) -> count p l = k.
Proof.
  intros Hk H1 H2. rewrite <- (firstn_skipn k l), count_app, count_all, count_none.
  - rewrite firstn_length. lia.
  - intros x Hx. apply In_nth_error in Hx as [j Hj]. rewrite nth_error_skipn in Hj. apply (H2 (k + j)); [lia|easy].
  - intros x Hx. apply In_nth_error in Hx as [j Hj].
    assert (j < length (firstn k l)) by (apply nth_error_Some; congruence). rewrite firstn_length in H.
    rewrite nth_error_firstn in Hj by lia. apply (H1 j); [lia|easy].
Qed.

