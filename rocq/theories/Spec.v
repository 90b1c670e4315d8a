(** * Spec: the small vocabulary the theorems are stated in.

    Nothing here mentions a model function; someone who wants to know what the
    theorems say needs this file and the statements only. *)

From Verif Require Export Num.

(** ** Outcomes *)

(** [outcome r bad n]: the call [r] panics exactly when [bad] holds, and when it
    returns, it yields [n] items. *)
Definition outcome {A} (r : result (list A)) (bad : Prop) (n : nat) : Prop :=
  (bad /\ r = Panic) \/ (~ bad /\ exists o, r = Ok o /\ length o = n).

(** ** Alignment *)

(** [aligned o n k na f]: the output [o] for [n] input bars consists of [k]
    warm-up items [na] followed by the value [f i] for each bar [i] from [k] on.
    (When there are fewer than [k] bars the warm-up items alone come out.) *)
Definition aligned {B} (o : list B) (n k : nat) (na : B) (f : nat -> B) : Prop :=
  length o = Nat.max k n /\
  (forall i, i < k -> nth_error o i = Some na) /\
  (forall i, k <= i < n -> nth_error o i = Some (f i)).

(** The [w] consecutive items of [l] that end at position [i] (oldest first). *)
Definition win {A} (w : nat) (l : list A) (i : nat) : list A :=
  firstn w (skipn (i + 1 - w) l).

(** ** Causality *)

Definition prefix {A} (a b : list A) : Prop := exists c, b = a ++ c.

(** [keeps r1 r2]: whenever [r1] returns, [r2] returns too and what [r1]
    printed is the beginning of what [r2] prints. *)
Definition keeps {A} (r1 r2 : result (list A)) : Prop :=
  forall o1, r1 = Ok o1 -> exists o2, r2 = Ok o2 /\ prefix o1 o2.

(** ** Warm-up *)

(** The first [k] items of [o] (or all of them, if fewer) are [na]. *)
Definition warm {B} (o : list B) (k : nat) (na : B) : Prop :=
  forall i, i < k -> i < length o -> nth_error o i = Some na.

(** ** Common number of bars of several series *)
Definition bars2 {A B} (a : list A) (b : list B) : nat := Nat.min (length a) (length b).
Definition bars3 {A B C} (a : list A) (b : list B) (c : list C) : nat :=
  Nat.min (bars2 a b) (length c).
Definition bars4 {A B C D} (a : list A) (b : list B) (c : list C) (d : list D) : nat :=
  Nat.min (bars3 a b c) (length d).

(** ** Recurrences *)

(** [follows o l k na init g]: [o] has one item per item of [l]; the first [k]
    are [na], item [k] is [init], and from then on each item is computed by [g]
    from the item before it and the new item of [l]. *)
Definition follows {A B} (o : list B) (l : list A) (k : nat) (na init : B)
  (g : B -> A -> B) : Prop :=
  length o = length l /\
  (forall i, i < k -> nth_error o i = Some na) /\
  nth_error o k = Some init /\
  (forall i y x, k <= i -> nth_error o i = Some y -> nth_error l (S i) = Some x ->
                 nth_error o (S i) = Some (g y x)).

(** The items at positions [a], [a+1], ..., [b-1]. *)
Definition range {A} (a b : nat) (l : list A) : list A := firstn (b - a) (skipn a l).
