(** * RSpec: textbook definitions over the reals used in theorem statements.

    None of these mentions the model. *)

From Coq Require Import Reals List.
Import ListNotations.
Local Open Scope R_scope.

Definition Rsum (l : list R) : R := fold_right Rplus 0 l.

(** Arithmetic mean. *)
Definition mean (l : list R) : R := Rsum l / INR (length l).

(** Weighted sum and weighted mean: [w] and [l] are paired in order. *)
Definition wsum (w l : list R) : R := Rsum (map (fun p => fst p * snd p) (combine w l)).
Definition wmean (w l : list R) : R := wsum w l / Rsum w.

(** Population variance. *)
Definition var (l : list R) : R := mean (map (fun x => (x - mean l) ^ 2) l).

(** [x] lies between the least and the greatest item of [l]. *)
Definition within (l : list R) (x : R) : Prop :=
  (exists a, In a l /\ a <= x) /\ (exists b, In b l /\ x <= b).

(** [m] is the greatest (least) item of [l]. *)
Definition is_max (l : list R) (m : R) : Prop := In m l /\ forall x, In x l -> x <= m.
Definition is_min (l : list R) (m : R) : Prop := In m l /\ forall x, In x l -> m <= x.

(** Exponential smoothing of [xs] from [seed] with weight [a] on the new item. *)
Definition ema (a seed : R) (xs : list R) : R :=
  fold_left (fun s x => x * a + s * (1 - a)) xs seed.

(** Fibonacci numbers, [fib 1 = fib 2 = 1]. *)
Fixpoint fib (n : nat) : nat :=
  match n with
  | O => 0
  | S m => match m with O => 1 | S p => fib m + fib p end
  end.

(** The EWMA with window [w] of a series [f] whose first defined bar is [k]:
    seeded with the mean of the first [w] values, then smoothed with weight
    [2/(w+1)]; this is its value at bar [i]. *)
Definition ewma_from (w k : nat) (f : nat -> R) (i : nat) : R :=
  ema (2 / (INR w + 1)) (mean (map f (seq k w))) (map f (seq (k + w) (i + 1 - (k + w)))).

(** Squared error of the line [m * k + b] on the points [(1, y1), (2, y2), ...]. *)
Definition sq_err (m b : R) (ys : list R) : R :=
  Rsum (map (fun p => (snd p - (m * INR (fst p) + b)) ^ 2) (combine (seq 1 (length ys)) ys)).
