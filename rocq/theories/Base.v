(** * Base: the fragment of Rust's [core]/[alloc]/[itertools] the crate uses.

    The crate /repo/src is a collection of pure functions that take slices and
    return lazy iterators.  The model of a function is the outcome of calling it
    and collecting the returned iterator to the end:
    - [Ok l]  : the call and the iteration finished and produced the items [l];
    - [Panic] : the call or some [next] of the iteration panicked.
    The build profile modelled is the one with [overflow-checks] on (the [dev]
    and [test] profiles): integer underflow/overflow is a panic. *)

From Coq Require Export List Arith ZArith NArith Lia Bool.
Export ListNotations.
Global Set Implicit Arguments.
Global Unset Strict Implicit.
Global Set Contextual Implicit.

(** ** Panics *)

Inductive result (A : Type) : Type :=
| Ok (a : A)
| Panic.
Arguments Ok {A} a.
Arguments Panic {A}.

Definition bind {A B} (m : result A) (k : A -> result B) : result B :=
  match m with Ok a => k a | Panic => Panic end.

Notation "'let*' x := m 'in' k" := (bind m (fun x => k))
  (at level 200, x name, m at level 100, k at level 200, right associativity).
Notation "'let*' ' p := m 'in' k" :=
  (bind m (fun x => match x with p => k end))
  (at level 200, p strict pattern, m at level 100, k at level 200,
   right associativity).
Notation "'check' b 'in' k" := (if b then k else Panic)
  (at level 200, b at level 100, k at level 200, right associativity).

(** [rmap f l]: a closure that may panic, run over all the items. *)
Fixpoint rmap {A B} (f : A -> result B) (l : list A) : result (list B) :=
  match l with
  | [] => Ok []
  | a :: l' => let* b := f a in let* r := rmap f l' in Ok (b :: r)
  end.

(** ** Integers: [usize] arithmetic with overflow checks *)

Definition two64 : N := (2 ^ 64)%N.

(** [a - b] on [usize]. *)
Definition usub (a b : nat) : result nat := if b <=? a then Ok (a - b) else Panic.

(** [a * b] and [a + b] on [usize]; used where the product or sum of
    caller-controlled quantities can leave the 64-bit range. *)
Definition umul (a b : N) : result N :=
  if (a * b <? two64)%N then Ok (a * b)%N else Panic.
Definition uadd (a b : N) : result N :=
  if (a + b <? two64)%N then Ok (a + b)%N else Panic.
Definition usubN (a b : N) : result N :=
  if (b <=? a)%N then Ok (a - b)%N else Panic.

(** [usize::div_ceil(2)]. *)
Definition div_ceil2 (n : nat) : nat := (n + 1) / 2.

(** ** Slices *)

(** [l[i]] *)
Definition idx {A} (l : list A) (i : nat) : result A :=
  match nth_error l i with Some a => Ok a | None => Panic end.
(** [&l[..k]] *)
Definition slice_to {A} (l : list A) (k : nat) : result (list A) :=
  if k <=? length l then Ok (firstn k l) else Panic.
(** [&l[k..]] *)
Definition slice_from {A} (l : list A) (k : nat) : result (list A) :=
  if k <=? length l then Ok (skipn k l) else Panic.
(** [&l[a..b]] *)
Definition slice {A} (l : list A) (a b : nat) : result (list A) :=
  if (a <=? b) && (b <=? length l) then Ok (firstn (b - a) (skipn a l)) else Panic.

(** [l.windows(w)] for [w > 0]: the consecutive sub-slices of length [w],
    oldest first; none when [w > l.len()]. *)
Definition windows {A} (w : nat) (l : list A) : list (list A) :=
  map (fun i => firstn w (skipn i l)) (seq 0 (length l + 1 - w)).
(** [l.windows(w)]: panics for [w = 0]. *)
Definition rwindows {A} (w : nat) (l : list A) : result (list (list A)) :=
  if w =? 0 then Panic else Ok (windows w l).

(** ** Iterator adaptors *)

(** [iter.scan(s, f)] for a closure that always returns [Some]. *)
Fixpoint scan {S A B} (f : S -> A -> S * B) (s : S) (l : list A) : list B :=
  match l with
  | [] => []
  | a :: l' => let (s', b) := f s a in b :: scan f s' l'
  end.

(** [scan] whose closure may panic. *)
Fixpoint rscan {S A B} (f : S -> A -> result (S * B)) (s : S) (l : list A)
  : result (list B) :=
  match l with
  | [] => Ok []
  | a :: l' =>
      let* '(s', b) := f s a in
      let* r := rscan f s' l' in
      Ok (b :: r)
  end.

(** [izip!] of two to seven iterators: stops at the shortest. *)
Definition zip2 {A B} (a : list A) (b : list B) : list (A * B) := combine a b.
Definition zip3 {A B C} (a : list A) (b : list B) (c : list C)
  : list (A * B * C) := combine (combine a b) c.
Definition zip4 {A B C D} (a : list A) (b : list B) (c : list C) (d : list D)
  : list (A * B * C * D) := combine (zip3 a b c) d.
Definition zip5 {A B C D E} (a : list A) (b : list B) (c : list C) (d : list D)
  (e : list E) : list (A * B * C * D * E) := combine (zip4 a b c d) e.
Definition zip6 {A B C D E G} (a : list A) (b : list B) (c : list C) (d : list D)
  (e : list E) (g : list G) : list (A * B * C * D * E * G) :=
  combine (zip5 a b c d e) g.
Definition zip7 {A B C D E G H} (a : list A) (b : list B) (c : list C) (d : list D)
  (e : list E) (g : list G) (h : list H) : list (A * B * C * D * E * G * H) :=
  combine (zip6 a b c d e g) h.

(** [iter::repeat(x).take(k)] *)
Definition pad {A} (k : nat) (x : A) : list A := repeat x k.

(** [option.unwrap_or(d)] *)
Definition unwrap_or {A} (o : option A) (d : A) : A :=
  match o with Some a => a | None => d end.

(** [iter.enumerate()] *)
Definition enumerate {A} (l : list A) : list (nat * A) := combine (seq 0 (length l)) l.

(** [list update]: [l[i] = x] for an index in range. *)
Fixpoint upd {A} (l : list A) (i : nat) (x : A) : list A :=
  match l, i with
  | [], _ => []
  | _ :: l', O => x :: l'
  | a :: l', S i' => a :: upd l' i' x
  end.
