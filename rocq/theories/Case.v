(** * Case: concrete data for the examples beside the theorems.

    An example [T_case := T ...] applies theorem [T] to concrete arguments and proves
    every hypothesis, so the hypotheses can be met together. *)

From Coq Require Import Reals Lra Lia.
From Verif Require Import Spec.
Local Unset Implicit Arguments.

(** The series 1, 2, ..., [n] in any arithmetic. *)
Definition ramp {F} {FO : FOps F} (n : nat) : list F := map fofnat (seq 1 n).
Lemma prefix_ramp {F} {FO : FOps F} a b : prefix (ramp a) (ramp (a + b)).
Proof. exists (map fofnat (seq (1 + a) b)). unfold ramp. now rewrite seq_app, map_app. Qed.

(** Twenty-odd bars of a rising market with a setback every other bar. *)
Local Open Scope R_scope.
Definition closes (k : nat) : R := 10 + INR k + (if Nat.even k then 0 else 3).
Definition highs (k : nat) : R := closes k + 2.
Definition lows (k : nat) : R := closes k - 1.
Definition opens (k : nat) : R := closes k + 1.
Definition volumes (k : nat) : R := 5 + INR k.
Definition quotes (n : nat) : list R := map closes (seq 0 n).

Lemma closes_ge k : 10 <= closes k.
Proof. unfold closes. pose proof (pos_INR k). destruct (Nat.even k); lra. Qed.
Lemma closes_ne k : closes (S k) <> closes k.
Proof. unfold closes. rewrite S_INR. rewrite Nat.even_succ, <- Nat.negb_even. destruct (Nat.even k); cbn; lra. Qed.
Lemma closes_le k n : (k < n)%nat -> closes k <= 13 + INR n.
Proof. intros H. unfold closes. apply lt_INR in H. destruct (Nat.even k); lra. Qed.

(** [met] proves a hypothesis about concrete data. *)
Ltac bar_facts :=
  unfold highs, lows, opens, volumes in *;
  repeat match goal with
  | k : nat |- _ => lazymatch goal with H : 10 <= closes k |- _ => fail | _ => pose proof (closes_ge k); pose proof (pos_INR k) end
  end.
Ltac met :=
  intros; cbn [unwrap_or option_map] in *;
  first [ lia | lra | assumption | discriminate
        | match goal with |- prefix (ramp ?a) (ramp ?b) => exact (prefix_ramp a (b - a)) end
        | match goal with |- ?a = Ok ?o => reflexivity end
        | reflexivity
        | bar_facts; solve [lra | repeat split; lra | intuition lra]
        | cbn; solve [lia | lra | easy | intuition (try lia; try lra; try easy)] ].
