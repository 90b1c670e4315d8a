(** * Tac: the few tactics the shape proofs share *)

From Verif Require Export BaseFacts.
From Coq Require Export ZifyBool ZifyNat.

Ltac len :=
  repeat progress (cbn [length] in *; rewrite ?app_length, ?length_pad, ?map_length, ?length_windows, ?length_scan,
    ?length_zip2, ?length_zip3, ?length_zip4, ?length_zip5, ?length_zip6,
    ?combine_length, ?skipn_length, ?firstn_length, ?seq_length, ?repeat_length,
    ?length_enumerate, ?rev_length in *); cbn [length] in *.

Ltac zap :=
  unfold usub, slice_to, slice_from, slice, rwindows, div_ceil2, bars4, bars3, bars2 in *; cbn [bind] in *;
  repeat (match goal with
          | |- context [Nat.leb ?a ?b] => destruct (Nat.leb_spec a b)
          | |- context [Nat.eqb ?a ?b] => destruct (Nat.eqb_spec a b)
          | |- context [Nat.ltb ?a ?b] => destruct (Nat.ltb_spec a b)
          end; cbn [bind andb orb negb] in *; len; try (exfalso; lia)).

Ltac fin :=
  unfold bars4, bars3, bars2 in *;
  first [ left; split; [lia | reflexivity]
        | right; split; [lia | eexists; split; [reflexivity | len; lia]] ].

(** Use an [outcome] fact about a callee. *)
Ltac call H :=
  let E := fresh "E" in let L := fresh "L" in
  destruct H as [[? E]|[? (? & E & L)]]; rewrite E; cbn [bind]; clear E.

(** ** keeps *)

Create HintDb pfx.
#[global] Hint Resolve prefix_refl prefix_nil prefix_app_l prefix_cons prefix_map prefix_combine
  prefix_zip2 prefix_zip3 prefix_zip4 prefix_zip5 prefix_zip6 prefix_skipn prefix_windows
  prefix_scan prefix_enumerate prefix_filter : pfx.

Ltac pfx := eauto 12 with pfx.

Ltac kstep :=
  lazymatch goal with
  | |- keeps (Ok _) (Ok _) => apply keeps_Ok; solve [pfx]
  | |- keeps Panic _ => intros ? [=]
  | |- keeps (bind (usub (length ?a) 1) _) (bind (usub (length ?b) 1) _) =>
      apply keeps_init; [solve [pfx] | intros ? ? ?]
  | |- keeps (bind ?r _) (bind ?r _) =>
      apply keeps_bind_same; [tauto | intros ? ?]
  | |- keeps (bind (slice_to _ ?k) _) (bind (slice_to _ ?k) _) =>
      apply keeps_bind_same; [intro; apply slice_to_same; solve [pfx] | intros ? ?]
  | |- keeps (bind (idx _ ?k) _) (bind (idx _ ?k) _) =>
      apply keeps_bind_same; [intro; apply idx_same; solve [pfx] | intros ? ?]
  | |- keeps (bind (slice_from _ _) _) (bind (slice_from _ _) _) =>
      apply keeps_bind; [apply keeps_slice_from; solve [pfx] | intros ? ? ? ? ?]
  | |- keeps (bind (rwindows _ _) _) (bind (rwindows _ _) _) =>
      apply keeps_bind; [apply keeps_rwindows; solve [pfx] | intros ? ? ? ? ?]
  | |- keeps (if ?b then _ else _) (if ?b then _ else _) => destruct b eqn:?
  | |- keeps (match ?b with pair _ _ => _ end) (match ?b with pair _ _ => _ end) => destruct b eqn:?
  end.
Ltac ksteps := repeat kstep.
(** A callee whose causality is the fact [H]. *)
Ltac kcall H := apply keeps_bind; [apply H; solve [pfx] | intros ? ? ? ? ?].
