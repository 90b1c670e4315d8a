(** * The selection routine: termination, no panic, permutation, order statistic. *)

From Coq Require Import Permutation.
From Verif Require Export DistShape.
Local Unset Implicit Arguments.

Lemma nth_error_upd {A} (l : list A) i x p :
  i < length l -> nth_error (upd l i x) p = if p =? i then Some x else nth_error l p.
Proof.
  revert i p. induction l as [|a l IH]; intros [|i] [|p] H; cbn in *; try lia; try easy.
  apply IH. lia.
Qed.

(** Exchange of two positions. *)
Definition tau (i j p : nat) : nat := if p =? j then i else if p =? i then j else p.
Lemma tau_inj i j p q : tau i j p = tau i j q -> p = q.
Proof. unfold tau. destruct (Nat.eqb_spec p j), (Nat.eqb_spec p i), (Nat.eqb_spec q j), (Nat.eqb_spec q i); lia. Qed.

Section Select.
  Context {T : Type} (ltb : T -> T -> bool).
  Implicit Types (l d : list T).

  Lemma swap_spec l i j : i < length l -> j < length l ->
    exists l', swap l i j = Ok l' /\ length l' = length l /\
      forall p, nth_error l' p = nth_error l (tau i j p).
  Proof.
    intros Hi Hj. unfold swap, idx.
    destruct (@nth_error_is_Some T l i Hi) as [a Ea], (@nth_error_is_Some T l j Hj) as [b Eb].
    rewrite Ea. cbn [bind]. rewrite Eb. cbn [bind]. eexists. split; [reflexivity|].
    split; [now rewrite !length_upd|]. intros p. rewrite nth_error_upd by now rewrite length_upd.
    rewrite nth_error_upd by easy. unfold tau.
    destruct (Nat.eqb_spec p j); [now subst|]. destruct (Nat.eqb_spec p i); [now subst|easy].
  Qed.

  (** [shuffled lo hi d d']: [d'] is [d] with the positions [lo..hi] rearranged. *)
  Definition shuffled (lo hi : nat) d d' : Prop :=
    length d' = length d /\
    exists f, (forall p q, f p = f q -> p = q) /\
      (forall p, lo <= p <= hi -> lo <= f p <= hi) /\
      (forall p, ~ lo <= p <= hi -> f p = p) /\
      forall p, nth_error d' p = nth_error d (f p).

  Lemma shuffled_refl lo hi d : shuffled lo hi d d.
  Proof. split; [easy|]. exists (fun p => p). repeat split; try easy; lia. Qed.
  Lemma shuffled_trans lo hi a b c : shuffled lo hi a b -> shuffled lo hi b c -> shuffled lo hi a c.
  Proof.
    intros [L1 (f & I1 & R1 & S1 & N1)] [L2 (g & I2 & R2 & S2 & N2)].
    split; [congruence|]. exists (fun p => f (g p)). split; [|split; [|split]].
    - intros p q E. apply I2, I1, E.
    - intros p Hp. apply R1, R2, Hp.
    - intros p Hp. rewrite (S2 p Hp). apply S1, Hp.
    - intros p. rewrite N2, N1. reflexivity.
  Qed.
  Lemma shuffled_widen lo hi lo' hi' d d' : lo' <= lo -> hi <= hi' ->
    shuffled lo hi d d' -> shuffled lo' hi' d d'.
  Proof.
    intros H1 H2 [L (f & I & R & S & N)]. split; [easy|]. exists f. split; [easy|split; [|split; [|easy]]].
    - intros p Hp. destruct (le_lt_dec lo p), (le_lt_dec p hi).
      + specialize (R p). lia.
      + rewrite S by lia. lia.
      + rewrite S by lia. lia.
      + rewrite S by lia. lia.
    - intros p Hp. apply S. lia.
  Qed.
  Lemma shuffled_perm lo hi d d' : shuffled lo hi d d' -> Permutation d d'.
  Proof.
    intros [L (f & I & R & S & N)]. apply Permutation_nth_error. split; [easy|]. exists f. split; [|easy].
    intros p q. apply I.
  Qed.
  Lemma shuffled_swap lo hi d i j : lo <= i <= hi -> lo <= j <= hi -> hi < length d ->
    exists d', swap d i j = Ok d' /\ shuffled lo hi d d' /\ forall p, nth_error d' p = nth_error d (tau i j p).
  Proof.
    intros Hi Hj Hl. destruct (swap_spec d i j) as (d' & E & L & N); [lia|lia|].
    exists d'. split; [easy|split; [|easy]]. split; [easy|]. exists (tau i j).
    split; [apply tau_inj|split; [|split; [|easy]]]; intros p Hp; unfold tau;
      destruct (Nat.eqb_spec p j), (Nat.eqb_spec p i); lia.
  Qed.

  Lemma lomuto_spec pivot lo hi n : forall j i d,
    lo <= i -> i <= j -> j + n = hi -> hi < length d ->
    (forall p x, lo <= p < i -> nth_error d p = Some x -> ltb x pivot = true) ->
    (forall p x, i <= p < j -> nth_error d p = Some x -> ltb x pivot = false) ->
    exists d' i', lomuto ltb pivot (seq j n) d i = Ok (d', i') /\
      lo <= i' <= hi /\ shuffled lo hi d d' /\ nth_error d' hi = nth_error d hi /\
      (forall p x, lo <= p < i' -> nth_error d' p = Some x -> ltb x pivot = true) /\
      (forall p x, i' <= p < hi -> nth_error d' p = Some x -> ltb x pivot = false).
  Proof.
    induction n as [|n IH]; intros j i d Hi Hij Hj Hl Hlt Hge.
    - cbn. exists d, i. replace hi with j in * by lia.
      split; [easy|split; [lia|split; [apply shuffled_refl|split; [easy|split; easy]]]].
    - cbn [seq lomuto]. unfold idx. destruct (@nth_error_is_Some T d j ltac:(lia)) as [x Ex].
      rewrite Ex. cbn [bind]. destruct (ltb x pivot) eqn:C.
      + destruct (shuffled_swap lo hi d i j) as (d1 & E & Sh1 & N); [lia|lia|lia|]. rewrite E. cbn [bind].
        destruct (IH (S j) (i + 1) d1) as (d' & i' & E' & R' & S' & H' & L' & G'); try lia.
        * rewrite (proj1 Sh1). lia.
        * intros p y Hp. rewrite N. unfold tau.
          destruct (Nat.eqb_spec p j); [|destruct (Nat.eqb_spec p i)]; intros Ey.
          -- assert (i = j) as Eij by lia. rewrite Eij, Ex in Ey. now injection Ey as <-.
          -- rewrite Ex in Ey. now injection Ey as <-.
          -- apply (Hlt p); [lia|easy].
        * intros p y Hp. rewrite N. unfold tau.
          destruct (Nat.eqb_spec p j); [|destruct (Nat.eqb_spec p i)]; intros Ey; try lia.
          -- apply (Hge i); [lia|easy].
          -- apply (Hge p); [lia|easy].
        * exists d', i'. split; [easy|split; [easy|split; [|split; [|easy]]]].
          -- now apply shuffled_trans with d1.
          -- rewrite H', N. unfold tau. destruct (Nat.eqb_spec hi j), (Nat.eqb_spec hi i); try lia. easy.
      + apply (IH (S j) i d); try easy; try lia.
        intros p y Hp Ey. destruct (Nat.eq_dec p j) as [->|]; [|apply (Hge p); [lia|easy]].
        rewrite Ex in Ey. now injection Ey as <-.
  Qed.

  (** One round of the loop. *)
  Lemma partition_spec d lo hi : lo < hi -> hi < length d ->
    exists d2 i pv, (let* pivot := idx d hi in
       let* '(data1, i) := lomuto ltb pivot (seq lo (hi - lo)) d lo in
       let* data2 := swap data1 i hi in Ok (data2, i)) = Ok (d2, i) /\
    lo <= i <= hi /\ shuffled lo hi d d2 /\ nth_error d2 i = Some pv /\
    (forall p x, lo <= p < i -> nth_error d2 p = Some x -> ltb x pv = true) /\
    (forall p x, i < p <= hi -> nth_error d2 p = Some x -> ltb x pv = false).
  Proof.
    intros H1 H2. destruct (@nth_error_is_Some T d hi H2) as [pv Ep]. unfold idx. rewrite Ep. cbn [bind].
    destruct (lomuto_spec pv lo hi (hi - lo) lo lo d) as (d1 & i & E & Ri & S & H & L & G); try lia.
    rewrite E. cbn [bind].
    destruct (shuffled_swap lo hi d1 i hi) as (d2 & E2 & S2 & N2); [lia|lia|rewrite (proj1 S); lia|].
    rewrite E2. cbn [bind]. exists d2, i, pv. split; [easy|split; [easy|split; [|split; [|split]]]].
    - now apply shuffled_trans with d1.
    - rewrite N2. unfold tau. destruct (Nat.eqb_spec i hi); [subst; congruence|].
      destruct (Nat.eqb_spec i i); [|lia]. congruence.
    - intros p x Hp. rewrite N2. unfold tau. destruct (Nat.eqb_spec p hi), (Nat.eqb_spec p i); try lia. now apply L.
    - intros p x Hp. rewrite N2. unfold tau. destruct (Nat.eqb_spec p hi), (Nat.eqb_spec p i); try lia.
      + intros Ex. subst. destruct (Nat.eq_dec i hi) as [->|]; [lia|]. now apply (G i); [lia|].
      + intros Ex. now apply (G p); [lia|].
  Qed.

  (** [split_at d m]: nothing from position [m] on is smaller than anything
      before it. *)
  Definition split_at d (m : nat) : Prop :=
    forall p q x y, p < m <= q -> nth_error d p = Some x -> nth_error d q = Some y -> ltb y x = false.

  Lemma split_shuffle_out d d' m lo hi : shuffled lo hi d d' -> m <= lo \/ hi < m -> split_at d m -> split_at d' m.
  Proof.
    intros [L (f & I & R & S & N)] H Sp p q x y Hpq. rewrite !N. apply Sp.
    destruct (le_lt_dec lo p), (le_lt_dec p hi), (le_lt_dec lo q), (le_lt_dec q hi);
      try (rewrite (S p) by lia); try (rewrite (S q) by lia); try pose proof (R p); try pose proof (R q); lia.
  Qed.

  Section Order.
  (** [ltb] is a strict weak order on the items of [d0]. *)
  Variable P : T -> Prop.
  Hypothesis asym : forall x y, P x -> P y -> ltb x y = true -> ltb y x = false.
  Hypothesis negtrans : forall x y z, P x -> P y -> P z -> ltb y x = false -> ltb z y = false -> ltb z x = false.

  Lemma loop_sorted fuel : forall d k lo hi, hi - lo <= fuel -> lo <= k <= hi -> hi < length d ->
    (forall x, In x d -> P x) ->
    split_at d lo -> split_at d (hi + 1) ->
    exists d' v, quickselect_loop ltb fuel d k lo hi = Some (Ok (d', v)) /\
      nth_error d' k = Some v /\ split_at d' k /\ split_at d' (k + 1).
  Proof.
    induction fuel as [|fuel IH]; intros d k lo hi Hf Hk Hl HP S1 S2; cbn [quickselect_loop].
    - destruct (Nat.ltb_spec lo hi); [lia|]. assert (lo = k) as -> by lia. assert (hi = k) as -> by lia.
      destruct (@nth_error_is_Some T d k ltac:(lia)) as [v Ev]. unfold idx. rewrite Ev. now exists d, v.
    - destruct (Nat.ltb_spec lo hi) as [H|H].
      2:{ assert (lo = k) as -> by lia. assert (hi = k) as -> by lia.
          destruct (@nth_error_is_Some T d k ltac:(lia)) as [v Ev]. unfold idx. rewrite Ev. now exists d, v. }
      destruct (partition_spec d lo hi H ltac:(lia)) as (d2 & i & pv & E & Ri & Sh & Ep & L & G).
      rewrite E. clear E.
      assert (HP2 : forall x, In x d2 -> P x).
      { intros x Hx. apply HP. eapply Permutation_in; [|exact Hx]. symmetry. eapply shuffled_perm; eauto. }
      assert (T1 : split_at d2 lo) by (eapply split_shuffle_out; eauto).
      assert (T2 : split_at d2 (hi + 1)) by (eapply split_shuffle_out; eauto; lia).
      assert (Ppv : P pv) by (apply HP2; eapply nth_error_In; eauto).
      assert (U1 : split_at d2 i).
      { intros p q x y Hpq Ex Ey. assert (P x) by (apply HP2; eapply nth_error_In; eauto).
        assert (P y) by (apply HP2; eapply nth_error_In; eauto).
        destruct (le_lt_dec lo p) as [Hp|Hp]; [|apply (T1 p q); [lia|easy|easy]].
        destruct (le_lt_dec q hi) as [Hq|Hq]; [|apply (T2 p q); [lia|easy|easy]].
        assert (A1 : ltb pv x = false) by (apply asym; try easy; apply (L p); [lia|easy]).
        destruct (Nat.eq_dec q i) as [->|].
        - rewrite Ep in Ey. now injection Ey as <-.
        - apply (negtrans x pv y); try easy. apply (G q); [lia|easy]. }
      assert (U2 : split_at d2 (i + 1)).
      { intros p q x y Hpq Ex Ey. assert (P x) by (apply HP2; eapply nth_error_In; eauto).
        assert (P y) by (apply HP2; eapply nth_error_In; eauto).
        destruct (le_lt_dec lo p) as [Hp|Hp]; [|apply (T1 p q); [lia|easy|easy]].
        destruct (le_lt_dec q hi) as [Hq|Hq]; [|apply (T2 p q); [lia|easy|easy]].
        assert (A1 : ltb y pv = false) by (apply (G q); [lia|easy]).
        destruct (Nat.eq_dec p i) as [->|].
        - rewrite Ep in Ex. now injection Ex as <-.
        - apply (negtrans x pv y); try easy. apply asym; try easy. apply (L p); [lia|easy]. }
      pose proof (proj1 Sh) as L2.
      destruct (Nat.compare_spec i k) as [C|C|C].
      + subst k. unfold idx. rewrite Ep. now exists d2, pv.
      + apply (IH d2 k (i + 1) hi); try easy; lia.
      + unfold usub. destruct (Nat.leb_spec 1 i); [|lia].
        apply (IH d2 k lo (i - 1)); try easy; try lia. now replace (i - 1 + 1) with i by lia.
  Qed.
  End Order.

  (** Without any assumption on the order: no panic, enough fuel, a permutation. *)
  Lemma loop_total fuel : forall d k lo hi, hi - lo <= fuel -> lo <= k <= hi -> hi < length d ->
    exists d' v, quickselect_loop ltb fuel d k lo hi = Some (Ok (d', v)) /\
      Permutation d d' /\ nth_error d' k = Some v.
  Proof.
    induction fuel as [|fuel IH]; intros d k lo hi Hf Hk Hl; cbn [quickselect_loop].
    - destruct (Nat.ltb_spec lo hi); [lia|].
      destruct (@nth_error_is_Some T d k ltac:(lia)) as [v Ev]. unfold idx. rewrite Ev. now exists d, v.
    - destruct (Nat.ltb_spec lo hi) as [H|H].
      2:{ destruct (@nth_error_is_Some T d k ltac:(lia)) as [v Ev]. unfold idx. rewrite Ev. now exists d, v. }
      destruct (partition_spec d lo hi H ltac:(lia)) as (d2 & i & pv & E & Ri & Sh & Ep & L & G).
      rewrite E. clear E. pose proof (proj1 Sh) as L2. apply shuffled_perm in Sh.
      destruct (Nat.compare_spec i k) as [C|C|C].
      + subst k. unfold idx. rewrite Ep. now exists d2, pv.
      + destruct (IH d2 k (i + 1) hi) as (d' & v & E & Pm & N); try lia.
        exists d', v. split; [easy|split; [now transitivity d2|easy]].
      + unfold usub. destruct (Nat.leb_spec 1 i); [|lia].
        destruct (IH d2 k lo (i - 1)) as (d' & v & E & Pm & N); try lia.
        exists d', v. split; [easy|split; [now transitivity d2|easy]].
  Qed.

  (** For every comparison function whatsoever, selecting position [k] of a
      buffer that has one returns, permutes the buffer, and returns the item
      that ends up at position [k]. *)
  Theorem quickselect_total d k : k < length d ->
    exists d' v, quickselect ltb d k = Ok (d', v) /\ Permutation d d' /\ nth_error d' k = Some v.
  Proof.
    intros H. unfold quickselect, usub. destruct (Nat.leb_spec 1 (length d)); [|lia]. cbn [bind].
    destruct (loop_total (length d) d k 0 (length d - 1)) as (d' & v & -> & R); try lia. eauto.
  Qed.

  (** When the comparison is a strict weak order on the items, the buffer ends
      up split around the selected item. *)
  Theorem quickselect_split d k : k < length d ->
    (forall x y, In x d -> In y d -> ltb x y = true -> ltb y x = false) ->
    (forall x y z, In x d -> In y d -> In z d -> ltb y x = false -> ltb z y = false -> ltb z x = false) ->
    exists d' v, quickselect ltb d k = Ok (d', v) /\ Permutation d d' /\ nth_error d' k = Some v /\
      (forall p x, p < k -> nth_error d' p = Some x -> ltb v x = false) /\
      (forall p x, k < p -> nth_error d' p = Some x -> ltb x v = false) /\
      (forall p q x y, p < k < q -> nth_error d' p = Some x -> nth_error d' q = Some y -> ltb y x = false).
  Proof.
    intros H A N. destruct (quickselect_total d k H) as (d' & v & E & Pm & Nv).
    exists d', v. split; [easy|split; [easy|split; [easy|]]].
    revert E. unfold quickselect, usub. destruct (Nat.leb_spec 1 (length d)); [|lia]. cbn [bind].
    destruct (loop_sorted (fun x => In x d) A N (length d) d k 0 (length d - 1)) as (d2 & v2 & -> & _ & S1 & S2);
      try easy; try lia.
    - intros p q x y Hpq _ Ey. assert (q < length d) by (apply nth_error_Some; congruence). lia.
    - intros [= -> ->]. split; [|split].
      + intros p x Hp Ex. apply (S1 p k); [lia|easy|easy].
      + intros p x Hp Ex. apply (S2 k p); [lia|easy|easy].
      + intros p q x y Hp Ex Ey. apply (S1 p q); [lia|easy|easy].
  Qed.
End Select.

