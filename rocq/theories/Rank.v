(** * Ranking (distribution.rs [rank]), for every arithmetic and every sort. *)

From Coq Require Import Permutation.
From Verif Require Export Count.
Local Unset Implicit Arguments.

Section Rank.
  Context {F : Type} {O : FOps F}.
  Implicit Types (l data s : list F).

  (** The items of [l] are numbers: comparisons order them weakly. *)
  Definition comparable l : Prop :=
    (forall x, In x l -> fisnan x = false) /\
    (forall x y, In x l -> In y l -> fltb x y = true -> fltb y x = false) /\
    (forall x y z, In x l -> In y l -> In z l -> fltb y x = false -> fltb z y = false -> fltb z x = false) /\
    (forall x y, In x l -> In y l -> feqb x y = negb (fltb x y) && negb (fltb y x)).

  (** What [sort_unstable_by] guarantees: the positions of [data], each once, in
      an order in which no item is followed by a smaller one. *)
  Definition sorts (ix : list nat) data : Prop :=
    Permutation (seq 0 (length data)) ix /\
    forall p q i j x y, p < q -> nth_error ix p = Some i -> nth_error ix q = Some j ->
      nth_error data i = Some x -> nth_error data j = Some y -> fltb y x = false.

  (** ** Groups of equal items in a sorted list *)
  Definition ascending s : Prop :=
    forall p q x y, p < q -> nth_error s p = Some x -> nth_error s q = Some y -> fltb y x = false.

  (** First position of the group of position [p], and one past its last. *)
  Definition starts s (p g : nat) : Prop :=
    g <= p /\ (forall q x y, g <= q <= p -> nth_error s q = Some x -> nth_error s p = Some y -> fltb x y = false) /\
    (forall q x y, q < g -> nth_error s q = Some x -> nth_error s p = Some y -> fltb x y = true).
  Definition ends s (p h : nat) : Prop :=
    p < h <= length s /\
    (forall q x y, p <= q < h -> nth_error s q = Some x -> nth_error s p = Some y -> fltb y x = false) /\
    (forall q x y, h <= q -> nth_error s q = Some x -> nth_error s p = Some y -> fltb y x = true).

  Lemma starts_count s p g y : ascending s -> comparable s -> nth_error s p = Some y -> starts s p g ->
    count (fun x => fltb x y) s = g.
  Proof.
    intros As C Hy (Hg & H1 & H2). assert (p < length s) by (apply nth_error_Some; congruence).
    apply count_threshold; [lia| |].
    - intros q x Hq Hx. apply (H2 q); easy.
    - intros q x Hq Hx. destruct (le_lt_dec q p); [apply (H1 q); [lia|easy|easy]|]. apply (As p q); easy.
  Qed.
  Lemma ends_count s p h y : ascending s -> comparable s -> nth_error s p = Some y -> ends s p h ->
    count (fun x => negb (fltb y x)) s = h.
  Proof.
    intros As C Hy (Hg & H1 & H2). apply count_threshold; [lia| |].
    - intros q x Hq Hx. apply negb_true_iff. destruct (le_lt_dec p q); [apply (H1 q); [lia|easy|easy]|]. apply (As q p); easy.
    - intros q x Hq Hx. apply negb_false_iff. apply (H2 q); easy.
  Qed.

  (** Does position [p] differ from the one before it? *)
  Definition fresh s (p : nat) : bool :=
    match p with
    | 0 => true
    | S q => match nth_error s q, nth_error s p with Some a, Some b => fneb a b | _, _ => true end
    end.

  Lemma uniq_flags_spec s f : uniq_flags s = Ok f ->
    length f = length s /\ forall p, p < length s -> nth_error f p = Some (fresh s p).
  Proof.
    unfold uniq_flags. destruct s as [|a s]; [easy|]. intros [= <-]. split; [cbn; now rewrite length_scan|].
    intros [|p] Hp; [reflexivity|]. cbn [nth_error]. cbn [length] in Hp.
    assert (G : forall a p, p < length s ->
      nth_error (scan (fun st x : F => (x, fneb st x)) a s) p = Some (fresh (a :: s) (S p))).
    { clear. induction s as [|b s IH]; intros a p Hp; cbn in Hp; [lia|].
      destruct p as [|p]; [reflexivity|]. cbn [scan nth_error]. rewrite IH by lia. reflexivity. }
    apply G. lia.
  Qed.


  Lemma comparable_irr s x : comparable s -> In x s -> fltb x x = false.
  Proof. intros (_ & Asy & _) H. destruct (fltb x x) eqn:Q; [|easy]. rewrite (Asy x x) in Q; easy. Qed.

  (** Without a fresh position in between, two items are equal. *)
  Lemma chain s g p : comparable s -> g <= p -> p < length s -> (forall q, g < q <= p -> fresh s q = false) ->
    forall x y, nth_error s g = Some x -> nth_error s p = Some y -> fltb x y = false.
  Proof.
    intros C Hg Hp Fq. assert (CC := C). destruct C as (NN & Asy & NT & EQ).
    assert (I : forall q x, nth_error s q = Some x -> In x s) by (intros; eapply nth_error_In; eauto).
    assert (E : forall d, g + d <= p -> forall x y, nth_error s g = Some x -> nth_error s (g + d) = Some y ->
       fltb x y = false).
    { induction d as [|d IH]; intros Hd x y Hx Hy.
      - rewrite Nat.add_0_r in Hy. rewrite Hx in Hy. injection Hy as <-. eapply comparable_irr; eauto.
      - destruct (@nth_error_is_Some F s (g + d) ltac:(lia)) as [z Hz].
        specialize (IH ltac:(lia) x z Hx Hz). specialize (Fq (g + S d) ltac:(lia)).
        rewrite <- Nat.add_succ_comm in Fq, Hy. cbn [Nat.add fresh] in Fq. rewrite Hz in Fq.
        cbn [Nat.add] in Hy. rewrite Hy in Fq. unfold fneb in Fq. apply negb_false_iff in Fq.
        rewrite EQ in Fq by eauto. apply andb_true_iff in Fq. destruct Fq as [Q1 Q2].
        apply negb_true_iff in Q1, Q2. apply (NT y z x); eauto. }
    intros x y Hx Hy. apply (E (p - g)); [lia|easy|]. now replace (g + (p - g)) with p by lia.
  Qed.
  (** A fresh position is above everything before it. *)
  Lemma fresh_step s g : ascending s -> comparable s -> S g < length s -> fresh s (S g) = true ->
    forall q p x y, q <= g -> S g <= p -> nth_error s q = Some x -> nth_error s p = Some y -> fltb x y = true.
  Proof.
    intros As C Hp Fg q p x y Hq Hgp Hx Hy. assert (CC := C). destruct C as (NN & Asy & NT & EQ).
    assert (I : forall q x, nth_error s q = Some x -> In x s) by (intros; eapply nth_error_In; eauto).
    destruct (@nth_error_is_Some F s g ltac:(lia)) as [a Ha].
    destruct (@nth_error_is_Some F s (S g) ltac:(lia)) as [b Hb].
    cbn [fresh] in Fg. rewrite Ha, Hb in Fg. unfold fneb in Fg. apply negb_true_iff in Fg.
    rewrite EQ in Fg by eauto. assert (ba : fltb b a = false) by (apply (As g (S g)); [lia|easy|easy]).
    rewrite ba in Fg. cbn in Fg. rewrite andb_true_r in Fg. apply negb_false_iff in Fg.
    destruct (fltb x y) eqn:Q; [easy|]. exfalso.
    assert (Q1 : fltb a x = false).
    { destruct (Nat.eq_dec q g) as [->|]; [rewrite Ha in Hx; injection Hx as ->|apply (As q g); [lia|easy|easy]].
      eapply comparable_irr; eauto. }
    assert (Q2 : fltb y b = false).
    { destruct (Nat.eq_dec p (S g)) as [->|]; [rewrite Hb in Hy; injection Hy as ->|apply (As (S g) p); [lia|easy|easy]].
      eapply comparable_irr; eauto. }
    assert (fltb a b = false); [|congruence].
    assert (fltb x b = false) by (apply (NT b y x); eauto). apply (NT b x a); eauto.
  Qed.

  Lemma fresh_starts s p g : ascending s -> comparable s -> p < length s -> g <= p -> fresh s g = true ->
    (forall q, g < q <= p -> fresh s q = false) -> starts s p g.
  Proof.
    intros As C Hp Hg Fg Fq. assert (CC := C). destruct C as (NN & Asy & NT & EQ).
    assert (I : forall q x, nth_error s q = Some x -> In x s) by (intros; eapply nth_error_In; eauto).
    split; [easy|split].
    - intros q x y Hq Hx Hy. destruct (Nat.eq_dec q g) as [->|].
      + apply (chain s g p); easy.
      + destruct (@nth_error_is_Some F s g ltac:(lia)) as [z Hz].
        assert (Q : fltb x z = false) by (apply (As g q); [lia|easy|easy]).
        assert (Q2 : fltb z y = false) by (apply (chain s g p); easy).
        apply (NT y z x); eauto.
    - intros q x y Hq Hx Hy. destruct g as [|g]; [lia|]. apply (fresh_step s g As CC) with (q := q) (p := p); try easy; lia.
  Qed.
  Lemma fresh_ends s p h : ascending s -> comparable s -> p < h <= length s -> h = length s \/ fresh s h = true ->
    (forall q, p < q < h -> fresh s q = false) -> ends s p h.
  Proof.
    intros As C Hp Fh Fq. split; [easy|split].
    - intros q x y Hq Hx Hy. apply (chain s p q); [easy|lia|lia|intros; apply Fq; lia|easy|easy].
    - intros q x y Hq Hx Hy. assert (q < length s) by (apply nth_error_Some; congruence).
      destruct Fh as [->|Fh]; [lia|]. destruct h as [|h]; [lia|].
      apply (fresh_step s h As C) with (q := p) (p := q); try easy; lia.
  Qed.

  (** Group borders exist. *)
  Lemma last_fresh s p : exists g, g <= p /\ fresh s g = true /\ forall q, g < q <= p -> fresh s q = false.
  Proof.
    induction p as [|p (g & Hg & Fg & Fq)]; [exists 0; repeat split; [lia|intros; lia]|].
    destruct (fresh s (S p)) eqn:E; [exists (S p); repeat split; [lia|easy|intros; lia]|].
    exists g. split; [lia|split; [easy|]]. intros q Hq. destruct (Nat.eq_dec q (S p)) as [->|]; [easy|apply Fq; lia].
  Qed.
  Lemma next_fresh s p : p < length s ->
    exists h, p < h <= length s /\ (h = length s \/ fresh s h = true) /\ forall q, p < q < h -> fresh s q = false.
  Proof.
    intros Hp. remember (length s - p) as d. revert p Hp Heqd. induction d as [|d IH]; intros p Hp E; [lia|].
    destruct (Nat.eq_dec (S p) (length s)) as [L|L]; [exists (S p); repeat split; [lia|lia|now left|intros; lia]|].
    destruct (fresh s (S p)) eqn:Q; [exists (S p); repeat split; [lia|lia|now right|intros; lia]|].
    destruct (IH (S p)) as (h & Hh & Fh & Fq); [lia|lia|]. exists h. split; [lia|split; [easy|]].
    intros q Hq. destruct (Nat.eq_dec q (S p)) as [->|]; [easy|apply Fq; lia].
  Qed.

  (** ** The scans *)
  Lemma rscan_states {S A B} (f : S -> A -> result (S * B)) (st : nat -> S) (v : nat -> B) (l : list A) :
    (forall p x, nth_error l p = Some x -> f (st p) x = Ok (st (p + 1), v p)) ->
    rscan f (st 0) l = Ok (map v (seq 0 (length l))).
  Proof.
    revert st v. induction l as [|a l IH]; intros st v H; [easy|]. cbn [rscan length seq map].
    rewrite (H 0 a eq_refl). cbn [bind Nat.add].
    specialize (IH (fun p => st (p + 1)) (fun p => v (p + 1))). cbn [Nat.add] in IH. rewrite IH.
    - cbn [bind]. do 2 f_equal. rewrite <- seq_shift, map_map. apply map_ext. intros. f_equal. lia.
    - intros p x Hx. apply (H (p + 1) x). rewrite Nat.add_1_r. exact Hx.
  Qed.

  (** Number of groups that begin before position [p]. *)
  Definition groups s (p : nat) : nat := count (fresh s) (seq 0 p).
  Lemma groups_S s p : groups s (p + 1) = groups s p + if fresh s p then 1 else 0.
  Proof.
    unfold groups. rewrite Nat.add_1_r, seq_S, count_app. cbn [Nat.add]. f_equal. unfold count. cbn.
    now destruct (fresh s p).
  Qed.
  Lemma groups_le s p : groups s p <= p.
  Proof. unfold groups. etransitivity; [apply count_le|]. now rewrite seq_length. Qed.
  Lemma groups_pos s p : 0 < groups s (p + 1).
  Proof. unfold groups. apply count_pos with (x := 0); [apply in_seq; lia|reflexivity]. Qed.
  Lemma groups_skip s g p : g <= p -> (forall q, g < q <= p -> fresh s q = false) -> groups s (p + 1) = groups s (g + 1).
  Proof.
    intros Hg Fq. replace p with (g + (p - g)) by lia. assert (H : g + (p - g) <= p) by lia.
    remember (p - g) as d. clear Heqd. induction d as [|d IH]; [now rewrite Nat.add_0_r|].
    replace (g + S d) with (g + d + 1) at 1 by lia. rewrite groups_S, IH, Fq by lia. lia.
  Qed.

  (** The start positions of the groups, in order, followed by the length. *)
  Definition borders s : list nat := filter (fresh s) (seq 0 (length s)) ++ [length s].
  Lemma flag_counts_spec s f : uniq_flags s = Ok f -> flag_counts f (length s) = borders s.
  Proof.
    intros U. destruct (uniq_flags_spec s f U) as [L N]. unfold flag_counts, borders. f_equal.
    assert (E : f = map (fresh s) (seq 0 (length s))).
    { apply nth_error_ext. intros p. destruct (le_lt_dec (length s) p).
      - rewrite !(proj2 (nth_error_None _ p)); [easy| |]; rewrite ?map_length, ?seq_length; lia.
      - rewrite N, nth_error_map', nth_error_seq by lia. reflexivity. }
    rewrite E. unfold enumerate. rewrite map_length, seq_length. generalize (seq 0 (length s)). intros k.
    induction k as [|a k IH]; [easy|]. cbn. destruct (fresh s a); cbn; now rewrite IH.
  Qed.
  Lemma nth_borders_start s p g : p < length s -> g <= p -> fresh s g = true ->
    (forall q, g < q <= p -> fresh s q = false) -> nth_error (borders s) (groups s (p + 1) - 1) = Some g.
  Proof.
    intros Hp Hg Fg Fq. rewrite (groups_skip s g p Hg Fq), groups_S, Fg, Nat.add_sub.
    unfold borders, groups, count.
    replace (length s) with (g + (1 + (length s - g - 1))) at 1 by lia. rewrite seq_app, filter_app, <- app_assoc.
    rewrite nth_error_app2 by lia. rewrite Nat.sub_diag. cbn [Nat.add seq filter]. rewrite Fg. reflexivity.
  Qed.
  Lemma nth_borders_end s p h : p < h <= length s -> h = length s \/ fresh s h = true ->
    (forall q, p < q < h -> fresh s q = false) -> nth_error (borders s) (groups s (p + 1)) = Some h.
  Proof.
    intros Hp Fh Fq. assert (G : groups s h = groups s (p + 1)).
    { replace h with (h - 1 + 1) by lia. apply groups_skip; [lia|]. intros; apply Fq; lia. }
    rewrite <- G. unfold borders, groups, count. destruct Fh as [->|Fh].
    - rewrite nth_error_app2, Nat.sub_diag by lia. reflexivity.
    - destruct (Nat.eq_dec h (length s)) as [->|]; [now rewrite nth_error_app2, Nat.sub_diag by lia|].
      replace (length s) with (h + (1 + (length s - h - 1))) at 1 by lia. rewrite seq_app, filter_app, <- app_assoc.
      rewrite nth_error_app2 by lia. rewrite Nat.sub_diag. cbn [Nat.add seq filter]. rewrite Fh. reflexivity.
  Qed.

  (** The rank of position [p] of a sorted list, for each mode. *)
  Definition below s (y : F) : nat := count (fun x => fltb x y) s.
  Definition upto s (y : F) : nat := count (fun x => negb (fltb y x)) s.

  Section Sorted.
    Variables (s : list F) (f : list bool).
    Hypothesis As : ascending s.
    Hypothesis C : comparable s.
    Hypothesis U : uniq_flags s = Ok f.

    Lemma flag_at p x : nth_error f p = Some x -> p < length s /\ x = fresh s p.
    Proof.
      intros H. destruct (uniq_flags_spec s f U) as [L N].
      assert (p < length s) by (rewrite <- L; apply nth_error_Some; congruence).
      split; [easy|]. rewrite N in H by easy. now injection H.
    Qed.
    Lemma len_f : length f = length s. Proof. apply (uniq_flags_spec s f U). Qed.

    Lemma borders_at p y : nth_error s p = Some y ->
      nth_error (borders s) (groups s (p + 1) - 1) = Some (below s y) /\
      nth_error (borders s) (groups s (p + 1)) = Some (upto s y).
    Proof.
      intros Hy. assert (Hp : p < length s) by (apply nth_error_Some; congruence). split.
      - destruct (last_fresh s p) as (g & Hg & Fg & Fq). rewrite (nth_borders_start s p g) by easy.
        f_equal. symmetry. apply (starts_count s p g y As C Hy). now apply fresh_starts.
      - destruct (next_fresh s p Hp) as (h & Hh & Fh & Fq). rewrite (nth_borders_end s p h) by easy.
        f_equal. symmetry. apply (ends_count s p h y As C Hy). now apply fresh_ends.
    Qed.

    Lemma ranks_max_val : ranks_max (flag_counts f (length s)) f = Ok (map (fun y => fofnat (upto s y)) s).
    Proof.
      rewrite (flag_counts_spec s f U). unfold ranks_max.
      refine (eq_trans (rscan_states _ (groups s) (fun p => fofnat (match nth_error s p with Some y => upto s y | None => 0 end)) f _) _).
      2: { f_equal. rewrite len_f. apply nth_error_ext. intros p. rewrite !nth_error_map'.
        destruct (nth_error s p) as [y|] eqn:Hy.
        + rewrite nth_error_seq by (apply nth_error_Some; congruence). cbn [Nat.add]. now rewrite Hy.
        + rewrite (proj2 (nth_error_None _ p)); [easy|]. rewrite seq_length. now apply nth_error_None. }
      - intros p x Hx. destruct (flag_at p x Hx) as [Hp ->].
        destruct (@nth_error_is_Some F s p Hp) as [y Hy]. rewrite Hy.
        replace (if fresh s p then groups s p + 1 else groups s p) with (groups s (p + 1))
          by (rewrite groups_S; destruct (fresh s p); lia).
        unfold idx. now rewrite (proj2 (borders_at p y Hy)).
    Qed.
    Lemma ranks_average_val : ranks_average (flag_counts f (length s)) f =
      Ok (map (fun y => fdiv (fofnat (1 + upto s y + below s y)) (flit 2 1)) s).
    Proof.
      rewrite (flag_counts_spec s f U). unfold ranks_average.
      refine (eq_trans (rscan_states _ (groups s) (fun p => match nth_error s p with
         Some y => fdiv (fofnat (1 + upto s y + below s y)) (flit 2 1) | None => fnan end) f _) _).
      2: { f_equal. rewrite len_f. apply nth_error_ext. intros p. rewrite !nth_error_map'.
        destruct (nth_error s p) as [y|] eqn:Hy.
        + rewrite nth_error_seq by (apply nth_error_Some; congruence). cbn [Nat.add]. now rewrite Hy.
        + rewrite (proj2 (nth_error_None _ p)); [easy|]. rewrite seq_length. now apply nth_error_None. }
      - intros p x Hx. destruct (flag_at p x Hx) as [Hp ->].
        destruct (@nth_error_is_Some F s p Hp) as [y Hy]. rewrite Hy.
        replace (if fresh s p then groups s p + 1 else groups s p) with (groups s (p + 1))
          by (rewrite groups_S; destruct (fresh s p); lia).
        unfold idx. rewrite (proj2 (borders_at p y Hy)). cbn [bind].
        unfold usub. pose proof (groups_pos s p). destruct (Nat.leb_spec 1 (groups s (p + 1))); [|lia]. cbn [bind].
        now rewrite (proj1 (borders_at p y Hy)).
    Qed.
    Lemma ranks_min_val : ranks_min f = map (fun y => fofnat (1 + below s y)) s.
    Proof.
      unfold ranks_min.
      assert (G : forall fl a k st, (forall p x, nth_error fl p = Some x -> x = fresh s (a + p)) -> k = a + 1 ->
        (a = 0 \/ exists g, S g = st /\ g < a /\ fresh s g = true /\ (forall q, g < q < a -> fresh s q = false)) ->
        forall p y, p < length fl -> nth_error s (a + p) = Some y ->
        nth_error (scan (fun st '(rank, take) => let st' := if (take : bool) then rank else st in (st', fofnat st'))
           st (combine (seq k (length fl)) fl)) p = Some (fofnat (1 + below s y))).
      { induction fl as [|x fl IH]; intros a k st Hf Hk Hst p y Hp Hy; cbn in Hp; [lia|].
        cbn [length seq combine scan]. pose proof (Hf 0 x eq_refl) as Ex. rewrite Nat.add_0_r in Ex. subst x.
        assert (St : exists g, S g = (if fresh s a then k else st) /\ g < a + 1 /\ fresh s g = true /\
           (forall q, g < q < a + 1 -> fresh s q = false)).
        { destruct (fresh s a) eqn:E.
          - exists a. repeat split; try easy; lia.
          - destruct Hst as [->|(g & G1 & G2 & G3 & G4)]; [discriminate|]. exists g. repeat split; try easy; try lia.
            intros q Hq. destruct (Nat.eq_dec q a) as [->|]; [easy|apply G4; lia]. }
        destruct p as [|p].
        - cbn [nth_error]. rewrite Nat.add_0_r in Hy. destruct St as (g & <- & G2 & G3 & G4).
          do 2 f_equal. cbn. f_equal. symmetry. assert (a < length s) by (apply nth_error_Some; congruence).
          apply (starts_count s a g y As C Hy). apply fresh_starts; try easy; try lia. intros; apply G4; lia.
        - cbn [nth_error]. apply (IH (a + 1) (S k)); try lia.
          + intros q z Hz. rewrite <- Nat.add_assoc. now apply Hf.
          + now right.
          + now rewrite <- Nat.add_assoc. }
      apply nth_error_ext. intros p. rewrite nth_error_map'. destruct (nth_error s p) as [y|] eqn:Hy.
      - assert (p < length s) by (apply nth_error_Some; congruence).
        apply (G f 0 1 1); try easy; [|now left|rewrite len_f; easy].
        intros q x Hx. now apply flag_at.
      - apply nth_error_None. rewrite length_scan, combine_length, seq_length, len_f. apply nth_error_None in Hy. lia.
    Qed.
    Lemma ranks_dense_val : (N.of_nat (length s) < 2 ^ 31)%N ->
      ranks_dense f = Ok (map (fun p => fofnat (groups s (p + 1))) (seq 0 (length s))).
    Proof.
      intros Hb. unfold ranks_dense.
      refine (eq_trans (rscan_states _ (fun p => N.of_nat (groups s p)) (fun p => fofnat (groups s (p + 1))) f _) _).
      2: { now rewrite len_f. }
      - intros p x Hx. destruct (flag_at p x Hx) as [Hp ->].
        replace (if fresh s p then (N.of_nat (groups s p) + 1)%N else N.of_nat (groups s p)) with (N.of_nat (groups s (p + 1)))
          by (rewrite groups_S; destruct (fresh s p); lia).
        pose proof (groups_le s (p + 1)). destruct (N.ltb_spec (N.of_nat (groups s (p + 1))) (2 ^ 31)); [easy|lia].
    Qed.
  End Sorted.

  (** ** Scattering back *)
  Lemma scatter_length n r ix : length (scatter n r ix) = n.
  Proof.
    unfold scatter. rewrite <- (repeat_length (@flit F O 0 1) n) at 2. generalize (repeat (@flit F O 0 1) n).
    generalize (combine r ix). induction l as [|[v i] l IH]; intros m; cbn [fold_left]; [easy|].
    now rewrite IH, length_upd.
  Qed.
  Lemma scatter_at n r ix p i v : NoDup ix -> (forall j, In j ix -> j < n) -> length r = length ix ->
    nth_error ix p = Some i -> nth_error r p = Some v -> nth_error (scatter n r ix) i = Some v.
  Proof.
    intros ND Hn. unfold scatter. assert (L0 : length (repeat (@flit F O 0 1) n) = n) by apply repeat_length.
    revert L0. generalize (repeat (@flit F O 0 1) n). intros m L0 L Hi Hv.
    revert r p m L0 L Hi Hv. induction ix as [|j ix IH]; intros [|w r] p m L0 L Hi Hv; try (now destruct p).
    inversion ND as [|? ? Nj ND']; subst. cbn [combine fold_left]. destruct p as [|p]; cbn in Hi, Hv.
    - injection Hi as ->. injection Hv as ->. clear IH ND ND'.
      assert (Hi : i < length m) by (apply Hn; now left).
      assert (G : forall (l : list (F * nat)) (m : list F), length m = length m -> ~ In i (map snd l) -> (forall q, In q (map snd l) -> q < length m) ->
        nth_error m i = Some v -> nth_error (fold_left (fun r '(v, i) => upd r i v) l m) i = Some v).
      { clear. induction l as [|[v' q] l IH]; intros m _ Ni Hl Hm; cbn [fold_left]; [easy|]. cbn in Ni, Hl.
        apply IH; [easy|tauto| |].
        - rewrite length_upd. intros; apply Hl; now right.
        - rewrite nth_error_upd by (apply Hl; now left). destruct (Nat.eqb_spec i q); [|easy]. subst. tauto. }
      assert (Sn : map snd (combine r ix) = ix).
      { clear - L. injection L as L. revert ix L. induction r; intros [|b ix] L; cbn in *; try easy. f_equal. apply IHr. lia. }
      apply G; [easy|now rewrite Sn| |].
      + rewrite Sn, length_upd. intros; apply Hn; now right.
      + rewrite nth_error_upd by easy. now rewrite Nat.eqb_refl.
    - apply (IH ND') with (p := p); try easy.
      + intros q Hq. apply Hn. now right.
      + now rewrite length_upd.
      + now injection L.
  Qed.

  (** ** rank *)
  Lemma sorted_of data ix : sorts ix data ->
    exists s, rmap (idx data) ix = Ok s /\ Permutation data s /\ ascending s /\ length s = length data /\
      forall p i, nth_error ix p = Some i -> nth_error s p = nth_error data i.
  Proof.
    intros [Pm Sr]. set (s := map (fun i => nth i data fnan) ix).
    assert (In_ix : forall i, In i ix -> i < length data).
    { intros i Hi. eapply Permutation_in in Hi; [|symmetry; exact Pm]. apply in_seq in Hi. lia. }
    assert (N : forall p i, nth_error ix p = Some i -> nth_error s p = nth_error data i).
    { intros p i Hi. unfold s. rewrite nth_error_map', Hi. symmetry. apply nth_error_nth'.
      apply In_ix. eapply nth_error_In; eauto. }
    exists s. split; [|split; [|split; [|split]]].
    - apply rmap_Ok_map. intros i Hi. unfold idx. now rewrite (nth_error_nth' data fnan) by now apply In_ix.
    - unfold s. rewrite <- Pm. replace (map _ (seq 0 (length data))) with data; [easy|].
      apply nth_error_ext. intros p. rewrite nth_error_map'. destruct (le_lt_dec (length data) p).
      + rewrite !(proj2 (nth_error_None _ p)); [easy| |]; rewrite ?seq_length; lia.
      + rewrite nth_error_seq by easy. cbn [Nat.add]. now apply nth_error_nth'.
    - intros p q x y Hpq Hx Hy.
      assert (Lp : p < length ix) by (unfold s in Hx; rewrite <- (map_length (fun i => nth i data fnan)); apply nth_error_Some; congruence).
      assert (Lq : q < length ix) by (unfold s in Hy; rewrite <- (map_length (fun i => nth i data fnan)); apply nth_error_Some; congruence).
      destruct (@nth_error_is_Some _ ix p Lp) as [i Hi], (@nth_error_is_Some _ ix q Lq) as [j Hj].
      rewrite (N p i Hi) in Hx. rewrite (N q j Hj) in Hy. exact (Sr p q i j x y Hpq Hi Hj Hx Hy).
    - unfold s. rewrite map_length. rewrite <- (Permutation_length Pm). now rewrite seq_length.
    - easy.
  Qed.

  Lemma comparable_perm l l' : Permutation l l' -> comparable l -> comparable l'.
  Proof.
    intros P (A & B & C & D). assert (I : forall x, In x l' -> In x l).
    { intros x Hx. eapply Permutation_in; [symmetry; exact P|easy]. }
    split; [|split; [|split]]; intros; [apply A|apply B|apply (C x y z)|apply D]; auto.
  Qed.
  Lemma argsort_ok srt data : comparable data -> argsort srt data = Ok (srt data).
  Proof.
    intros (A & _). unfold argsort. replace (existsb fisnan data) with false; [now rewrite andb_false_r|].
    symmetry. apply not_true_is_false. intros H. apply existsb_exists in H. destruct H as (x & Hx & E).
    rewrite A in E by easy. discriminate.
  Qed.

  Lemma rank_gen srt data (vals : list F -> F -> F) (r : list F -> list bool -> result (list F)) :
    comparable data -> sorts (srt data) data -> data <> [] ->
    (forall s f, ascending s -> comparable s -> length s = length data -> Permutation data s -> uniq_flags s = Ok f -> r s f = Ok (map (vals s) s)) ->
    exists s, ascending s /\ Permutation data s /\ length s = length data /\
    (let* sorted := rmap (idx data) (srt data) in
     let* flags := uniq_flags sorted in
     let* ranks := r sorted flags in
     Ok (scatter (length data) ranks (srt data))) = Ok (map (vals s) data).
  Proof.
    intros C Sr Hn Hr. destruct (sorted_of data (srt data) Sr) as (s & E & Ps & As & Ls & Ns).
    exists s. split; [easy|split; [easy|split; [easy|]]]. rewrite E. cbn [bind].
    destruct (uniq_flags s) as [f|] eqn:U.
    2:{ exfalso. unfold uniq_flags in U. destruct s; [|discriminate]. destruct data; [easy|discriminate]. }
    cbn [bind]. rewrite Hr by (try easy; now apply (comparable_perm data)). cbn [bind]. f_equal.
    destruct Sr as [Pm _]. assert (ND : NoDup (srt data)) by (eapply Permutation_NoDup; [exact Pm|apply seq_NoDup]).
    assert (Bd : forall j, In j (srt data) -> j < length data).
    { intros i Hi. eapply Permutation_in in Hi; [|symmetry; exact Pm]. apply in_seq in Hi. lia. }
    apply nth_error_ext. intros i. destruct (le_lt_dec (length data) i) as [H|H].
    - rewrite !(proj2 (nth_error_None _ i)); [easy| |]; rewrite ?scatter_length, ?map_length; lia.
    - assert (Hin : In i (srt data)) by (eapply Permutation_in; [exact Pm|apply in_seq; lia]).
      apply In_nth_error in Hin as [p Hp]. rewrite nth_error_map'.
      destruct (@nth_error_is_Some _ data i H) as [y Hy]. rewrite Hy.
      apply (scatter_at _ _ _ p); try easy.
      + rewrite map_length, Ls. rewrite <- (Permutation_length Pm). now rewrite seq_length.
      + rewrite nth_error_map', (Ns p i Hp), Hy. reflexivity.
  Qed.

  Lemma below_perm l l' y : Permutation l l' -> below l y = below l' y.
  Proof. intros. now apply count_perm. Qed.
  Lemma upto_perm l l' y : Permutation l l' -> upto l y = upto l' y.
  Proof. intros. now apply count_perm. Qed.

  (** [Min]: one more than the number of strictly smaller items. *)
  Theorem rank_min srt data : comparable data -> sorts (srt data) data -> data <> [] ->
    rank srt data (Some RMin) = Ok (map (fun y => fofnat (1 + count (fun x => fltb x y) data)) data) /\
    rank srt data None = rank srt data (Some RMin).
  Proof.
    intros C Sr Hn. split; [|reflexivity]. unfold rank. rewrite argsort_ok by easy. cbn [bind].
    destruct (rank_gen srt data (fun s y => fofnat (1 + below s y)) (fun s f => Ok (ranks_min f))) as (s & As & Ps & Ls & E); try easy.
    { intros s f As Cs Ls Ps U. f_equal. apply (ranks_min_val s f As Cs U). }
    etransitivity; [exact E|]. f_equal. apply map_ext. intros y.
    change (fofnat (1 + below s y) = fofnat (1 + below data y)). now rewrite (below_perm data s y Ps).
  Qed.
  (** [Max]: the number of items that are not larger. *)
  Theorem rank_max srt data : comparable data -> sorts (srt data) data -> data <> [] ->
    rank srt data (Some RMax) = Ok (map (fun y => fofnat (count (fun x => negb (fltb y x)) data)) data).
  Proof.
    intros C Sr Hn. unfold rank. rewrite argsort_ok by easy. cbn [bind].
    destruct (rank_gen srt data (fun s y => fofnat (upto s y)) (fun s f => ranks_max (flag_counts f (length data)) f))
      as (s & As & Ps & Ls & E); try easy.
    { intros s f As Cs Ls Ps U. rewrite <- Ls. apply (ranks_max_val s f As Cs U). }
    etransitivity; [exact E|]. f_equal. apply map_ext. intros y.
    change (fofnat (upto s y) = fofnat (upto data y)). now rewrite (upto_perm data s y Ps).
  Qed.
  (** [Average]: the mean of the [Min] and the [Max] rank. *)
  Theorem rank_average srt data : comparable data -> sorts (srt data) data -> data <> [] ->
    rank srt data (Some RAverage) =
    Ok (map (fun y => fdiv (fofnat (1 + count (fun x => negb (fltb y x)) data + count (fun x => fltb x y) data)) (flit 2 1)) data).
  Proof.
    intros C Sr Hn. unfold rank. rewrite argsort_ok by easy. cbn [bind].
    destruct (rank_gen srt data (fun s y => fdiv (fofnat (1 + upto s y + below s y)) (flit 2 1))
      (fun s f => ranks_average (flag_counts f (length data)) f)) as (s & As & Ps & Ls & E); try easy.
    { intros s f As Cs Ls Ps U. rewrite <- Ls. apply (ranks_average_val s f As Cs U). }
    etransitivity; [exact E|]. f_equal. apply map_ext. intros y.
    do 2 f_equal. change (1 + upto s y + below s y = 1 + upto data y + below data y).
    now rewrite (upto_perm data s y Ps), (below_perm data s y Ps).
  Qed.
  (** [Ordinal]: the ranks are 1..n, each once, and a smaller item has a smaller rank. *)
  Theorem rank_ordinal srt data : comparable data -> sorts (srt data) data ->
    exists pos, rank srt data (Some ROrdinal) = Ok (map fofnat pos) /\
      Permutation (seq 1 (length data)) pos /\
      forall i j x y p q, nth_error data i = Some x -> nth_error data j = Some y -> fltb x y = true ->
        nth_error pos i = Some p -> nth_error pos j = Some q -> p < q.
  Proof.
    intros C Sr. unfold rank. rewrite argsort_ok by easy. cbn [bind].
    destruct Sr as [Pm Sr]. set (ix := srt data) in *. assert (ND : NoDup ix) by (eapply Permutation_NoDup; [exact Pm|apply seq_NoDup]).
    assert (Bd : forall j, In j ix -> j < length data).
    { intros i Hi. eapply Permutation_in in Hi; [|symmetry; exact Pm]. apply in_seq in Hi. lia. }
    assert (Lix : length ix = length data) by (rewrite <- (Permutation_length Pm); apply seq_length).
    (* position of i in ix *)
    set (at_ix := fun i => match find (fun p => match nth_error ix p with Some j => j =? i | None => false end) (seq 0 (length ix)) with
                           Some p => p | None => 0 end).
    assert (A : forall i, i < length data -> nth_error ix (at_ix i) = Some i /\ at_ix i < length ix).
    { intros i Hi. assert (Hin : In i ix) by (eapply Permutation_in; [exact Pm|apply in_seq; lia]).
      apply In_nth_error in Hin as [p Hp]. assert (p < length ix) by (apply nth_error_Some; congruence).
      unfold at_ix. destruct (find _ _) as [q|] eqn:Fq.
      - apply find_some in Fq. destruct Fq as [Q1 Q2]. apply in_seq in Q1.
        destruct (nth_error ix q) as [j|] eqn:E; [|discriminate]. apply Nat.eqb_eq in Q2. subst. split; [easy|lia].
      - exfalso. apply find_none with (x := p) in Fq; [|apply in_seq; lia]. rewrite Hp, Nat.eqb_refl in Fq. discriminate. }
    set (pos := map (fun i => 1 + at_ix i) (seq 0 (length data))).
    assert (Np : forall i p, nth_error pos i = Some p -> i < length data /\ p = 1 + at_ix i).
    { intros i p Hp. assert (i < length data) by (unfold pos in Hp; rewrite <- (seq_length (length data) 0), <- (map_length (fun i => 1 + at_ix i)); apply nth_error_Some; congruence).
      split; [easy|]. unfold pos in Hp. rewrite nth_error_map', nth_error_seq in Hp by easy. now injection Hp as <-. }
    exists pos. split; [|split].
    - f_equal. apply nth_error_ext. intros i. destruct (le_lt_dec (length data) i) as [H|H].
      + rewrite !(proj2 (nth_error_None _ i)); [easy| |]; rewrite ?scatter_length, ?map_length; unfold pos; rewrite ?map_length, ?seq_length; lia.
      + destruct (A i H) as [A1 A2]. transitivity (Some (@fofnat F O (1 + at_ix i))).
        * apply (scatter_at _ _ _ (at_ix i)); try easy; [now rewrite map_length, seq_length|].
          rewrite nth_error_map', nth_error_seq by lia. reflexivity.
        * unfold pos. rewrite !nth_error_map', !nth_error_seq by lia. reflexivity.
    - apply NoDup_Permutation_bis.
      + apply seq_NoDup.
      + unfold pos. now rewrite map_length, !seq_length.
      + intros k Hk. apply in_seq in Hk. destruct (@nth_error_is_Some _ ix (k - 1) ltac:(lia)) as [i Hi].
        assert (Hb : i < length data) by (apply Bd; eapply nth_error_In; eauto).
        unfold pos. apply in_map_iff. exists i. split; [|apply in_seq; lia]. destruct (A i Hb) as [A1 A2].
        assert (at_ix i = k - 1); [|lia]. eapply (proj1 (NoDup_nth_error ix) ND); [easy|congruence].
    - intros i j x y p q Hx Hy Lt Hp Hq. apply Np in Hp, Hq. destruct Hp as [Hi ->], Hq as [Hj ->].
      destruct (A i Hi) as [A1 A2], (A j Hj) as [B1 B2].
      destruct (lt_eq_lt_dec (at_ix i) (at_ix j)) as [[L|E]|G]; [lia| |]; exfalso.
      + rewrite E, B1 in A1. injection A1 as ->. rewrite Hx in Hy. injection Hy as ->.
        rewrite (comparable_irr data y) in Lt; try easy. eapply nth_error_In; eauto.
      + assert (fltb x y = false); [|congruence]. apply (Sr _ _ _ _ y x G B1 A1 Hy Hx).
  Qed.

  (** [k] distinct values among the items of [l] are smaller than [y]. *)
  Definition distinct_below l (y : F) (k : nat) : Prop :=
    exists ds, length ds = k /\ (forall d, In d ds -> In d l /\ fltb d y = true) /\
      (forall p q a b, p < q -> nth_error ds p = Some a -> nth_error ds q = Some b -> fltb a b = true) /\
      (forall x, In x l -> fltb x y = true -> exists d, In d ds /\ fltb d x = false /\ fltb x d = false).
  Lemma distinct_below_perm l l' y k : Permutation l l' -> distinct_below l y k -> distinct_below l' y k.
  Proof.
    intros P (ds & L & A & B & C). exists ds. split; [easy|split; [|split; [easy|]]].
    - intros d Hd. destruct (A d Hd). split; [|easy]. eapply Permutation_in; eauto.
    - intros x Hx. apply C. eapply Permutation_in; [symmetry; exact P|easy].
  Qed.
  Lemma groups_distinct s p y : ascending s -> comparable s -> nth_error s p = Some y ->
    distinct_below s y (groups s (p + 1) - 1).
  Proof.
    intros As C Hy. assert (Hp : p < length s) by (apply nth_error_Some; congruence).
    destruct (last_fresh s p) as (g & Hg & Fg & Fq).
    assert (St := fresh_starts s p g As C Hp Hg Fg Fq). destruct St as (_ & S1 & S2).
    rewrite (groups_skip s g p Hg Fq), groups_S, Fg, Nat.add_sub.
    exists (map (fun q => nth q s y) (filter (fresh s) (seq 0 g))). split; [|split; [|split]].
    - rewrite map_length. reflexivity.
    - intros d Hd. apply in_map_iff in Hd. destruct Hd as (q & <- & Hq). apply filter_In in Hq. destruct Hq as [Hq Fr].
      apply in_seq in Hq. split; [apply nth_In; lia|]. apply (S2 q); [lia| |easy]. apply nth_error_nth'. lia.
    - assert (G : forall b a p q u v, a + b <= length s -> p < q ->
        nth_error (filter (fresh s) (seq a b)) p = Some u -> nth_error (filter (fresh s) (seq a b)) q = Some v ->
        u < v < length s /\ fresh s v = true).
      { clear. induction b as [|b IH]; intros a p q u v Hb Hpq Hu Hv; cbn [seq filter] in *; [now destruct p|].
        destruct (fresh s a) eqn:E.
        - destruct p as [|p], q as [|q]; cbn in Hu, Hv; try lia.
          + injection Hu as <-. apply nth_error_In in Hv. apply filter_In in Hv. destruct Hv as [Hv Fv]. apply in_seq in Hv. split; [lia|easy].
          + apply (IH (S a) p q); try easy; lia.
        - apply (IH (S a) p q); try easy; lia. }
      intros a b x z Hab Ha Hb. rewrite nth_error_map' in Ha; rewrite nth_error_map' in Hb.
      destruct (nth_error (filter (fresh s) (seq 0 g)) a) as [u|] eqn:Eu; [|discriminate].
      destruct (nth_error (filter (fresh s) (seq 0 g)) b) as [v|] eqn:Ev; [|discriminate].
      destruct (G g 0 a b u v ltac:(lia) Hab Eu Ev) as [Huv Fv]. injection Ha as <-. injection Hb as <-.
      destruct v as [|v]; [lia|]. apply (fresh_step s v As C) with (q := u) (p := S v); try easy; try lia; apply nth_error_nth'; lia.
    - intros x Hx Lt. apply In_nth_error in Hx as [q Hq].
      assert (Hq' : q < length s) by (apply nth_error_Some; congruence).
      destruct (le_lt_dec g q) as [H|H].
      { exfalso. destruct (le_lt_dec q p) as [H2|H2].
        - rewrite (S1 q x y) in Lt; easy.
        - rewrite (As p q y x) in Lt; easy. }
      destruct (last_fresh s q) as (g2 & Hg2 & Fg2 & Fq2).
      exists (nth g2 s y). split; [|].
      + apply in_map_iff. exists g2. split; [easy|]. apply filter_In. split; [apply in_seq; lia|easy].
      + split; [apply (chain s g2 q C Hg2 Hq' Fq2); [apply nth_error_nth'; lia|easy]|].
        destruct (Nat.eq_dec g2 q) as [->|].
        * rewrite (nth_error_nth s q y Hq). apply (comparable_irr s x C). eapply nth_error_In; eauto.
        * apply (As g2 q); [lia|apply nth_error_nth'; lia|easy].
  Qed.

  Definition lower s (y : F) : nat :=
    count (fun q => fresh s q && match nth_error s q with Some x => fltb x y | None => false end) (seq 0 (length s)).
  Lemma groups_lower s p y : ascending s -> comparable s -> nth_error s p = Some y ->
    groups s (p + 1) = 1 + lower s y.
  Proof.
    intros As C Hy. assert (Hp : p < length s) by (apply nth_error_Some; congruence).
    destruct (last_fresh s p) as (g & Hg & Fg & Fq).
    assert (St := fresh_starts s p g As C Hp Hg Fg Fq). destruct St as (_ & S1 & S2).
    rewrite (groups_skip s g p Hg Fq), groups_S, Fg. rewrite Nat.add_comm. f_equal. unfold lower.
    replace (length s) with (g + (length s - g)) by lia. rewrite seq_app, count_app.
    rewrite (count_none _ (seq (0 + g) _)).
    - rewrite Nat.add_0_r. unfold groups, count. f_equal. apply filter_ext_in. intros q Hq. apply in_seq in Hq.
      destruct (@nth_error_is_Some F s q ltac:(lia)) as [x Hx]. rewrite Hx, (S2 q x y ltac:(lia) Hx Hy). now rewrite andb_true_r.
    - intros q Hq. apply in_seq in Hq. destruct (nth_error s q) as [x|] eqn:Hx; [|apply andb_false_r].
      replace (fltb x y) with false; [apply andb_false_r|]. symmetry.
      destruct (le_lt_dec q p); [apply (S1 q); [lia|easy|easy]|apply (As p q); easy].
  Qed.
  (** [Dense]: one more than the number of distinct smaller values. *)
  Theorem rank_dense srt data : comparable data -> sorts (srt data) data -> data <> [] ->
    (N.of_nat (length data) < 2 ^ 31)%N ->
    exists k, rank srt data (Some RDense) = Ok (map (fun y => fofnat (1 + k y)) data) /\
      forall y, In y data -> distinct_below data y (k y).
  Proof.
    intros C Sr Hn Hb. unfold rank. rewrite argsort_ok by easy. cbn [bind].
    destruct (rank_gen srt data (fun s y => fofnat (1 + lower s y)) (fun s f => ranks_dense f))
      as (s & As & Ps & Ls & E); try easy.
    { intros s f As Cs Ls Ps U. rewrite <- Ls in Hb. rewrite (ranks_dense_val s f U Hb). f_equal.
      apply nth_error_ext. intros p. rewrite !nth_error_map'. destruct (nth_error s p) as [y|] eqn:Hy.
      - rewrite nth_error_seq by (apply nth_error_Some; congruence). cbn [Nat.add]. f_equal. f_equal. now apply groups_lower.
      - rewrite (proj2 (nth_error_None _ p)); [easy|]. rewrite seq_length. now apply nth_error_None. }
    exists (lower s). split; [exact E|]. intros y Hy. apply (distinct_below_perm s); [easy|].
    eapply Permutation_in in Hy; [|exact Ps]. apply In_nth_error in Hy as [p Hp].
    assert (Cs := comparable_perm data s Ps C).
    replace (lower s y) with (groups s (p + 1) - 1) by (rewrite (groups_lower s p y); [lia|easy..]).
    now apply groups_distinct.
  Qed.
  (** The empty input panics, except for [Ordinal]. *)
  Lemma rank_empty srt m : srt [] = [] -> m <> Some ROrdinal -> rank srt [] m = Panic.
  Proof. intros E H. unfold rank, argsort. rewrite E. cbn. destruct m as [[]|]; easy. Qed.
End Rank.
